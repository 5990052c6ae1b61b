(** The loaded Kokkos object holds the numbers of the loaded CPU object: readout, ZBL, and all together.  Used in proofs only. *)
From Coq Require Import List Arith ZArith Bool Lia Reals Lra Permutation.
From Verif Require Import Base BaseLemmas Segs BlasLemmas Instances RSums ToolsModel MpModel MpSpec MpProofs SplineModel SplineProofs ZblModel MaceModel MaceSpec Sys SysLoops
  MaceGrid MacePure MaceStages1 MaceStages7 MlpModel MlpProofs MacePipe MaceLoad MaceFlat.
From Verif Require Import KkSem KkWp KkModel KkHost KkK1 KkK3 KkK4 KkK5 KkK6 KkK7 KkEq KkStage1 KkSpec KkLoad1 KkLoad2 KkLoad3.
Import ListNotations.
Local Open Scope nat_scope.

(** ** decoding a row *)
Fixpoint dlf (g : nat -> nat) (n x : nat) : nat := match n with 0 => 0 | S n' => if x <? g n' then dlf g n' x else n' end.
Lemma dlf_ok g x l n : (forall a b, a <= b -> g a <= g b) -> l < n -> g l <= x -> x < g (S l) -> dlf g n x = l.
Proof.
  intros Hm. induction n as [|n IH]; intros Hl H1 H2; [lia|]. cbn [dlf]. destruct (Nat.ltb_spec x (g n)) as [C|C].
  - apply IH; auto. destruct (Nat.eq_dec l n) as [->|]; lia.
  - destruct (Nat.eq_dec l n) as [->|]; auto. pose proof (Hm (S l) n ltac:(lia)). lia.
Qed.
Lemma dec_ok (km : kmace RNum) (mm : mace_model RNum) : exists dl dm de, A1_dec km (moff mm) (mult mm) dl dm de.
Proof.
  set (d := fun x => dlf (moff mm) (k_l_max km + 1) x).
  exists d, (fun x => (x - moff mm (d x)) / mult mm (d x)), (fun x => (x - moff mm (d x)) mod mult mm (d x)).
  intros l m e Hl Hm He. unfold row.
  assert (E : d (moff mm l + m * mult mm l + e) = l).
  { apply dlf_ok; auto; [intros; apply moff_mono; auto|lia|]. rewrite moff_S. nia. }
  rewrite E. replace (moff mm l + m * mult mm l + e - moff mm l) with (m * mult mm l + e) by lia.
  split; auto. rewrite Nat.div_add_l, Nat.div_small, Nat.add_0_r by lia. rewrite Nat.add_comm, Nat.mod_add, Nat.mod_small by lia. auto.
Qed.

Lemma nth_chunks {A} c n (w : list A) p q d : length w = c * n -> p < n -> q < c -> nth q (nth p (chunks c n w) []) d = nth (p * c + q) w d.
Proof.
  intros L Hp Hq. unfold chunks. rewrite (nth_indep _ [] (firstn c (skipn (0 * c) w))) by (rewrite map_length, seq_length; auto).
  rewrite (map_nth (fun i => firstn c (skipn (i * c) w)) _ 0), seq_nth by auto. cbn [Nat.add]. rewrite nth_firstn_lt by auto.
  rewrite <- (firstn_skipn (p * c) w) at 2. rewrite app_nth2; rewrite firstn_length, Nat.min_l by nia; [|lia]. f_equal. lia.
Qed.

Section In.
Variable srt : list (list (list nat)) -> list (list (list nat)).
Hypothesis Hsrt : forall l, Permutation l (srt l).
Variable f : mace_file RNum.
Hypothesis F : file_ok f.
Hypothesis KF : kk_file_ok f.
Variable km : kmace RNum.
Hypothesis D : kld srt f km.
Variable s : sys RNum.
Variable nH : nat.
Hypothesis SW : sys_wf (ldm f) s nH.
Hypothesis Hx : forall q, q < length (epairs s) -> in_domain f (e_r (eg s q)).
Notation T := (length (f_atomic_numbers f)).
Notation K := (f_num_channels f).
Notation mm := (ldm f).
Definition ldw0 (p q : nat) : R := nth (p * K + q) (f_readout_2_weights_1 f) 0%R.
Definition ldw1 (p q : nat) : R := nth q (f_readout_2_weights_2 f) 0%R.
Notation sc := (f_readout_2_scale_factor f).

Lemma fwd1 (x : nat -> R) (g : R -> R) p : p < 16 ->
  nth p (map g (mv (N:=RNum) (chunks K 16 (f_readout_2_weights_1 f)) (tab K x))) 0%R = g (rsum K (fun q => ldw0 p q * x q)%R).
Proof.
  intros Hp. pose proof (fo_r2a _ F) as L. set (Wc := chunks K 16 _).
  assert (LW : length (mv (N:=RNum) Wc (tab K x)) = 16) by (rewrite length_mv; apply length_chunks).
  rewrite (nth_indep _ 0%R (g 0%R)) by (rewrite map_length; exact (eq_ind_r (fun z => p < z) Hp LW)). refine (eq_trans (map_nth g _ 0%R p) _). f_equal.
  rewrite (mv_tab (N:=RNum) Wc (tab K x) K) by (intros r Hr; eapply rows_chunks; eauto).
  refine (eq_trans (nth_tab _ _ p 0%R _) _); [unfold Wc; rewrite length_chunks; auto|].
  refine (eq_trans (nsum_rsum K _) _). apply rsum_ext. intros q Hq. rewrite RNum_zero. cbn [nmul RNum].
  apply (f_equal2 Rmult); [apply (nth_chunks K 16 (f_readout_2_weights_1 f) p q 0%R L Hp Hq)|apply (nth_tab K x q 0%R Hq)].
Qed.
Lemma fe_ok (x : nat -> R) : ldfe f (tab K x) =
  rsum 16 (fun p => ldw1 0 p * (sc * (rsum K (fun q => ldw0 p q * x q)) / (1 + exp (- rsum K (fun q => ldw0 p q * x q)))))%R.
Proof.
  unfold ldfe, out_of, ldWs. cbn [length Nat.sub]. unfold fwd, Wl. cbn [nth]. unfold mv at 1. cbn [map nth].
  unfold rowdot. rewrite (fo_r2b _ F). refine (eq_trans (nsum_rsum 16 _) _). apply rsum_ext. intros p Hp. rewrite RNum_zero. cbn [nmul RNum].
  apply (f_equal2 Rmult); [reflexivity|]. refine (eq_trans (fwd1 x (act_g (N:=RNum) sc) p Hp) _).
  unfold act_g, sg. rewrite RNum_one. cbn [nmul ndiv nadd nopp nexp RNum]. unfold Rdiv. rewrite Rmult_1_l. reflexivity.
Qed.
Lemma fg_ok (x : nat -> R) k : k < K -> ldfg f (tab K x) k =
  rsum 16 (fun p => ldw0 p k * (let z := rsum K (fun q => ldw0 p q * x q) in let sg := 1 / (1 + exp (- z)) in
      ldw1 0 p * (sc * sg + sc * z * sg * (1 - sg))))%R.
Proof.
  intros Hk. unfold ldfg, ldWs. cbn [Dk length Nat.sub]. unfold Wl at 2. cbn [nth map concat]. rewrite app_nil_r.
  unfold vm. change (sh K _ 0) with K. rewrite (nth_tab K _ k) by auto. unfold Wl at 1. cbn [nth]. rewrite length_chunks.
  refine (eq_trans (nsum_rsum 16 _) _). apply rsum_ext. intros p Hp. cbv zeta. cbn [nmul RNum]. rewrite RNum_zero. refine (eq_trans (Rmult_comm _ _) _).
  apply (f_equal2 Rmult); [apply (nth_chunks K 16 (f_readout_2_weights_1 f) p k 0%R (fo_r2a _ F) Hp Hk)|].
  unfold scal. rewrite (nth_tab _ _ p) by (rewrite (fo_r2b _ F); auto). rewrite RNum_zero. cbn [nmul RNum].
  apply (f_equal2 Rmult); [reflexivity|]. unfold actl, Wl, fwd. cbn [nth]. refine (eq_trans (fwd1 x (dact (N:=RNum) sc) p Hp) _).
  unfold dact, sg. rewrite RNum_one. reflexivity.
Qed.

Lemma in_zbl : f_has_zbl f = true -> zbl_in km s (KkModel.k_zbl km)
    (fun q => zen (N:=RNum) mm (ty s (ow s q)) (e_type (eg s q)) (e_r (eg s q)))
    (fun q => zgr (N:=RNum) mm (ty s (ow s q)) (e_type (eg s q)) (e_r (eg s q))).
Proof.
  intros Ez q Hq. destruct (fo_zbl _ F Ez) as [Z1 Z2]. pose proof (q_t f s nH SW q Hq) as Ht. pose proof (q_u f s nH SW q Hq) as Hu.
  set (t := ty s (ow s q)) in *. set (u := e_type (eg s q)) in *. set (r := e_r (eg s q)).
  exists (nth t (f_atomic_numbers f) 0), (nth u (f_atomic_numbers f) 0). rewrite (l_Z _ _ _ D), (l_zbl _ _ _ D).
  rewrite (rd_some _ t 0), (rd_some _ u 0) by auto. split; auto. split; auto.
  set (z := mkZBL _ _ _ _ _).
  assert (E1 : forall a b, kzbl_compute z a b r = zbl_compute z a b r) by reflexivity.
  assert (E2 : forall a b, kzbl_compute_gradient z a b r = zbl_compute_gradient z a b r) by reflexivity.
  rewrite E1, E2. unfold zen, zgr. cbn [m_zbl m_atomic_numbers ldm]. fold z.
  pose proof (Z1 _ (nth_In _ 0 Ht)) as Y1. pose proof (Z1 _ (nth_In _ 0 Hu)) as Y2.
  unfold zbl_compute, zbl_compute_gradient. unfold z. cbn [z_covalent_radii z_c z_a_exp z_a_prefactor z_p].
  rewrite !(rd_some (f_zbl_covalent_radii f) _ nzero) by auto. rewrite !(rd_some (f_zbl_c f) _ nzero) by lia. cbn [bind zget]. auto.
Qed.

Definition mlp_views (V0 V1 : view RNum) : Prop :=
  kl_shape (k_readout_2 km) = [m_num_channels mm; 16; 1] /\ kl_scale (k_readout_2 km) = f_readout_2_scale_factor f /\ kl_weights (k_readout_2 km) = [V0; V1] /\
  v_ext V0 = [16; m_num_channels mm] /\ v_ext V1 = [1; 16] /\ (forall i j, i < 16 -> j < m_num_channels mm -> v_val V0 [i; j] = nth (i * m_num_channels mm + j) (f_readout_2_weights_1 f) 0%R) /\
  (forall i j, i < 1 -> j < 16 -> v_val V1 [i; j] = nth j (f_readout_2_weights_2 f) 0%R).
Lemma kin_gen V0 V1 : mlp_views V0 V1 -> kin km mm (ldp0 srt f) (ldp1 srt f) (ldfe f) (ldfg f) 16 ldw0 ldw1 V0 V1 s nH.
Proof.
  intros (A1 & A2 & A3 & A4 & A5 & A6 & A7).
  pose proof (ld_wf f F) as W. pose proof (fo_K _ F) as HK.
  destruct (in_R0 srt f F km D s nH SW Hx) as [R0a R0b]. destruct (in_R1 srt f F KF km D s nH SW Hx) as (R1a & R1b & R1c).
  destruct (in_A1w srt f F km D) as [A1a A1b]. destruct (in_HH srt f km D s nH SW) as [HHa HHb].
  constructor; rewrite ?(l_K _ _ _ D), ?(l_l _ _ _ D), ?(l_L _ _ _ D), ?(l_hz _ _ _ D), ?(l_Z _ _ _ D), ?(l_s0 _ _ _ D), ?(l_s1 _ _ _ D), ?(l_Pl _ _ _ D), ?(l_E _ _ _ D),
    ?(l_HM _ _ _ D), ?(l_r1 _ _ _ D), ?(l_cg _ _ _ D), ?(l_lme _ _ _ D), ?(l_lel _ _ _ D), ?A2; try reflexivity.
  - exact HK.
  - apply (C_eq srt f km D).
  - apply (l_NE _ _ _ D).
  - apply in_zbl.
  - apply (t_lt f s nH SW).
  - exact R0a.
  - exact R0b.
  - exact R1a.
  - exact R1b.
  - intros q p Hq Hp. rewrite R1b in Hp. auto.
  - apply (in_A0 srt f F KF km D s nH SW Hx).
  - apply (in_A1 srt f F KF km D s nH SW Hx).
  - apply (in_M0 srt Hsrt f F km D s nH SW).
  - apply (in_M1 srt Hsrt f F km D s nH SW).
  - apply (in_H1 srt f km D).
  - intros l a b Hl Ha Hb. rewrite (l_H1 _ _ _ D) by auto. unfold WH1, at_. cbn [m_H1_weights m_num_channels ldm]. rewrite RNum_zero. f_equal. lia.
  - apply (in_Phi1 srt f F KF km D s nH SW Hx).
  - intros c Hc. destruct (in_paths srt f F km D c Hc) as (B1 & B2 & B3 & _). auto.
  - auto.
  - exact A1a.
  - apply dec_ok.
  - intros l p k Hl Hp Hk. apply A1b; rewrite ?(l_K _ _ _ D), ?(l_l _ _ _ D); auto.
  - exact HHa.
  - intros i j Hi Hj. apply HHb; rewrite ?(l_K _ _ _ D); auto.
  - apply (fo_HM _ F).
  - apply (fo_r1 _ F).
  - intros i Hi. pose proof (fo_E0 _ F). pose proof (t_lt f s nH SW i Hi). lia.
  - lia.
  - constructor; auto.
    + intros p q Hp Hq. rewrite vget_some by (rewrite A4; apply inb2_t; auto). f_equal. apply A6; auto.
    + intros p q Hp Hq. rewrite vget_some by (rewrite A5; apply inb2_t; auto). f_equal. apply A7; auto.
  - intros x. unfold kl_a. rewrite A2. apply fe_ok.
  - intros x k Hk. apply fg_ok; auto.
Qed.
Lemma kin_ok : exists V0 V1, kin km mm (ldp0 srt f) (ldp1 srt f) (ldfe f) (ldfg f) 16 ldw0 ldw1 V0 V1 s nH.
Proof. destruct (l_r2 _ _ _ D) as (V0 & V1 & A). exists V0, V1. apply kin_gen. exact A. Qed.
End In.
