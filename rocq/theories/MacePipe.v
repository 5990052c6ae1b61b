(** MACE::compute_node_energies_forces as a whole: the value of every output entry as a function of the
    input system only. *)
From Coq Require Import List Arith ZArith Lia Bool.
From Verif Require Import Base BaseLemmas Segs BlasModel BlasLemmas SplineModel MpModel MpProofs MlpModel
  ZblModel ZblProofs MaceModel Sys SysLoops MaceGrid MacePure MaceStages1 MaceStages2 MaceStages3 MaceStages4 MaceStages5
  MaceStages6 MaceStages7 MaceStages8.
Import ListNotations.

Section Pipe.
Context {N : Num}.
Variable sph : nat -> N -> N -> N -> list N * list N.
Hypothesis Hsph : forall l x y z, length (fst (sph l x y z)) = (l + 1) * (l + 1) /\
  length (snd (sph l x y z)) = 3 * ((l + 1) * (l + 1)).
Variable m : mace_model N.
Variables (P0 P1 : nat -> @mpoly N).
Variable live : @mlp N -> Prop.
Variable fe : list N -> N.
Variable fg : list N -> nat -> N.
Variable s : sys N.
Notation n := (length s).
Notation T := (length (m_atomic_numbers m)).
Notation K := (m_num_channels m).
Notation lms := (num_lm m).
Notation LMs := (num_LM m).
Notation nle := (length (m_Phi1_l m)).
Notation NP := (m_num_lelm1lm2 m).
Notation NL := (m_num_lme m).

Definition zget (o : option N) : N := match o with Some v => v | None => nzero end.
Definition zen (t u : nat) (r : N) : N :=
  zget (zbl_compute (m_zbl m) (nth t (m_atomic_numbers m) 0) (nth u (m_atomic_numbers m) 0) r).
Definition zgr (t u : nat) (r : N) : N :=
  zget (zbl_compute_gradient (m_zbl m) (nth t (m_atomic_numbers m) 0) (nth u (m_atomic_numbers m) 0) r).
Definition zE i : N := if m_has_zbl m then nfold (es s i) (fun e => zen (ty s i) (e_type e) (e_r e)) nzero else nzero.
Definition zF i (e : edge N) a : N :=
  if m_has_zbl m then nsub nzero (nmul (ndiv (comp e a) (e_r e)) (zgr (ty s i) (e_type e) (e_r e))) else nzero.
Definition zbl_wf : Prop := m_has_zbl m = true ->
  (forall Z, In Z (m_atomic_numbers m) -> Z < length (z_covalent_radii (m_zbl m))) /\ 4 <= length (z_c (m_zbl m)).

(** forward *)
Definition pA0 := odivs (m_A0_scaled m) (sc0 m s) (mulW0 m s (phi0 m s (R0v m s) (Yv sph m))).
Definition pM0 := m0 m s P0 pA0.
Definition pH1 := mulH1 m pM0.
Definition pP1r := phi1r m s (R1v m s) (Yv sph m) pH1.
Definition pP1 := phi1 m pP1r.
Definition pA1 := odivs (m_A1_scaled m) (sc1 m s) (a1raw m pP1).
Definition pM1 := m1 m s P1 pA1.
Definition pH2 := h2 m s (fun i k => pH1 i 0 k) pM1.
Definition pE : nat -> N := en m s fe zE (fun i k => pH1 i 0 k) pH2.
(** reverse *)
Definition qH2 i k : N := fg (tab K (pH2 i)) k.
Definition qH1a := rH2n m s (ra1 m s) qH2.
Definition qM1 := rH2m m qH2.
Definition qA1r := rm1 (g1 m s P1 pA1) qM1.
Definition qF1 := ofsc s (m_A1_scaled m) (spl1 m) (sc1 m s) (dotlk m qA1r pA1) zF.
Definition qA1 := odivs (m_A1_scaled m) (sc1 m s) qA1r.
Definition qP1r := phi1T m (rA1f m qA1).
Definition qF2 := fold1 m (R1v m s) (R1d m s) (Yv sph m) (Yg sph m) pH1 qP1r qF1.
Definition qH1l := adds (cube n LMs K qH1a) (hadds m s (R1v m s) (Yv sph m) qP1r).
Definition qH1 i L k : N := at_ qH1l (i * (LMs * K) + (L * K + k)).
Definition qM0 := mulH1T m qH1.
Definition qA0r := rm0 m (g0 m s P0 pA0) qM0.
Definition qF3 := ofsc s (m_A0_scaled m) (spl0 m) (sc0 m s) (dotlk m qA0r pA0) qF2.
Definition qA0 := odivs (m_A0_scaled m) (sc0 m s) qA0r.
Definition pF := fold0 m (R0v m s) (R0d m s) (Yv sph m) (Yg sph m) (mulW0T m s qA0) qF3.

Definition bufs_live (b : mace_bufs N) : Prop :=
  mps_live lms (T * LMs * K) P0 (b_P0 b) /\ mps_live lms (T * K) P1 (b_P1 b) /\ live (b_readout_2 b).

Hypothesis W : mace_wf m.
Hypothesis Wz : zbl_wf.

Lemma pairs_epairs : pairs s = map (fun p => (nd_ s (fst p), snd p)) (epairs s).
Proof.
  unfold pairs, epairs. rewrite map_flat_map.
  rewrite <- (flat_map_seq_nth _ s (mkNode 0 [])). apply flat_map_ext_in. intros i Hi.
  rewrite map_map. reflexivity.
Qed.

Lemma zbl_ok nH (SW : sys_wf m s nH) :
  (if m_has_zbl m then compute_ZBL (m_zbl m) n (f_node_types s) (f_num_neigh s) (f_neigh_types s) (m_atomic_numbers m)
      (f_r s) (f_xyz s) (repeat nzero n) (repeat nzero (length (f_xyz s))) 
   else Some (repeat nzero n, repeat nzero (length (f_xyz s)))) = Some (tab n zE, eb s 3 zF).
Proof.
  assert (R1 : repeat nzero n = tab n (fun _ => @nzero N)).
  { apply list_eq_nth with (d := nzero); [rewrite repeat_length, length_tab; auto|].
    intros p Hp. rewrite repeat_length in Hp. rewrite nth_repeat, nth_tab by auto. reflexivity. }
  assert (R2 : repeat nzero (length (f_xyz s)) = eb s 3 (fun _ _ _ => @nzero N)).
  { rewrite <- (fill_eb s 3 (fun _ _ _ => nzero)). unfold fill. rewrite length_eb, length_xyz. reflexivity. }
  unfold zE, zF. destruct (m_has_zbl m) eqn:Hz; [|rewrite R1, R2; reflexivity].
  destruct (Wz Hz) as [Za Zc].
  set (E := fun (nd : node N) (e : edge N) => zen (n_type nd) (e_type e) (e_r e)).
  set (G := fun (nd : node N) (e : edge N) => zgr (n_type nd) (e_type e) (e_r e)).
  assert (Hn : forall nd, In nd s -> n_type nd < T).
  { intros nd Hin. destruct (In_nth _ _ (mkNode 0 []) Hin) as (i & Hi & <-). apply (sw_ty _ _ _ SW i Hi). }
  assert (He : forall nd e, In nd s -> In e (n_edges nd) -> e_type e < T).
  { intros nd e Hin Hine. destruct (In_nth _ _ (mkNode 0 []) Hin) as (i & Hi & <-).
    apply (sw_ety _ _ _ SW i e Hi Hine). }
  pose proof (compute_ZBL_ok (m_zbl m) (m_atomic_numbers m) s E G) as H.
  assert (A : forall nd e, In nd s -> In e (n_edges nd) ->
     n_type nd < T /\ e_type e < T /\
     zbl_compute (m_zbl m) (nth (n_type nd) (m_atomic_numbers m) 0) (nth (e_type e) (m_atomic_numbers m) 0) (e_r e) = Some (E nd e) /\
     zbl_compute_gradient (m_zbl m) (nth (n_type nd) (m_atomic_numbers m) 0) (nth (e_type e) (m_atomic_numbers m) 0) (e_r e) = Some (G nd e)).
  { intros nd e Hin Hine. pose proof (Hn nd Hin) as Ht. pose proof (He nd e Hin Hine) as Hu.
    repeat split; auto; unfold E, G, zen, zgr, zbl_compute, zbl_compute_gradient;
    (rewrite (rd_some _ (nth (n_type nd) (m_atomic_numbers m) 0) nzero) by (apply Za, nth_In; auto));
    (rewrite (rd_some _ (nth (e_type e) (m_atomic_numbers m) 0) nzero) by (apply Za, nth_In; auto));
    rewrite !(fun i Hi => rd_some (z_c (m_zbl m)) i nzero (Nat.lt_le_trans i 4 _ Hi Zc)) by lia; reflexivity. }
  specialize (H A Hn (repeat nzero n) (repeat nzero (length (f_xyz s))) [] []).
  rewrite !app_nil_r in H. rewrite H.
  - f_equal. apply pair_eq.
    + unfold eg. rewrite flat_map_concat_map, <- flat_map_concat_map.
      unfold tab. rewrite <- (map_id (map _ _)).
      rewrite map_map. rewrite <- flat_map_concat_map || idtac.
      clear -s. induction (seq 0 n) as [|i l IH]; simpl; auto. rewrite IH. f_equal. rewrite nth_repeat. reflexivity.
    + unfold eb. rewrite pairs_epairs, map_length.
      rewrite <- (flat_map_seq_nth _ (epairs s) (0, mkEdge 0 0 nzero nzero nzero nzero)).
      apply flat_map_ext_in. intros q Hq. apply in_seq in Hq.
      unfold ZblProofs.fg. rewrite pairs_epairs.
      rewrite (nth_indep _ dpr (nd_ s (fst (0, mkEdge 0 0 (@nzero N) nzero nzero nzero)), mkEdge 0 0 nzero nzero nzero nzero)) by (rewrite map_length; lia).
      pose proof (map_nth (fun p => (nd_ s (fst p), snd p)) (epairs s) (0, mkEdge 0 0 (@nzero N) nzero nzero nzero) q) as Hm.
      cbn [snd] in Hm. cbn [fst] in Hm |- *. rewrite Hm.
      destruct (nth q (epairs s) _) as [i e]. unfold zf, ff, tab. cbn [fst snd map seq nth]. rewrite !nth_repeat. reflexivity.
  - apply repeat_length.
  - rewrite repeat_length, length_xyz, pairs_epairs, map_length. lia.
Qed.

Hypothesis SW : sys_wf m s n.
Hypothesis RO : ro_ok m live fe fg.

Lemma nread_of_list cnt a (buf : list N) : length buf = cnt * (a * K) ->
  nread cnt buf a K (fun i b k => at_ buf (i * (a * K) + (b * K + k))).
Proof.
  intros L i b j k Hi Hb Hj ->. apply rd_some. rewrite L. assert (i * a + b < cnt * a) by nia. nia.
Qed.

(** the features and adjoints left in the object *)
Definition mids (b' : mace_bufs N) : Prop :=
  (b_A0 b' = cube n lms K pA0 /\ b_M0 b' = cube n LMs K pM0 /\ b_H1 b' = cube n LMs K pH1) /\
  (b_A1 b' = cube n lms K pA1 /\ b_M1 b' = grid n K pM1 /\ b_H2 b' = grid n K pH2) /\
  (b_M1_adj b' = grid n K qM1 /\ b_A1_adj b' = cube n lms K qA1 /\ b_M0_adj b' = cube n LMs K qM0 /\ b_A0_adj b' = cube n lms K qA0).

Lemma pipeline_full b : bufs_live b -> exists b',
  compute_node_energies_forces sph m b n (f_node_types s) (f_num_neigh s) (f_neigh_indices s) (f_neigh_types s)
    (f_xyz s) (f_r s) = Some b' /\ bufs_live b' /\
  b_node_energies b' = tab n pE /\ b_node_forces b' = eb s 3 pF /\ mids b'.
Proof.
  intros (L0 & L1 & Lr). unfold compute_node_energies_forces.
  rewrite !fill_resize, (zbl_ok n SW). cbn [bind].
  destruct (compute_Y_ok sph m s (fun a b c => Hsph (m_l_max m) a b c) (b_Y b) (b_Y_grad b) (b_xyz_shuffled b)) as (Y' & Yg' & xs' & EY & RY & RYg & _).
  rewrite EY. cbn [bind].
  rewrite (compute_R0_ok m s W n SW). cbn [bind].
  rewrite (compute_A0_ok m s W n SW _ _ _ _ _ RY (eread_eb _ _ _)). cbn [bind].
  rewrite (compute_A0_scaled_ok m s W n SW). cbn [bind]. fold pA0.
  destruct (compute_M0_ok m s W (sw_ty _ _ _ SW) P0 pA0 (cube n lms K pA0) (nread_cube _ _ _ _) (b_P0 b) (b_M0 b) (b_M0_grad b) L0)
    as (P0' & Mg0 & EM0 & L0' & RG0).
  rewrite EM0. cbn [bind]. fold pM0.
  rewrite (compute_H1_ok m s W _ pM0) by (try apply nread_cube; apply length_cube). cbn [bind]. fold pH1.
  rewrite (compute_R1_ok m s W n SW). cbn [bind].
  rewrite (compute_Phi1_ok m s W n SW _ _ _ _ _ _ _ _ RY (eread_eb _ _ _) (nread_cube _ _ _ pH1)). cbn [bind]. fold pP1r. fold pP1.
  rewrite (compute_A1_ok m s W _ _ _ (nread_cube _ _ _ pP1)). cbn [bind].
  rewrite (compute_A1_scaled_ok m s W n SW). cbn [bind]. fold pA1.
  destruct (compute_M1_ok m s W (sw_ty _ _ _ SW) P1 pA1 (cube n lms K pA1) (nread_cube _ _ _ _) (b_P1 b) (b_M1 b) (b_M1_grad b) L1)
    as (P1' & Mg1 & EM1 & L1' & RG1).
  rewrite EM1. cbn [bind]. fold pM1.
  assert (RH : forall i k, i < n -> k < K -> rd (cube n LMs K pH1) (i * (LMs * K) + k) = Some (pH1 i 0 k)).
  { intros i k Hi Hk. apply (rd_cube n LMs K pH1 i 0 k); auto. unfold num_LM; nia. }
  rewrite (compute_H2_ok m s W (sw_ty _ _ _ SW) _ _ (fun i k => pH1 i 0 k) pM1 _ RH).
  2:{ intros; apply rd_grid; auto. }
  cbn [bind]. fold pH2.
  destruct (compute_readouts_ok m s W (sw_ty _ _ _ SW) live fe fg n (cube n LMs K pH1) pH2 (b_readout_2 b) zE (b_H1_adj b) (b_H2_adj b)
     (fun i k => pH1 i 0 k) RO Lr (le_n _)) as (r' & ER & Lr'); auto; [apply length_cube|].
  rewrite ER. cbn [bind]. fold pE.
  rewrite (reverse_H2_ok m s W (sw_ty _ _ _ SW) n (cube n LMs K pH1) (grid n K pM1) (ra1 m s) _ qH2) by
    (auto; try apply length_cube; try apply length_grid; intros; apply (rd_grid n K qH2); auto).
  cbn [bind]. fold qH1a. fold qM1.
  rewrite (reverse_M1_ok m s (cube n lms K pA1) _ qM1 _ (g1 m s P1 pA1)) by
    (auto; try apply length_cube; intros; apply rd_grid; auto).
  cbn [bind]. fold qA1r.
  rewrite (reverse_A1_scaled_ok m s W n SW _ pA1 qA1r zF (nread_cube _ _ _ _)). cbn [bind]. fold qA1. fold qF1.
  rewrite (reverse_A1_ok m s W _ _ qA1) by (try apply nread_cube; apply length_cube). cbn [bind].
  rewrite (reverse_Phi1_ok m s W n SW false false _ _ _ _ _ _ _ _ qF1 (cube n LMs K qH1a) (Yv sph m) (Yg sph m) (R1v m s) (R1d m s)
     pH1 (rA1f m qA1) RY RYg (eread_eb _ _ _) (eread_eb _ _ _) (nread_cube _ _ _ _)); try apply nread_cube; try (rewrite ?length_cube; reflexivity).
  cbn [bind oz]. fold qP1r. fold qF2. fold qH1l.
  assert (LH : length qH1l = n * (LMs * K)) by (unfold qH1l; rewrite length_adds, length_cube; auto).
  rewrite (reverse_H1_ok m s W (cube n LMs K pM0) qH1l qH1) by (try apply length_cube; apply nread_of_list; auto).
  cbn [bind]. fold qM0.
  rewrite (reverse_M0_ok m s (cube n lms K pA0) _ qM0 Mg0 (g0 m s P0 pA0)) by (auto; try apply nread_cube; apply length_cube).
  cbn [bind]. fold qA0r.
  rewrite (reverse_A0_scaled_ok m s W n SW _ pA0 qA0r qF2 (nread_cube _ _ _ _)). cbn [bind]. fold qA0. fold qF3.
  rewrite (reverse_A0_ok m s W n SW _ _ _ _ _ _ _ _ _ _ qA0 RY RYg (eread_eb _ _ _) (eread_eb _ _ _) (nread_cube _ _ _ _)).
  cbn [bind]. fold pF.
  eexists. split; [reflexivity|]. split; [|split; [reflexivity|split; [reflexivity|repeat split]]].
  repeat split; auto.
Qed.
Lemma pipeline_ok b : bufs_live b -> exists b',
  compute_node_energies_forces sph m b n (f_node_types s) (f_num_neigh s) (f_neigh_indices s) (f_neigh_types s)
    (f_xyz s) (f_r s) = Some b' /\ bufs_live b' /\
  b_node_energies b' = tab n pE /\ b_node_forces b' = eb s 3 pF.
Proof. intros Hb. destruct (pipeline_full b Hb) as (b' & H1 & H2 & H3 & H4 & _). exists b'. auto. Qed.
End Pipe.
