(** The loaded Kokkos object holds the numbers of the loaded CPU object.  Used in proofs only. *)
From Coq Require Import List Arith ZArith Bool Lia Reals Lra Permutation.
From Verif Require Import Base BaseLemmas Segs BlasLemmas Instances RSums ToolsModel MpModel MpSpec MpProofs MpCtor MpR SplineModel SplineProofs ZblModel MaceModel MaceSpec Sys SysLoops
  MaceGrid MacePure MaceStages1 MaceStages7 MlpModel MlpProofs MacePipe MaceLoad MaceFlat.
From Verif Require Import KkSem KkWp KkModel KkHost KkK1 KkK3 KkK4 KkK5 KkK6 KkK7 KkEq KkStage1 KkSpec KkLoad1 KkLoad2.
Import ListNotations.
Local Open Scope nat_scope.

Lemma tri_types T : (Nat.sqrt (8 * (T * (T + 1) / 2) + 1) - 1) / 2 = T.
Proof.
  assert (E : 8 * (T * (T + 1) / 2) + 1 = (2 * T + 1) * (2 * T + 1)).
  { assert (H : T * (T + 1) mod 2 = 0).
    { destruct (Nat.Even_or_Odd T) as [[k ->]|[k ->]].
      - replace (2 * k * (2 * k + 1)) with (k * (2 * k + 1) * 2) by lia. apply Nat.mod_mul. lia.
      - replace ((2 * k + 1) * (2 * k + 1 + 1)) with ((2 * k + 1) * (k + 1) * 2) by lia. apply Nat.mod_mul. lia. }
    pose proof (Nat.div_mod_eq (T * (T + 1)) 2). nia. }
  rewrite E, Nat.sqrt_square. replace (2 * T + 1 - 1) with (T * 2) by lia. apply Nat.div_mul. lia.
Qed.

Section In.
Variable srt : list (list (list nat)) -> list (list (list nat)).
Hypothesis Hsrt : forall l, Permutation l (srt l).
Variable f : mace_file RNum.
Hypothesis F : file_ok f.
Hypothesis KF : kk_file_ok f.
Variable km : kmace RNum.
Hypothesis D : kld srt f km.
Variable s : sys RNum.
Variable nH : nat.
Hypothesis SW : sys_wf (ldm f) s nH.
Hypothesis Hx : forall q, q < length (epairs s) -> in_domain f (e_r (eg s q)).
Notation T := (length (f_atomic_numbers f)).
Notation K := (f_num_channels f).
Notation lms := ((f_l_max f + 1) * (f_l_max f + 1)).
Notation LMs := ((f_L_max f + 1) * (f_L_max f + 1)).
Notation mm := (ldm f).
Notation nE := (length (epairs s)).
Notation mp := (mkp (N:=RNum) srt f).

Lemma t_lt i : i < length s -> ty s i < T.
Proof. apply (sw_ty _ _ _ SW). Qed.
Lemma q_t q : q < nE -> ty s (ow s q) < T.
Proof. intros H. apply t_lt, ow_lt; auto. Qed.
Lemma q_u q : q < nE -> e_type (eg s q) < T.
Proof. intros H. apply (sw_ety _ _ _ SW (ow s q)); [apply ow_lt|apply eg_in]; auto. Qed.
Lemma q_x q : q < nE -> e_idx (eg s q) < nH.
Proof. intros H. apply (sw_idx _ _ _ SW (ow s q)); [apply ow_lt|apply eg_in]; auto. Qed.
Lemma q_d q : q < nE -> in_domain f (e_r (eg s q)).
Proof. apply Hx. Qed.
Definition xq q := tyij mm (ty s (ow s q)) (e_type (eg s q)).
Lemma xq_lt q : q < nE -> xq q < T * (T + 1) / 2.
Proof. intros H. apply (tyij_lt mm); cbn; [apply q_t|apply q_u]; auto. Qed.
Lemma xq_pix q : pix T (ty s (ow s q)) (e_type (eg s q)) = xq q.
Proof. reflexivity. Qed.
Lemma Hn : 1 <= length (f_Phi1_l f).
Proof. pose proof (fo_l_all _ F 0 ltac:(lia)) as H0. destruct (f_Phi1_l f); [destruct H0|simpl; lia]. Qed.

(** ** splines *)
Definition cq (h : R) q : nat := Z.to_nat (knz s h q).
Lemma cells h kn q : in_cells (N:=RNum) h kn (e_r (eg s q)) -> (0 <= knz s h q)%Z /\ cq h q < kn - 1 /\
  ntrunc (n:=RNum) (ndiv (n:=RNum) (e_r (eg s q)) h) = Z.of_nat (cq h q) /\ kx s h q = nsub (n:=RNum) (e_r (eg s q)) (nmul (n:=RNum) h (nofnat (N:=RNum) (cq h q))).
Proof.
  unfold in_cells. intros [A B]. assert (A' : (0 <= knz s h q)%Z) by exact A. split; [exact A'|]. unfold cq. split; [change (knz s h q < Z.of_nat (kn - 1))%Z in B; lia|].
  split; [rewrite Z2Nat.id by exact A'; reflexivity|]. unfold kx. rewrite RNum_ofnat. rewrite INR_IZR_INZ, Z2Nat.id by exact A'. reflexivity.
Qed.

Section Rad.
Variables (h : R) (vals ders : list (list (list RNum))) (c kn : nat) (S : krad RNum).
Hypothesis HS : krad_of h vals ders c kn S.
Hypothesis HL : length vals = T * (T + 1) / 2.
Hypothesis HC : forall q, q < nE -> in_cells (N:=RNum) h kn (e_r (eg s q)).
Lemma rad_t q : kq_t s S q = xq q.
Proof. destruct HS as (_ & E & _). unfold kq_t, ktij, xq, tyij, tri. rewrite E, HL, tri_types. reflexivity. Qed.
Lemma rad_in : krad_in s S.
Proof.
  pose proof HS as (E1 & E2 & E3 & E4 & _). intros q Hq. destruct (cells h kn q (HC q Hq)) as (A & B & _).
  pose proof (q_t q Hq). pose proof (q_u q Hq). split; [|split].
  - cbv zeta. rewrite E2, HL, tri_types. destruct (Nat.leb_spec (ty s (ow s q)) (e_type (eg s q))); apply Nat.ltb_lt; lia.
  - rewrite E1. exact A.
  - intros p k Hp Hk. rewrite rad_t, E1, E4. apply inb4_t; auto.
    + rewrite HL. apply xq_lt; auto.
    + rewrite <- E3. exact Hk.
Qed.
Lemma rad_c q j p : q < nE -> j < c -> p < 4 -> kcoef s S q j p =
  hco (N:=RNum) h (vfun (N:=RNum) (nth j (nth (xq q) vals []) [])) (vfun (N:=RNum) (nth j (nth (xq q) ders []) [])) p (cq h q).
Proof.
  intros Hq Hj Hp. pose proof HS as (E1 & E2 & E3 & E4 & E5). destruct (cells h kn q (HC q Hq)) as (A & B & _).
  unfold kcoef. rewrite rad_t, E1. apply E5; auto. rewrite HL. apply xq_lt; auto.
Qed.
Lemma rad_v q j : q < nE -> j < c ->
  let v := vfun (N:=RNum) (nth j (nth (xq q) vals []) []) in let d := vfun (N:=RNum) (nth j (nth (xq q) ders []) []) in
  let x := nsub (n:=RNum) (e_r (eg s q)) (nmul (n:=RNum) h (nofnat (N:=RNum) (cq h q))) in
  kval s S q j = pval (N:=RNum) h v d (cq h q) x /\ kder s S q j = pder (N:=RNum) h v d (cq h q) x.
Proof.
  intros Hq Hj v d x. destruct (cells h kn q (HC q Hq)) as (A & B & C & E). pose proof HS as (E1 & _).
  unfold kval, kder, kpv, kpd. rewrite !rad_c by (auto; lia). rewrite E1, E. fold v d x. split; [reflexivity|].
  unfold pder. rewrite (RNum_ofZ 2), (RNum_ofZ 3). cbn [nadd nmul RNum]. match goal with |- @eq _ ?a ?b => change (@eq R a b) end. ring.
Qed.
End Rad.

(** value and derivative of a spline set *)
Lemma set_v vals ders c x j q : radial_ok T c vals ders -> x < length vals -> j < c -> q < nE ->
  (forall v row, In v vals -> In row v -> in_cells (N:=RNum) (f_radial_spline_h f) (length row) (e_r (eg s q))) ->
  let h := f_radial_spline_h f in
  let v := vfun (N:=RNum) (nth j (nth x vals []) []) in let d := vfun (N:=RNum) (nth j (nth x ders []) []) in
  let y := nsub (n:=RNum) (e_r (eg s q)) (nmul (n:=RNum) h (nofnat (N:=RNum) (cq h q))) in
  setv (N:=RNum) (nth x (ld_set f vals ders) dset) (e_r (eg s q)) j = pval (N:=RNum) h v d (cq h q) y /\
  setd (N:=RNum) (nth x (ld_set f vals ders) dset) (e_r (eg s q)) j = pder (N:=RNum) h v d (cq h q) y.
Proof.
  intros (H1 & H2 & H3) Hxl Hj Hq HC h v d y. destruct (H3 x Hxl) as (kn & Hk & L1 & L2 & R1 & R2).
  assert (Er : length (nth 0 (nth x vals []) []) = kn) by (apply R1, nth_In; lia).
  assert (HC' : in_cells (N:=RNum) h kn (e_r (eg s q))). { rewrite <- Er. apply (HC (nth x vals [])); apply nth_In; lia. }
  destruct (cells h kn q HC') as (A & B & C & E).
  rewrite nth_set by auto. rewrite Er. set (S := splset _ _ _ _).
  assert (Ec : MacePure.cell S (e_r (eg s q)) = cq h q) by reflexivity.
  assert (Ey : locx S (e_r (eg s q)) = y) by reflexivity.
  assert (Co : forall p, p < 4 -> coef S (e_r (eg s q)) p j = hco (N:=RNum) h v d p (cq h q)).
  { intros p Hp. unfold coef, at_. rewrite Ec. apply nth_error_nth. change (css_num S) with (length (nth x vals [])).
    exact (rd_splset h (nth x vals []) (nth x ders []) kn (cq h q) p j B Hp ltac:(lia)). }
  unfold setv, setd. rewrite Ey. rewrite !Co by lia. unfold pval, pder. rewrite (RNum_ofZ 2), (RNum_ofZ 3). cbn [nadd nmul RNum].
  split; match goal with |- @eq _ ?a ?b => change (@eq R a b) end; ring.
Qed.
Lemma spl_v h vals ders x q : density_ok T vals ders -> x < length vals -> q < nE ->
  (forall row, In row vals -> in_cells (N:=RNum) h (length row) (e_r (eg s q))) ->
  let v := vfun (N:=RNum) (nth x vals []) in let d := vfun (N:=RNum) (nth x ders []) in
  let y := nsub (n:=RNum) (e_r (eg s q)) (nmul (n:=RNum) h (nofnat (N:=RNum) (cq h q))) in
  csv (N:=RNum) (nth x (ld_spl h vals ders) dspl) (e_r (eg s q)) = pval (N:=RNum) h v d (cq h q) y /\
  csd (N:=RNum) (nth x (ld_spl h vals ders) dspl) (e_r (eg s q)) = pder (N:=RNum) h v d (cq h q) y.
Proof.
  intros (H1 & H2 & H3) Hxl Hq HC v d y.
  assert (HC' := HC (nth x vals []) (nth_In _ _ Hxl)). destruct (cells h _ q HC') as (A & B & C & E).
  destruct (cs_all_ok (N:=RNum) h (nth x vals []) (nth x ders []) (e_r (eg s q)) (cq h q) C B) as (_ & G & _).
  rewrite nth_spls by auto. unfold csv, csd. rewrite G. auto.
Qed.

Lemma cells1 q : q < nE -> in_cells (N:=RNum) (f_radial_spline_h f) (kn1 f) (e_r (eg s q)).
Proof.
  intros Hq. destruct (q_d q Hq) as (_ & B & _). pose proof (fo_R1 _ F) as (H1 & _ & H3). pose proof (xq_lt q Hq). pose proof Hn. pose proof (fo_K _ F).
  destruct (H3 0 ltac:(lia)) as (kn & _ & L1 & _). apply (B (nth 0 (f_radial_spline_values_1 f) [])); apply nth_In; nia.
Qed.
Lemma cells0 q : q < nE -> in_cells (N:=RNum) (f_radial_spline_h f) (kn0 f) (e_r (eg s q)).
Proof.
  intros Hq. destruct (q_d q Hq) as (B & _). pose proof (fo_R0 _ F) as (H1 & _ & H3). pose proof (xq_lt q Hq). pose proof (fo_K _ F).
  destruct (H3 0 ltac:(lia)) as (kn & _ & L1 & _). apply (B (nth 0 (f_radial_spline_values_0 f) [])); apply nth_In; nia.
Qed.
Lemma cellsA0 q : f_A0_scaled f = true -> q < nE -> in_cells (N:=RNum) (f_A0_spline_h f) (knA0 f) (e_r (eg s q)).
Proof.
  intros E Hq. destruct (q_d q Hq) as (_ & _ & B & _). pose proof (fo_A0s _ F E) as (H1 & _). pose proof (xq_lt q Hq).
  apply (B E). apply nth_In. lia.
Qed.
Lemma cellsA1 q : f_A1_scaled f = true -> q < nE -> in_cells (N:=RNum) (f_A1_spline_h f) (knA1 f) (e_r (eg s q)).
Proof.
  intros E Hq. destruct (q_d q Hq) as (_ & _ & _ & B). pose proof (fo_A1s _ F E) as (H1 & _). pose proof (xq_lt q Hq).
  apply (B E). apply nth_In. lia.
Qed.

Lemma in_R1 : krad_in s (k_radial_1 km) /\ kr_num (k_radial_1 km) = length (f_Phi1_l f) * K /\
  forall q p, q < nE -> p < length (f_Phi1_l f) * K ->
    kval s (k_radial_1 km) q p = R1v (N:=RNum) mm s (ow s q) (eg s q) p /\ kder s (k_radial_1 km) q p = R1d (N:=RNum) mm s (ow s q) (eg s q) p.
Proof.
  pose proof (l_R1 _ _ _ D) as HS. split; [|split].
  - apply (rad_in _ _ _ _ _ _ HS (kf_R1n _ KF) cells1).
  - apply HS.
  - intros q p Hq Hp. destruct (rad_v _ _ _ _ _ _ HS (kf_R1n _ KF) cells1 q p Hq Hp) as [-> ->].
    pose proof (fo_R1 _ F) as HR.
    assert (XL : xq q < length (f_radial_spline_values_1 f)) by (rewrite (kf_R1n _ KF); apply xq_lt; auto).
    destruct (set_v _ _ _ (xq q) p q HR XL Hp Hq (proj1 (proj2 (q_d q Hq)))) as [A B].
    unfold R1v, R1d, set1. split; symmetry; [exact A|exact B].
Qed.
Lemma in_A0 : f_A0_scaled f = true -> krad_in s (k_A0_splines km) /\ kr_num (k_A0_splines km) = 1 /\
    forall q, q < nE ->
      kval s (k_A0_splines km) q 0 = csv (N:=RNum) (spl0 mm (ty s (ow s q)) (e_type (eg s q))) (e_r (eg s q)) /\
      kder s (k_A0_splines km) q 0 = csd (N:=RNum) (spl0 mm (ty s (ow s q)) (e_type (eg s q))) (e_r (eg s q)).
Proof.
  intros E. pose proof (l_A0 _ _ _ D E) as HS. destruct (kf_A0 _ KF E) as [HL _].
  assert (HL' : length (one_ (f_A0_spline_values f)) = T * (T + 1) / 2) by (unfold one_; rewrite map_length; exact HL).
  split; [|split].
  - apply (rad_in _ _ _ _ _ _ HS HL' (fun q => cellsA0 q E)).
  - apply HS.
  - intros q Hq. destruct (rad_v _ _ _ _ _ _ HS HL' (fun q => cellsA0 q E) q 0 Hq ltac:(lia)) as [-> ->].
    pose proof (xq_lt q Hq) as XL. pose proof (fo_A0s _ F E) as HR. rewrite !nth_one by (rewrite ?(proj1 (proj2 HR)); rewrite HL; exact XL). cbn [nth].
    assert (XL' : xq q < length (f_A0_spline_values f)) by (rewrite HL; exact XL).
    destruct (spl_v _ _ _ (xq q) q HR XL' Hq (proj1 (proj2 (proj2 (q_d q Hq))) E)) as [A B].
    unfold spl0. cbn [m_A0_splines ldm]. rewrite E. split; symmetry; [exact A|exact B].
Qed.
Lemma in_A1 : f_A1_scaled f = true -> krad_in s (k_A1_splines km) /\ kr_num (k_A1_splines km) = 1 /\
    forall q, q < nE ->
      kval s (k_A1_splines km) q 0 = csv (N:=RNum) (spl1 mm (ty s (ow s q)) (e_type (eg s q))) (e_r (eg s q)) /\
      kder s (k_A1_splines km) q 0 = csd (N:=RNum) (spl1 mm (ty s (ow s q)) (e_type (eg s q))) (e_r (eg s q)).
Proof.
  intros E. pose proof (l_A1s _ _ _ D E) as HS. destruct (kf_A1 _ KF E) as [HL _].
  assert (HL' : length (one_ (f_A1_spline_values f)) = T * (T + 1) / 2) by (unfold one_; rewrite map_length; exact HL).
  split; [|split].
  - apply (rad_in _ _ _ _ _ _ HS HL' (fun q => cellsA1 q E)).
  - apply HS.
  - intros q Hq. destruct (rad_v _ _ _ _ _ _ HS HL' (fun q => cellsA1 q E) q 0 Hq ltac:(lia)) as [-> ->].
    pose proof (xq_lt q Hq) as XL. pose proof (fo_A1s _ F E) as HR. rewrite !nth_one by (rewrite ?(proj1 (proj2 HR)); rewrite HL; exact XL). cbn [nth].
    assert (XL' : xq q < length (f_A1_spline_values f)) by (rewrite HL; exact XL).
    destruct (spl_v _ _ _ (xq q) q HR XL' Hq (proj2 (proj2 (proj2 (q_d q Hq))) E)) as [A B].
    unfold spl1. cbn [m_A1_splines ldm]. rewrite E. split; symmetry; [exact A|exact B].
Qed.

Lemma Rm_acb (a b c : R) : (a * (b * c) = a * c * b)%R. Proof. ring. Qed.
Lemma kpv_sum (c : nat -> nat -> R) (w : nat -> R) n x : kpv (fun p => rsum n (fun k => w k * c k p)%R) x = rsum n (fun k => w k * kpv (c k) x)%R /\
  kpd (fun p => rsum n (fun k => w k * c k p)%R) x = rsum n (fun k => w k * kpd (c k) x)%R.
Proof. unfold kpv, kpd. rewrite <- !rsum_scal_r, <- !rsum_plus. split; apply rsum_ext; intros; ring. Qed.
Lemma kpv_ext c c' x : (forall p, p < 4 -> c p = c' p) -> kpv c x = kpv c' x /\ kpd c x = kpd c' x.
Proof. intros H. unfold kpv, kpd. rewrite !H by lia. auto. Qed.

Lemma in_R0 : R0_in km s /\ forall q p, q < nE -> p < (f_l_max f + 1) * K ->
    k0val km s q p = kR mm s (R0v (N:=RNum) mm s) (ow s q) (eg s q) p /\ k0der km s q p = kR mm s (R0d (N:=RNum) mm s) (ow s q) (eg s q) p.
Proof.
  pose proof (fo_K _ F) as HK. split.
  - intros q Hq. rewrite (l_h _ _ _ D). destruct (cells _ _ q (cells0 q Hq)) as (A & B & _). split; auto.
    intros p k Hp Hk. rewrite (l_R0x _ _ _ D). rewrite (l_l _ _ _ D), (l_K _ _ _ D) in Hk. apply inb4_t; auto.
    unfold k0_t. rewrite (l_Z _ _ _ D). pose proof (q_t q Hq). pose proof (q_u q Hq). nia.
  - intros q p Hq Hp. destruct (cells _ _ q (cells0 q Hq)) as (A & B & _ & E).
    assert (Hl : p / K <= f_l_max f). { assert (p / K < f_l_max f + 1) by (apply Nat.div_lt_upper_bound; lia). lia. }
    assert (Hk : p mod K < K) by (apply Nat.mod_upper_bound; lia).
    assert (Ep : p = p / K * K + p mod K) by (pose proof (Nat.div_mod_eq p K); lia).
    set (l := p / K) in *. set (k := p mod K) in *.
    set (h := f_radial_spline_h f). set (x := nsub (n:=RNum) (e_r (eg s q)) (nmul (n:=RNum) h (nofnat (N:=RNum) (cq h q)))).
    set (v := fun kp => vfun (N:=RNum) (nth (l * K + kp) (nth (xq q) (f_radial_spline_values_0 f) []) [])).
    set (d := fun kp => vfun (N:=RNum) (nth (l * K + kp) (nth (xq q) (f_radial_spline_derivs_0 f) []) [])).
    set (w := fun kp => (W0 (N:=RNum) mm (ty s (ow s q)) l (kp * K + k) * at_ (N:=RNum) (f_H0_weights f) (e_type (eg s q) * K + kp))%R).
    assert (C0 : forall c, c < 4 -> k0coef km s q p c = rsum K (fun kp => w kp * hco (N:=RNum) h (v kp) (d kp) c (cq h q))%R).
    { intros c Hc. unfold k0coef, k0_t. rewrite (l_h _ _ _ D), (l_Z _ _ _ D). fold h. change (Z.to_nat (knz s h q)) with (cq h q).
      rewrite Ep. refine (eq_trans (l_R0 _ _ _ D _ _ _ _ _ _ (q_t q Hq) (q_u q Hq) B Hc Hl Hk) _). cbv zeta. rewrite xq_pix.
      apply rsum_ext. intros kp Hkp. unfold w, W0, at_. rewrite RNum_zero. unfold v, d. cbn [m_A0_weights ldm]. apply Rm_acb. }
    assert (G : k0val km s q p = rsum K (fun kp => w kp * pval (N:=RNum) h (v kp) (d kp) (cq h q) x)%R /\
                k0der km s q p = rsum K (fun kp => w kp * pder (N:=RNum) h (v kp) (d kp) (cq h q) x)%R).
    { unfold k0val, k0der. rewrite (l_h _ _ _ D). rewrite E. fold h. fold x.
      destruct (kpv_ext _ _ x C0) as [-> ->]. destruct (kpv_sum (fun kp c => hco (N:=RNum) h (v kp) (d kp) c (cq h q)) w K x) as [-> ->].
      split; [reflexivity|]. apply rsum_ext. intros kp _. unfold kpd, pder. rewrite (RNum_ofZ 2), (RNum_ofZ 3). cbn [nadd nmul RNum].
      match goal with |- @eq _ ?a ?b => change (@eq R a b) end. ring. }
    destruct G as [-> ->].
    assert (SV : forall kp, kp < K -> R0v (N:=RNum) mm s (ow s q) (eg s q) (l * K + kp) = pval (N:=RNum) h (v kp) (d kp) (cq h q) x /\
                                    R0d (N:=RNum) mm s (ow s q) (eg s q) (l * K + kp) = pder (N:=RNum) h (v kp) (d kp) (cq h q) x).
    { intros kp Hkp. pose proof (fo_R0 _ F) as HR. assert (XL : xq q < length (f_radial_spline_values_0 f)) by (pose proof (xq_lt q Hq); destruct HR; lia).
      exact (set_v _ _ _ (xq q) (l * K + kp) q HR XL ltac:(nia) Hq (proj1 (q_d q Hq))). }
    unfold kR. cbn [m_num_channels ldm]. fold l k. split; apply rsum_ext; intros kp Hkp; destruct (SV kp Hkp) as [S1 S2]; rewrite ?S1, ?S2; unfold w; cbn [m_H0_weights ldm]; symmetry; apply Rm_acb.
Qed.

(** ** polynomials *)
Lemma ldp0_at a LM k : a < T -> LM < LMs -> k < K -> ldp0 srt f (a * LMs * K + (LM * K + k)) = mp (f_M0_weights f a LM k) (f_M0_monomials f LM).
Proof.
  intros Ha HL Hk. unfold ldp0, ldP0. apply nth_error_nth. replace (a * LMs * K + (LM * K + k)) with (a * (LMs * K) + (LM * K + k)) by lia.
  assert (L1 : forall a x, length (map (fun k => mp (f_M0_weights f a x k) (f_M0_monomials f x)) (seq 0 K)) = K) by (intros; rewrite map_length, seq_length; auto).
  rewrite nth_error_flat_map_const with (c := LMs * K) (x := a).
  - rewrite nth_error_flat_map_const with (c := K) (x := LM); auto.
    + rewrite (nth_error_nth' _ (mp (f_M0_weights f a LM 0) (f_M0_monomials f LM))) by (rewrite L1; auto). f_equal.
      rewrite (map_nth (fun k => mp (f_M0_weights f a LM k) (f_M0_monomials f LM)) _ 0), seq_nth by auto. reflexivity.
    + rewrite (nth_error_nth' _ 0) by (rewrite seq_length; auto). rewrite seq_nth by auto. reflexivity.
  - intros. rewrite (length_flat_map_const _ _ K) by (intros; apply L1). rewrite seq_length. reflexivity.
  - rewrite (nth_error_nth' _ 0) by (rewrite seq_length; auto). rewrite seq_nth by auto. reflexivity.
  - nia.
Qed.
Lemma ldp1_at a k : a < T -> k < K -> ldp1 srt f (a * K + k) = mp (f_M1_weights f a k) (f_M1_monomials f).
Proof.
  intros Ha Hk. unfold ldp1, ldP1. apply nth_error_nth.
  rewrite nth_error_flat_map_const with (c := K) (x := a); auto.
  - rewrite (nth_error_nth' _ (mp (f_M1_weights f a 0) (f_M1_monomials f))) by (rewrite map_length, seq_length; auto). f_equal.
    rewrite (map_nth (fun k => mp (f_M1_weights f a k) (f_M1_monomials f)) _ 0), seq_nth by auto. reflexivity.
  - intros. rewrite map_length, seq_length. reflexivity.
  - rewrite (nth_error_nth' _ 0) by (rewrite seq_length; auto). rewrite seq_nth by auto. reflexivity.
Qed.
Lemma k_lm_eq : k_num_lm km = lms.
Proof. unfold k_num_lm. rewrite (l_l _ _ _ D). reflexivity. Qed.
Lemma k_LM_eq : k_num_LM km = LMs.
Proof. unfold k_num_LM. rewrite (l_L _ _ _ D). reflexivity. Qed.
Lemma kE_at LM : LM < LMs -> kE km LM = E0 srt f LM.
Proof.
  intros H. unfold kE. rewrite (l_M0s _ _ _ D). rewrite (nth_indep _ [] (E0 srt f 0)) by (rewrite map_length, seq_length; auto).
  rewrite map_nth, seq_nth by auto. reflexivity.
Qed.
Lemma in_M0 : M0_in km s (fun t LM k => ldp0 srt f (t * num_LM mm * m_num_channels mm + (LM * m_num_channels mm + k))).
Proof.
  pose proof (fo_K _ F) as HK. pose proof (fo_T _ F) as HT.
  intros LM HLM. rewrite k_LM_eq in HLM. split; [rewrite (l_M0s _ _ _ D), map_length, seq_length; exact HLM|].
  destruct (l_M0 _ _ _ D LM HLM) as (v & Rv & Xv & Vv). exists v. split; auto. rewrite kE_at, k_lm_eq by auto.
  split; [unfold coeff_ext1; rewrite Xv; reflexivity|].
  intros i k Hi Hk. rewrite (l_K _ _ _ D) in Hk. pose proof (t_lt i Hi) as Ht. change (num_LM mm) with LMs. cbn [m_num_channels ldm]. rewrite ldp0_at by auto.
  destruct (fo_M0 _ F (ty s i) LM k Ht HLM Hk) as [M1 M2]. destruct (fo_M0 _ F 0 LM 0 ltac:(lia) HLM ltac:(lia)) as [_ M3].
  destruct (mp_same srt Hsrt f _ _ _ M1 M2 M3) as (A & B & C & G).
  split; auto. rewrite k_lm_eq. split; auto. split; auto.
  intros q Hq. rewrite vget_some; [f_equal; apply Vv; auto|]. rewrite Xv. apply inb3_t; auto.
Qed.
Lemma in_M1 : M1_in km s (fun t k => ldp1 srt f (t * m_num_channels mm + k)).
Proof.
  pose proof (fo_K _ F) as HK. pose proof (fo_T _ F) as HT.
  destruct (l_M1 _ _ _ D) as (Xv & Vv). unfold M1_in. rewrite (l_M1s _ _ _ D), k_lm_eq.
  split; [unfold coeff_ext1; rewrite Xv; reflexivity|].
  intros i k Hi Hk. rewrite (l_K _ _ _ D) in Hk. pose proof (t_lt i Hi) as Ht. cbn [m_num_channels ldm]. rewrite ldp1_at by auto.
  destruct (fo_M1 _ F (ty s i) k Ht Hk) as [M1 M2]. destruct (fo_M1 _ F 0 0 ltac:(lia) ltac:(lia)) as [_ M3].
  destruct (mp_same srt Hsrt f _ _ _ M1 M2 M3) as (A & B & C & G).
  split; auto. rewrite k_lm_eq. split; auto. split; auto.
  intros q Hq. rewrite vget_some; [f_equal; apply Vv; auto|]. rewrite Xv. apply inb3_t; auto.
Qed.

(** ** weights and paths *)
Lemma in_H1 : H1_in km.
Proof.
  intros l a b Hl Ha Hb. rewrite (l_L _ _ _ D) in Hl. rewrite (l_K _ _ _ D) in Ha, Hb. apply vget_some. rewrite (l_H1x _ _ _ D). apply inb3_t; auto.
Qed.
Lemma lpaths_eq : lpaths f = paths mm.
Proof. reflexivity. Qed.
Lemma C_eq : k_num_lelm1lm2 km = length (paths mm).
Proof.
  rewrite (l_C _ _ _ D). unfold paths. rewrite length_flat_map. f_equal. apply map_ext. intros q. rewrite length_paths_at. reflexivity.
Qed.
Lemma sqb x a b : x < a * a + (2 * a + 1) -> a <= b -> x < (b + 1) * (b + 1).
Proof. intros. nia. Qed.
Lemma in_paths c : c < k_num_lelm1lm2 km -> lm1 km c = plm1 mm c /\ lm2 km c = plm2 mm c /\ lel km c = ple mm c /\
  rd (k_Phi1_lm1 km) c = Some (lm1 km c) /\ rd (k_Phi1_lm2 km) c = Some (lm2 km c) /\ rd (k_Phi1_lel1l2 km) c = Some (lel km c) /\
  ple mm c < length (f_Phi1_l f) /\ plm1 mm c < lms /\ plm2 mm c < LMs.
Proof.
  intros Hc. rewrite C_eq in Hc. unfold lm1, lm2, lel. rewrite (l_lm1 _ _ _ D), (l_lm2 _ _ _ D), (l_le _ _ _ D), lpaths_eq.
  assert (G : forall (g : nat * nat * nat -> nat), nth c (map g (paths mm)) 0 = g (path mm c)).
  { intros g. rewrite (nth_indep _ 0 (g (0, 0, 0))) by (rewrite map_length; auto). apply map_nth. }
  repeat split; try (apply rd_some; rewrite map_length; exact Hc); try (rewrite G; reflexivity).
  all: assert (Hin : In (path mm c) (paths mm)) by (apply nth_In; auto); unfold paths in Hin; apply in_flat_map in Hin as (le & Hle & Hin); apply in_seq in Hle;
    cbn [m_Phi1_l ldm] in Hle; apply in_flat_map in Hin as (x & H1 & Hin); apply in_map_iff in Hin as (y & E & H2); apply in_seq in H1, H2;
    pose proof (fo_l1_le _ F le ltac:(lia)) as B1; pose proof (fo_l2_le _ F le ltac:(lia)) as B2; unfold ple, plm1, plm2; rewrite <- E; cbn [fst snd];
    unfold pl1, pl2 in *; cbn [m_Phi1_l1 m_Phi1_l2 ldm] in *.
  - lia.
  - apply (sqb x (nth le (f_Phi1_l1 f) 0)); lia.
  - apply (sqb y (nth le (f_Phi1_l2 f) 0)); lia.
Qed.
Lemma in_Phi1 : Phi1_in km s nH.
Proof.
  split.
  - intros c Hc. destruct (in_paths c Hc) as (A1 & A2 & A3 & A4 & A5 & A6 & A7 & A8 & A9). rewrite k_lm_eq, k_LM_eq. rewrite A1, A2, A3 in *.
    repeat split; auto. intros k Hk. rewrite (l_K _ _ _ D) in *. rewrite (proj1 (proj2 in_R1)). nia.
  - intros p Hp. rewrite (l_cg _ _ _ D) in Hp. unfold cge, cgc. rewrite (l_lme _ _ _ D), (l_lel _ _ _ D), (l_NE _ _ _ D).
    pose proof (ld_wf f F) as W. pose proof (fo_lme _ F). pose proof (fo_lel _ F).
    rewrite (rd_some _ p 0) by lia. rewrite (rd_some (f_Phi1_lelm1lm2 f) p 0) by lia.
    repeat split; auto. apply (mw_lme_lt _ W p Hp). rewrite (l_C _ _ _ D). apply (mw_lel_lt _ W p Hp).
  - intros q Hq. apply q_x; auto.
Qed.
Lemma in_A1w : A1_in km (moff mm) (mult mm) /\
  forall l p k, l < k_l_max km + 1 -> p < mult mm l * k_num_channels km -> k < k_num_channels km ->
    v_val (nth l (k_A1_weights km) dview) [p; k] = W1 (N:=RNum) mm l (p * m_num_channels mm + k).
Proof.
  pose proof (ld_wf f F) as W. destruct (l_A1l _ _ _ D) as [L1 L2].
  assert (G : forall l, l < k_l_max km + 1 -> exists w wt, nth l (k_A1_weights km) dview = w /\ nth l (k_A1_weights_trans km) dview = wt /\
    v_ext w = [mult mm l * K; K] /\ v_ext wt = [K; mult mm l * K] /\
    forall i j, i < mult mm l * K -> j < K -> v_val w [i; j] = nth (i * K + j) (nth l (f_A1_weights f) []) 0%R /\ v_val wt [j; i] = nth (i * K + j) (nth l (f_A1_weights f) []) 0%R).
  { intros l Hl. rewrite (l_l _ _ _ D) in Hl. destruct (l_A1 _ _ _ D l Hl) as (w & wt & R1 & R2 & X1 & X2 & V). exists w, wt.
    split; [apply nth_error_nth; exact R1|]. split; [apply nth_error_nth; exact R2|]. auto. }
  split.
  - intros l Hl. destruct (G l Hl) as (w & wt & E1 & E2 & X1 & X2 & V). rewrite (l_l _ _ _ D) in Hl. split; [|split; [lia|split; [lia|split]]].
    + unfold kk_block. rewrite (l_Pl _ _ _ D), blk_loop, blk_moff. reflexivity.
    + intros m e Hm He. rewrite (l_NE _ _ _ D).
      change (lsum _) with (m_num_lme mm). rewrite <- (moff_all mm W). cbn [m_l_max ldm].
      assert (M : moff mm (S l) <= moff mm (f_l_max f + 1)) by (apply moff_mono; lia). rewrite moff_S in M. nia.
    + intros p k Hp Hk. rewrite (l_K _ _ _ D) in *. rewrite E1, E2. destruct (V p k Hp Hk) as [V1 V2].
      rewrite !vget_some by (rewrite ?X1, ?X2; apply inb2_t; auto). split; auto. rewrite V1, V2. reflexivity.
  - intros l p k Hl Hp Hk. destruct (G l Hl) as (w & wt & E1 & E2 & X1 & X2 & V). rewrite (l_K _ _ _ D) in *. rewrite E1.
    destruct (V p k Hp Hk) as [-> _]. unfold W1, at_. rewrite RNum_zero. reflexivity.
Qed.
Lemma in_HH : HH_in km s /\ forall i j, i < length s -> j < k_num_channels km * k_num_channels km ->
    v_val (k_H2_weights_for_H1 km) [ty s i; j] = WHH (N:=RNum) mm (ty s i) j.
Proof.
  split.
  - intros i j Hi Hj. rewrite (l_K _ _ _ D) in Hj. apply vget_some. rewrite (l_HHx _ _ _ D). apply inb2_t; auto. apply t_lt; auto.
  - intros i j Hi Hj. rewrite (l_K _ _ _ D) in Hj. rewrite (l_HH _ _ _ D) by (auto; apply t_lt; auto). unfold WHH, at_. rewrite RNum_zero. reflexivity.
Qed.
End In.
