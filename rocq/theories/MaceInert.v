(** Over the reals: reordering the edges of a node and adding edges with vanishing radial functions. *)
From Coq Require Import List Arith ZArith Lia Bool Reals Lra Permutation.
From Verif Require Import Base BaseLemmas Segs Instances BlasLemmas RSums RList SplineModel MpModel MpProofs MlpModel ZblModel MaceModel
  Sys SysLoops MaceGrid MacePure MaceStages1 MaceStages4 MaceStages6 MaceStages7 MaceStages8 MacePipe MaceHsrc.
Import ListNotations.
Local Open Scope R_scope.

Ltac rring := cbn [nopp nmul nadd nsub ndiv RNum]; unfold Rdiv; match goal with |- @eq _ ?a ?b => change (@eq R a b) end; ring.

Lemma qH1_src {N : Num} sph (m : mace_model N) (W : mace_wf m) P0 P1 fg (s : sys N)
  (Hix : forall i e, (i < length s)%nat -> In e (es s i) -> (e_idx e < length s)%nat) j L k :
  (j < length s)%nat -> (L < num_LM m)%nat -> (k < m_num_channels m)%nat ->
  qH1 sph m P0 P1 fg s j L k = nfold (hsrc m s j L) (fun '(p, c) =>
    nmul (nmul (R1v m s (fst p) (snd p) (ple m c * m_num_channels m + k)%nat) (Yv sph m (fst p) (snd p) (plm1 m c)))
         (qP1r sph m P0 P1 fg s (fst p) c k)) (qH1a sph m P0 P1 fg s j L k).
Proof. intros Hj HL Hk. unfold qH1, qH1l. apply hadds_nth; assumption. Qed.

Section Inert.
Variable sph : nat -> RNum -> RNum -> RNum -> list RNum * list RNum.
Variable m : mace_model RNum.
Hypothesis W : mace_wf m.
Variables (P0 P1 : nat -> @mpoly RNum).
Variable fe : list RNum -> RNum.
Variable fg : list RNum -> nat -> RNum.
Variables s s' : sys RNum.
Variable D : nat -> list (edge RNum).
Notation n := (length s).
Notation K := (m_num_channels m).
Notation lms := (num_lm m).
Notation LMs := (num_LM m).
Notation NPs := (length (paths m)).
Notation lmax := (m_l_max m).
Notation nle := (length (m_Phi1_l m)).

Hypothesis Hn : length s' = n.
Hypothesis Hty : forall i, (i < n)%nat -> ty s' i = ty s i.
Hypothesis Hes : forall i, (i < n)%nat -> Permutation (es s' i) (D i ++ es s i).
Hypothesis Hix : forall i e, (i < n)%nat -> In e (es s i) -> (e_idx e < n)%nat.
Hypothesis HixD : forall i e, (i < n)%nat -> In e (D i) -> (e_idx e < n)%nat.

Record inert (t : nat) (e : edge RNum) : Prop := {
  in_R0 : forall p, (p < (lmax + 1) * K)%nat -> setv (N:=RNum) (set0 m t (e_type e)) (e_r e) p = 0 /\ setd (N:=RNum) (set0 m t (e_type e)) (e_r e) p = 0;
  in_R1 : forall p, (p < nle * K)%nat -> setv (N:=RNum) (set1 m t (e_type e)) (e_r e) p = 0 /\ setd (N:=RNum) (set1 m t (e_type e)) (e_r e) p = 0;
  in_S0 : m_A0_scaled m = true -> csv (N:=RNum) (spl0 m t (e_type e)) (e_r e) = 0 /\ csd (N:=RNum) (spl0 m t (e_type e)) (e_r e) = 0;
  in_S1 : m_A1_scaled m = true -> csv (N:=RNum) (spl1 m t (e_type e)) (e_r e) = 0 /\ csd (N:=RNum) (spl1 m t (e_type e)) (e_r e) = 0;
  in_Z : m_has_zbl m = true -> zen m t (e_type e) (e_r e) = 0 /\ zgr m t (e_type e) (e_r e) = 0
}.
Hypothesis Hin : forall i e, (i < n)%nat -> In e (D i) -> inert (ty s i) e.

Lemma nfold_i i (g g' : edge RNum -> RNum) (a : R) : (i < n)%nat -> (forall e, In e (es s i) -> g' e = g e) ->
  (forall e, In e (D i) -> g' e = 0) -> nfold (N:=RNum) (es s' i) g' a = nfold (N:=RNum) (es s i) g a.
Proof.
  intros Hi H1 H2. rewrite !nfold_rl. f_equal. rewrite (rl_perm _ _ _ (Hes i Hi)), rl_app.
  rewrite (rl_0 (D i)) by auto. rewrite (rl_ext (es s i) g' g) by auto. lra.
Qed.

Lemma lm_p lm k : (lm < lms)%nat -> (k < K)%nat -> (Nat.sqrt lm * K + k < (lmax + 1) * K)%nat.
Proof. intros H1 H2. pose proof (sqrt_lt lm (lmax + 1) H1). nia. Qed.
Lemma c_p c k : (c < NPs)%nat -> (k < K)%nat -> (ple m c * K + k < nle * K)%nat.
Proof. intros H1 H2. pose proof (ple_lt m c H1). nia. Qed.

Lemma R0v_t i i' (e : edge RNum) p : ty s' i = ty s i' -> R0v (N:=RNum) m s' i e p = R0v (N:=RNum) m s i' e p.
Proof. intros E. unfold R0v. rewrite E. reflexivity. Qed.

Lemma zE_i i : (i < n)%nat -> zE m s' i = zE m s i.
Proof.
  intros Hi. unfold zE. destruct (m_has_zbl m) eqn:E; [|reflexivity]. apply nfold_i; auto.
  - intros e _. rewrite Hty by auto. reflexivity.
  - intros e He. rewrite Hty by auto. apply (Hin i e Hi He); auto.
Qed.
Lemma zF_i i e a : (i < n)%nat -> zF m s' i e a = zF m s i e a.
Proof. intros Hi. unfold zF. rewrite Hty by auto. reflexivity. Qed.
Lemma sc0_i i : m_A0_scaled m = true -> (i < n)%nat -> sc0 m s' i = sc0 m s i.
Proof.
  intros E Hi. unfold sc0. apply nfold_i; auto; intros e He; rewrite Hty by auto; [reflexivity|]. apply (Hin i e Hi He); auto.
Qed.
Lemma sc1_i i : m_A1_scaled m = true -> (i < n)%nat -> sc1 m s' i = sc1 m s i.
Proof.
  intros E Hi. unfold sc1. apply nfold_i; auto; intros e He; rewrite Hty by auto; [reflexivity|]. apply (Hin i e Hi He); auto.
Qed.
Lemma odivs_i fl (sc sc' : nat -> RNum) (f f' : nat -> nat -> nat -> RNum) i lm k : (fl = true -> sc' i = sc i) -> f' i lm k = f i lm k ->
  odivs (N:=RNum) fl sc' f' i lm k = odivs (N:=RNum) fl sc f i lm k.
Proof. intros E1 E2. unfold odivs, divs. destruct fl; [rewrite E1|]; congruence. Qed.

Lemma pA0_i i lm k : (i < n)%nat -> (lm < lms)%nat -> pA0 sph m s' i lm k = pA0 sph m s i lm k.
Proof.
  intros Hi Hlm. unfold pA0. apply odivs_i; [intros; apply sc0_i; auto|]. unfold mulW0. apply nsum_ext. intros q Hq.
  rewrite Hty by auto. f_equal. unfold phi0. apply nfold_i; auto; intros e He.
  - unfold R0v. rewrite Hty by auto. reflexivity.
  - unfold R0v. rewrite Hty by auto. 
    rewrite (proj1 (in_R0 _ _ (Hin i e Hi He) _ (lm_p lm q Hlm Hq))). rring.
Qed.
Lemma xcol_i (A A' : nat -> nat -> nat -> RNum) i k : (forall lm, (lm < lms)%nat -> A' i lm k = A i lm k) ->
  xcol (N:=RNum) m A' i k = xcol (N:=RNum) m A i k.
Proof. intros H. unfold xcol. apply tab_ext. exact H. Qed.
Lemma pM0_i i L k : (i < n)%nat -> pM0 sph m P0 s' i L k = pM0 sph m P0 s i L k.
Proof. intros Hi. unfold pM0, m0. rewrite Hty by auto. f_equal. apply xcol_i. intros; apply pA0_i; auto. Qed.
Lemma pH1_i i L k : (i < n)%nat -> pH1 sph m P0 s' i L k = pH1 sph m P0 s i L k.
Proof. intros Hi. unfold pH1, mulH1. apply nsum_ext. intros q Hq. rewrite pM0_i by auto. reflexivity. Qed.
Lemma pP1r_i i c k : (i < n)%nat -> (c < NPs)%nat -> (k < K)%nat -> pP1r sph m P0 s' i c k = pP1r sph m P0 s i c k.
Proof.
  intros Hi Hc Hk. unfold pP1r, phi1r. apply nfold_i; auto; intros e He.
  - unfold R1v. rewrite Hty by auto. f_equal. apply pH1_i. eauto.
  - unfold R1v. rewrite Hty by auto. 
    rewrite (proj1 (in_R1 _ _ (Hin i e Hi He) _ (c_p c k Hc Hk))). rring.
Qed.
Lemma cgr_lt p : (p < length (m_Phi1_clebsch_gordan m))%nat -> (cgr m p < NPs)%nat.
Proof. intros H. rewrite <- (mw_nlel _ W). apply (mw_lel_lt _ W p H). Qed.
Lemma pP1_i i a k : (i < n)%nat -> (k < K)%nat -> pP1 sph m P0 s' i a k = pP1 sph m P0 s i a k.
Proof.
  intros Hi Hk. unfold pP1, phi1. apply nfold_ext. intros p Hp. apply filter_In in Hp. destruct Hp as [Hp _]. apply in_seq in Hp.
  rewrite pP1r_i; auto. apply cgr_lt. lia.
Qed.
Lemma pA1_i i lm k : (i < n)%nat -> pA1 sph m P0 s' i lm k = pA1 sph m P0 s i lm k.
Proof.
  intros Hi. unfold pA1. apply odivs_i; [intros; apply sc1_i; auto|]. unfold a1raw. cbv zeta. apply nsum_ext. intros q _.
  pose proof (mw_K _ W). rewrite pP1_i; auto. apply Nat.mod_upper_bound. lia.
Qed.
Lemma pM1_i i k : (i < n)%nat -> pM1 sph m P0 P1 s' i k = pM1 sph m P0 P1 s i k.
Proof. intros Hi. unfold pM1, m1. rewrite Hty by auto. f_equal. apply xcol_i. intros; apply pA1_i; auto. Qed.
Lemma pH2_i i k : (i < n)%nat -> pH2 sph m P0 P1 s' i k = pH2 sph m P0 P1 s i k.
Proof.
  intros Hi. unfold pH2, h2. rewrite Hty by auto. f_equal; apply nsum_ext; intros q _.
  - rewrite pH1_i by auto. reflexivity.
  - rewrite pM1_i by auto. reflexivity.
Qed.
Lemma pE_i i : (i < n)%nat -> pE sph m P0 P1 fe s' i = pE sph m P0 P1 fe s i.
Proof.
  intros Hi. unfold pE, en. rewrite zE_i, Hty by auto. f_equal.
  - apply nfold_ext. intros k _. rewrite pH1_i by auto. reflexivity.
  - f_equal. apply tab_ext. intros. apply pH2_i; auto.
Qed.

Lemma qH2_i i k : (i < n)%nat -> qH2 sph m P0 P1 fg s' i k = qH2 sph m P0 P1 fg s i k.
Proof. intros Hi. unfold qH2. f_equal. apply tab_ext. intros. apply pH2_i; auto. Qed.
Lemma qH1a_i i L k : (i < n)%nat -> qH1a sph m P0 P1 fg s' i L k = qH1a sph m P0 P1 fg s i L k.
Proof.
  intros Hi. unfold qH1a, rH2n, rH2h, ra1. rewrite Hn, Hty by auto.
  destruct (L =? 0)%nat; [|reflexivity]. destruct (i <? n)%nat; [|reflexivity]. f_equal. apply nsum_ext. intros q _. rewrite qH2_i by auto. reflexivity.
Qed.
Lemma qM1_i i k : (i < n)%nat -> qM1 sph m P0 P1 fg s' i k = qM1 sph m P0 P1 fg s i k.
Proof. intros Hi. unfold qM1, rH2m. apply nsum_ext. intros q _. rewrite qH2_i by auto. reflexivity. Qed.
Lemma qA1r_i i lm k : (i < n)%nat -> qA1r sph m P0 P1 fg s' i lm k = qA1r sph m P0 P1 fg s i lm k.
Proof.
  intros Hi. unfold qA1r, rm1, g1. rewrite qM1_i, Hty by auto.
  rewrite (xcol_i (pA1 sph m P0 s) (pA1 sph m P0 s')) by (intros; apply pA1_i; auto). reflexivity.
Qed.
Lemma ofsc_i fl sp (sc sc' dot dot' : nat -> RNum) (F F' : nat -> edge RNum -> nat -> RNum) i e a : (i < n)%nat -> (fl = true -> sc' i = sc i) -> dot' i = dot i ->
  F' i e a = F i e a -> ofsc (N:=RNum) s' fl sp sc' dot' F' i e a = ofsc (N:=RNum) s fl sp sc dot F i e a.
Proof.
  intros Hi E1 E2 E3. unfold ofsc, fsc. destruct fl; [|exact E3]. rewrite E1, E2, E3, Hty by auto. reflexivity.
Qed.
Lemma qF1_i i e a : (i < n)%nat -> qF1 sph m P0 P1 fg s' i e a = qF1 sph m P0 P1 fg s i e a.
Proof.
  intros Hi. unfold qF1. apply ofsc_i; [exact Hi|intros; apply sc1_i; auto| |apply zF_i; auto].
  unfold dotlk. apply nsum_ext. intros p _. rewrite qA1r_i, pA1_i by auto. reflexivity.
Qed.
Lemma qA1_i i lm k : (i < n)%nat -> qA1 sph m P0 P1 fg s' i lm k = qA1 sph m P0 P1 fg s i lm k.
Proof. intros Hi. unfold qA1. apply odivs_i; [intros; apply sc1_i|apply qA1r_i]; auto. Qed.
Lemma qP1r_i i c k : (i < n)%nat -> qP1r sph m P0 P1 fg s' i c k = qP1r sph m P0 P1 fg s i c k.
Proof.
  intros Hi.
  assert (E : rA1 m (qA1 sph m P0 P1 fg s') i = rA1 m (qA1 sph m P0 P1 fg s) i).
  { unfold rA1. apply flat_map_ext_in. intros l _. apply flat_map_ext_in. intros mm _.
    apply tab_ext. intros q _. apply nsum_ext. intros q' _. rewrite qA1_i by auto. reflexivity. }
  unfold qP1r, phi1T, rA1f. apply nfold_ext. intros p _. rewrite E. reflexivity.
Qed.
Lemma qF2_i i e a : (i < n)%nat -> (e_idx e < n)%nat -> qF2 sph m P0 P1 fg s' i e a = qF2 sph m P0 P1 fg s i e a.
Proof.
  intros Hi He. unfold qF2, fold1. rewrite qF1_i by auto. apply nfold_ext. intros [c k] _. unfold f1term, R1d, R1v.
  rewrite qP1r_i, Hty, pH1_i by auto. reflexivity.
Qed.

Lemma hsrc_rl (s0 : sys RNum) j L (g : nat * edge RNum * nat -> RNum) :
  rl (hsrc (N:=RNum) m s0 j L) g = rsum (length s0) (fun i => rl (es s0 i) (fun e => if (e_idx e =? j)%nat then rl (csel m L) (fun c => g ((i, e), c)) else 0)).
Proof.
  unfold hsrc. rewrite rl_flat_map. unfold epairs. rewrite rl_flat_map, rl_seq. apply rsum_ext. intros i _.
  rewrite rl_map. apply rl_ext. intros e _. cbn [snd]. destruct (e_idx e =? j)%nat; [|reflexivity]. rewrite rl_map. reflexivity.
Qed.

Lemma csel_lt c L : In c (csel m L) -> (c < NPs)%nat.
Proof. unfold csel. rewrite filter_In, in_seq. lia. Qed.

Lemma Hix' i e : (i < length s')%nat -> In e (es s' i) -> (e_idx e < length s')%nat.
Proof.
  rewrite Hn. intros Hi He. apply (Permutation_in _ (Hes i Hi)) in He. apply in_app_or in He. destruct He; eauto.
Qed.

Lemma qH1_i j L k : (j < n)%nat -> (L < LMs)%nat -> (k < K)%nat -> qH1 sph m P0 P1 fg s' j L k = qH1 sph m P0 P1 fg s j L k.
Proof.
  intros Hj HL Hk. assert (Hj' : (j < length s')%nat) by (rewrite Hn; exact Hj).
  rewrite (qH1_src sph m W P0 P1 fg s' Hix' j L k Hj' HL Hk), (qH1_src sph m W P0 P1 fg s Hix j L k Hj HL Hk).
  rewrite !nfold_rl, !hsrc_rl, Hn. rewrite qH1a_i by auto. apply Rplus_eq_compat_l. apply rsum_ext. intros i Hi.
  rewrite (rl_perm _ _ _ (Hes i Hi)), rl_app. rewrite (rl_0 (D i)).
  - rewrite Rplus_0_l. apply rl_ext. intros e He. destruct (e_idx e =? j)%nat; [|reflexivity]. apply rl_ext. intros c Hc.
    cbn [fst snd]. unfold R1v. rewrite Hty, qP1r_i by auto. reflexivity.
  - intros e He. destruct (e_idx e =? j)%nat; [|reflexivity]. apply rl_0. intros c Hc. apply csel_lt in Hc.
    cbn [fst snd]. unfold R1v. rewrite Hty by auto. 
    rewrite (proj1 (in_R1 _ _ (Hin i e Hi He) _ (c_p c k Hc Hk))). rring.
Qed.

Lemma qM0_i i L k : (i < n)%nat -> (L < LMs)%nat -> (k < K)%nat -> qM0 sph m P0 P1 fg s' i L k = qM0 sph m P0 P1 fg s i L k.
Proof. intros Hi HL Hk. unfold qM0, mulH1T. apply nsum_ext. intros q Hq. rewrite qH1_i by auto. reflexivity. Qed.
Lemma qA0r_i i lm k : (i < n)%nat -> (k < K)%nat -> qA0r sph m P0 P1 fg s' i lm k = qA0r sph m P0 P1 fg s i lm k.
Proof.
  intros Hi Hk. unfold qA0r, rm0. apply nfold_ext. intros L HL. apply in_seq in HL.
  rewrite qM0_i by (auto; lia). f_equal. unfold g0. rewrite Hty by auto.
  rewrite (xcol_i (pA0 sph m s) (pA0 sph m s')) by (intros; apply pA0_i; auto). reflexivity.
Qed.
Lemma qF3_i i e a : (i < n)%nat -> (e_idx e < n)%nat -> qF3 sph m P0 P1 fg s' i e a = qF3 sph m P0 P1 fg s i e a.
Proof.
  intros Hi He. pose proof (mw_K _ W) as HK. unfold qF3. apply ofsc_i; [exact Hi|intros; apply sc0_i; auto| |apply qF2_i; auto].
  unfold dotlk. apply nsum_ext. intros p Hp. assert (p mod K < K)%nat by (apply Nat.mod_upper_bound; lia).
  rewrite qA0r_i, pA0_i; auto. apply Nat.div_lt_upper_bound; nia.
Qed.
Lemma qA0_i i lm k : (i < n)%nat -> (k < K)%nat -> qA0 sph m P0 P1 fg s' i lm k = qA0 sph m P0 P1 fg s i lm k.
Proof. intros Hi Hk. unfold qA0. apply odivs_i; [intros; apply sc0_i|apply qA0r_i]; auto. Qed.
Lemma pF_i i e a : (i < n)%nat -> (e_idx e < n)%nat -> pF sph m P0 P1 fg s' i e a = pF sph m P0 P1 fg s i e a.
Proof.
  intros Hi He. unfold pF, fold0. rewrite qF3_i by auto. apply nfold_ext. intros [lm k] _. unfold f0term, R0d, R0v.
  assert (E : mulW0T m s' (qA0 sph m P0 P1 fg s') i lm k = mulW0T m s (qA0 sph m P0 P1 fg s) i lm k).
  { unfold mulW0T. apply nsum_ext. intros q Hq. rewrite qA0_i, Hty by auto. reflexivity. }
  rewrite E, Hty by auto. reflexivity.
Qed.

(** the force on an inert edge vanishes *)
Lemma pF_inert i e a : inert (ty s i) e -> pF sph m P0 P1 fg s i e a = 0.
Proof.
  intros I. unfold pF, fold0. rewrite nfold_rl.
  assert (H2 : rl (lmk m) (f0term m (R0v m s) (R0d m s) (Yv sph m) (Yg sph m) (mulW0T m s (qA0 sph m P0 P1 fg s)) i e a) = 0).
  { apply rl_0. intros [lm k] H. unfold lmk in H. apply in_flat_map in H. destruct H as (lm' & Hl & H). apply in_map_iff in H.
    destruct H as (k' & E & Hk). injection E as <- <-. apply in_seq in Hl. apply in_seq in Hk.
    destruct (in_R0 _ _ I _ (lm_p lm' k' ltac:(lia) ltac:(lia))) as [E1 E2]. unfold f0term, R0v, R0d. rewrite E1, E2.
    rring. }
  rewrite H2. unfold qF3.
  assert (H3 : qF2 sph m P0 P1 fg s i e a = 0).
  { unfold qF2, fold1. rewrite nfold_rl. 
    assert (H4 : rl (pck m) (f1term m (R1v m s) (R1d m s) (Yv sph m) (Yg sph m) (pH1 sph m P0 s) (qP1r sph m P0 P1 fg s) i e a) = 0).
    { apply rl_0. intros [c k] H. apply in_pck in H. destruct H as [Hc Hk].
      destruct (in_R1 _ _ I _ (c_p c k Hc Hk)) as [E1 E2]. unfold f1term, R1v, R1d. rewrite E1, E2.
      rring. }
    rewrite H4. unfold qF1, ofsc.
    assert (HZ : zF m s i e a = 0).
    { unfold zF. destruct (m_has_zbl m) eqn:E; [|apply RNum_zero]. rewrite (proj2 (in_Z _ _ I E)).
      rewrite RNum_zero. rring. }
    destruct (m_A1_scaled m) eqn:E; [|rewrite HZ; rring]. unfold fsc. rewrite HZ, (proj2 (in_S1 _ _ I E)).
    rring. }
  unfold ofsc. destruct (m_A0_scaled m) eqn:E; [|rewrite H3; rring]. unfold fsc. rewrite H3, (proj2 (in_S0 _ _ I E)).
  rring.
Qed.
End Inert.
