(** Over the reals: a system whose nodes look like nodes of another system evaluates like it. *)
From Coq Require Import List Arith ZArith Lia Bool Reals Lra Permutation.
From Verif Require Import Base BaseLemmas Segs Instances BlasLemmas RSums RList SplineModel MpModel MpProofs MlpModel ZblModel MaceModel
  Sys SysLoops MaceGrid MacePure MaceStages1 MaceStages4 MaceStages6 MaceStages7 MaceStages8 MacePipe MaceHsrc MaceInert DistPipe.
Import ListNotations.
Local Open Scope R_scope.

Definition re {A} (psi : nat -> nat) (e : edge A) : edge A := mkEdge (e_type e) (psi (e_idx e)) (e_x e) (e_y e) (e_z e) (e_r e).
Definition strip {A} (e : edge A) : edge A := re (fun _ => 0%nat) e.
Lemma strip_re {A} psi (e : edge A) : strip (re psi e) = strip e.
Proof. reflexivity. Qed.

Section Alg.
Variable sph : nat -> RNum -> RNum -> RNum -> list RNum * list RNum.
Variable m : mace_model RNum.
Hypothesis W : mace_wf m.
Variables (P0 P1 : nat -> @mpoly RNum).
Variable fe : list RNum -> RNum.
Variable fg : list RNum -> nat -> RNum.
Variable S : sys RNum.
Notation K := (m_num_channels m).
Notation lms := (num_lm m).
Notation LMs := (num_LM m).
Notation NPs := (length (paths m)).

Section Layer0.
Variable s : sys RNum.
Variable phi : nat -> nat.
Notation n := (length s).
Hypothesis Hty : forall i, (i < n)%nat -> ty s i = ty S (phi i).
Hypothesis Hes : forall i, (i < n)%nat -> Permutation (map strip (es s i)) (map strip (es S (phi i))).

Lemma nfold_0 i (g g' : edge RNum -> RNum) (a : R) : (i < n)%nat -> (forall e, g e = g' (strip e)) -> (forall e, g' e = g' (strip e)) ->
  nfold (N:=RNum) (es s i) g a = nfold (N:=RNum) (es S (phi i)) g' a.
Proof.
  intros Hi H1 H2. rewrite !nfold_rl. f_equal. rewrite (rl_ext _ g (fun e => g' (strip e))) by auto.
  rewrite (rl_ext (es S (phi i)) g' (fun e => g' (strip e))) by auto. rewrite <- (rl_map (es s i) strip g'), <- (rl_map (es S (phi i)) strip g'). apply rl_perm. auto.
Qed.
Lemma zE_0 i : (i < n)%nat -> zE m s i = zE m S (phi i).
Proof.
  intros Hi. unfold zE. destruct (m_has_zbl m) eqn:E; [|reflexivity]. apply nfold_0; auto.
  intros e. rewrite Hty by auto. reflexivity.
Qed.
Lemma zF_0 i e e' a : (i < n)%nat -> strip e = strip e' -> zF m s i e a = zF m S (phi i) e' a.
Proof.
  intros Hi E. unfold zF, comp. destruct e, e'. unfold strip, re in E. cbn in *. injection E as -> -> -> -> ->. rewrite Hty by auto. reflexivity.
Qed.
Lemma sc0_0 i : (i < n)%nat -> sc0 m s i = sc0 m S (phi i).
Proof. intros Hi. unfold sc0. apply nfold_0; auto. intros e. rewrite Hty by auto. reflexivity. Qed.
Lemma sc1_0 i : (i < n)%nat -> sc1 m s i = sc1 m S (phi i).
Proof. intros Hi. unfold sc1. apply nfold_0; auto. intros e. rewrite Hty by auto. reflexivity. Qed.
Lemma odivs_0 fl (sc sc' : nat -> RNum) (f f' : nat -> nat -> nat -> RNum) i j lm k : sc i = sc' j -> f i lm k = f' j lm k ->
  odivs (N:=RNum) fl sc f i lm k = odivs (N:=RNum) fl sc' f' j lm k.
Proof. intros U1 U2. unfold odivs, divs. destruct fl; congruence. Qed.
Lemma pA0_0 i lm k : (i < n)%nat -> pA0 sph m s i lm k = pA0 sph m S (phi i) lm k.
Proof.
  intros Hi. unfold pA0. apply odivs_0; [apply sc0_0; auto|]. unfold mulW0. apply nsum_ext. intros q Hq.
  rewrite Hty by auto. f_equal. unfold phi0. apply nfold_0; auto. intros e. unfold R0v. rewrite Hty by auto. reflexivity.
Qed.
Lemma xcol_0 (A A' : nat -> nat -> nat -> RNum) i j k : (forall lm, (lm < lms)%nat -> A i lm k = A' j lm k) ->
  xcol (N:=RNum) m A i k = xcol (N:=RNum) m A' j k.
Proof. intros H. unfold xcol. apply tab_ext. exact H. Qed.
Lemma pM0_0 i L k : (i < n)%nat -> pM0 sph m P0 s i L k = pM0 sph m P0 S (phi i) L k.
Proof. intros Hi. unfold pM0, m0. rewrite Hty by auto. f_equal. apply xcol_0. intros; apply pA0_0; auto. Qed.
Lemma pH1_0 i L k : (i < n)%nat -> pH1 sph m P0 s i L k = pH1 sph m P0 S (phi i) L k.
Proof. intros Hi. unfold pH1, mulH1. apply nsum_ext. intros q Hq. rewrite pM0_0 by auto. reflexivity. Qed.

(** the reverse pass through the first layer *)
Section Rev.
Variables Ha Ha' : nat -> nat -> nat -> RNum.
Lemma rrM0_0 i L k : (forall q, (q < K)%nat -> Ha i L q = Ha' (phi i) L q) -> rrM0 m Ha i L k = rrM0 m Ha' (phi i) L k.
Proof. intros H. unfold rrM0, mulH1T. apply nsum_ext. intros q Hq. rewrite H by auto. reflexivity. Qed.
Lemma rrA0r_0 i lm k : (i < n)%nat -> (forall L q, (L < LMs)%nat -> (q < K)%nat -> Ha i L q = Ha' (phi i) L q) ->
  rrA0r sph m P0 s Ha i lm k = rrA0r sph m P0 S Ha' (phi i) lm k.
Proof.
  intros Hi H. unfold rrA0r, rm0. apply nfold_ext. intros L HL. apply in_seq in HL.
  rewrite (rrM0_0 i L) by (intros; apply H; auto; lia). f_equal. unfold g0. rewrite Hty by auto.
  rewrite (xcol_0 (pA0 sph m s) (pA0 sph m S) i (phi i)) by (intros; apply pA0_0; auto). reflexivity.
Qed.
Lemma ofsc_0 fl sp (sc sc' dot dot' : nat -> RNum) (F F' : nat -> edge RNum -> nat -> RNum) i e e' a : (i < n)%nat -> strip e = strip e' ->
  sc i = sc' (phi i) -> dot i = dot' (phi i) -> F i e a = F' (phi i) e' a ->
  ofsc (N:=RNum) s fl sp sc dot F i e a = ofsc (N:=RNum) S fl sp sc' dot' F' (phi i) e' a.
Proof.
  intros Hi Ee U1 U2 U3. unfold ofsc, fsc. destruct fl; [|exact U3]. rewrite U1, U2, U3, Hty by auto.
  unfold comp. destruct e, e'. unfold strip, re in Ee. cbn in *. injection Ee as -> -> -> -> ->. reflexivity.
Qed.
Lemma rrA0_0 i lm k : (i < n)%nat -> (forall L q, (L < LMs)%nat -> (q < K)%nat -> Ha i L q = Ha' (phi i) L q) ->
  rrA0 sph m P0 s Ha i lm k = rrA0 sph m P0 S Ha' (phi i) lm k.
Proof. intros Hi H. unfold rrA0. apply odivs_0; [apply sc0_0|apply rrA0r_0]; auto. Qed.
Lemma rrF_0 F2 F2' i e e' a : (i < n)%nat -> strip e = strip e' -> (forall L q, (L < LMs)%nat -> (q < K)%nat -> Ha i L q = Ha' (phi i) L q) ->
  F2 i e a = F2' (phi i) e' a ->
  rrF sph m P0 s Ha F2 i e a = rrF sph m P0 S Ha' F2' (phi i) e' a.
Proof.
  intros Hi Ee H HF. unfold rrF, fold0.
  replace (rrF3 sph m P0 s Ha F2 i e a) with (rrF3 sph m P0 S Ha' F2' (phi i) e' a).
  - apply nfold_ext. intros [lm k] _. unfold f0term, R0d, R0v.
    assert (E : mulW0T m s (rrA0 sph m P0 s Ha) i lm k = mulW0T m S (rrA0 sph m P0 S Ha') (phi i) lm k).
    { unfold mulW0T. apply nsum_ext. intros q Hq. rewrite rrA0_0, Hty by auto. reflexivity. }
    rewrite E, Hty by auto. unfold Yv, Yg, comp. destruct e, e'. unfold strip, re in Ee. cbn in *. injection Ee as -> -> -> -> ->. reflexivity.
  - symmetry. unfold rrF3. apply ofsc_0; auto; [apply sc0_0; auto|]. unfold dotlk. apply nsum_ext. intros p _. rewrite pA0_0 by auto. f_equal. apply rrA0r_0; auto.
Qed.
End Rev.
End Layer0.

Section Layer1.
Variable s : sys RNum.
Variables phi psi : nat -> nat.
Notation n := (length s).
Hypothesis Hn : forall i, (i < n)%nat -> (phi i < length S)%nat.
Hypothesis Hty : forall i, (i < n)%nat -> ty s i = ty S (phi i).
Hypothesis Hes : forall i, (i < n)%nat -> Permutation (map (re psi) (es s i)) (es S (phi i)).
Variable H : nat -> nat -> nat -> RNum.
Hypothesis HH : forall i e L k, (i < n)%nat -> In e (es s i) -> (L < LMs)%nat -> (k < K)%nat -> H (e_idx e) L k = pH1 sph m P0 S (psi (e_idx e)) L k.
Hypothesis HH0 : forall i k, (i < n)%nat -> (k < K)%nat -> H i 0%nat k = pH1 sph m P0 S (phi i) 0%nat k.

Lemma Hes0 i : (i < n)%nat -> Permutation (map strip (es s i)) (map strip (es S (phi i))).
Proof.
  intros Hi. replace (map strip (es s i)) with (map strip (map (re psi) (es s i))) by (rewrite map_map; apply map_ext; reflexivity).
  apply Permutation_map. auto.
Qed.
Lemma nfold_1 i (g g' : edge RNum -> RNum) (a : R) : (i < n)%nat -> (forall e, In e (es s i) -> g e = g' (re psi e)) ->
  nfold (N:=RNum) (es s i) g a = nfold (N:=RNum) (es S (phi i)) g' a.
Proof.
  intros Hi H1. rewrite !nfold_rl. f_equal. rewrite <- (rl_perm _ _ _ (Hes i Hi)), rl_map. apply rl_ext. auto.
Qed.
Lemma hP1r_1 i c k : (i < n)%nat -> (c < NPs)%nat -> (k < K)%nat -> hP1r sph m s H i c k = pP1r sph m P0 S (phi i) c k.
Proof.
  intros Hi Hc Hk. unfold hP1r, pP1r, phi1r. apply nfold_1; auto; intros e He.
  unfold R1v. rewrite Hty by auto. rewrite (HH i) by (auto; apply (plm2_lt m W); auto). reflexivity.
Qed.
Lemma hP1_1 i a k : (i < n)%nat -> (k < K)%nat -> hP1 sph m s H i a k = pP1 sph m P0 S (phi i) a k.
Proof.
  intros Hi Hk. unfold hP1, pP1, phi1. apply nfold_ext. intros p Hp. apply filter_In in Hp. destruct Hp as [Hp _]. apply in_seq in Hp.
  rewrite hP1r_1; auto. apply cgr_lt; auto. lia.
Qed.
Lemma hA1_1 i lm k : (i < n)%nat -> hA1 sph m s H i lm k = pA1 sph m P0 S (phi i) lm k.
Proof.
  intros Hi. unfold hA1, pA1. apply odivs_0; [apply (sc1_0 s phi); auto; apply Hes0|]. unfold a1raw. cbv zeta. apply nsum_ext. intros q _.
  pose proof (mw_K _ W). rewrite hP1_1; auto. apply Nat.mod_upper_bound. lia.
Qed.
Lemma hM1_1 i k : (i < n)%nat -> hM1 sph m P1 s H i k = pM1 sph m P0 P1 S (phi i) k.
Proof. intros Hi. unfold hM1, pM1, m1. rewrite Hty by auto. f_equal. apply xcol_0. intros; apply hA1_1; auto. Qed.
Lemma hH2_1 i k : (i < n)%nat -> hH2 sph m P1 s H i k = pH2 sph m P0 P1 S (phi i) k.
Proof.
  intros Hi. unfold hH2, pH2, h2. rewrite Hty by auto. f_equal; apply nsum_ext; intros q Hq.
  - rewrite HH0 by auto. reflexivity.
  - rewrite hM1_1 by auto. reflexivity.
Qed.
Lemma hE_1 i : (i < n)%nat -> hE sph m P1 fe s H i = pE sph m P0 P1 fe S (phi i).
Proof.
  intros Hi. unfold hE, pE, en. rewrite (zE_0 s phi Hty Hes0), Hty by auto. f_equal.
  - apply nfold_ext. intros k Hk. apply in_seq in Hk. rewrite HH0 by (auto; lia). reflexivity.
  - f_equal. apply tab_ext. intros. apply hH2_1; auto.
Qed.
Lemma gH2_1 i k : (i < n)%nat -> gH2 sph m P1 fg s H i k = qH2 sph m P0 P1 fg S (phi i) k.
Proof. intros Hi. unfold gH2, qH2. f_equal. apply tab_ext. intros. apply hH2_1; auto. Qed.
Lemma gH1a_1 i L k : (i < n)%nat -> gH1a sph m P1 fg s H i L k = qH1a sph m P0 P1 fg S (phi i) L k.
Proof.
  intros Hi. unfold gH1a, qH1a, rH2n, rH2h, ra1. rewrite Hty by auto. pose proof (Hn i Hi).
  destruct (Nat.ltb_spec i n); [|lia]. destruct (Nat.ltb_spec (phi i) (length S)); [|lia]. destruct (L =? 0)%nat; [|reflexivity].
  f_equal. apply nsum_ext. intros q _. rewrite gH2_1 by auto. reflexivity.
Qed.
Lemma gH1a_out i L k : (n <= i)%nat -> gH1a sph m P1 fg s H i L k = 0.
Proof. intros Hi. unfold gH1a, rH2n, ra1. destruct (Nat.ltb_spec i n); [lia|]. apply RNum_zero. Qed.
Lemma gM1_1 i k : (i < n)%nat -> gM1 sph m P1 fg s H i k = qM1 sph m P0 P1 fg S (phi i) k.
Proof. intros Hi. unfold gM1, qM1, rH2m. apply nsum_ext. intros q _. rewrite gH2_1 by auto. reflexivity. Qed.
Lemma gA1r_1 i lm k : (i < n)%nat -> gA1r sph m P1 fg s H i lm k = qA1r sph m P0 P1 fg S (phi i) lm k.
Proof.
  intros Hi. unfold gA1r, qA1r, rm1, g1. rewrite gM1_1, Hty by auto.
  rewrite (xcol_0 (hA1 sph m s H) (pA1 sph m P0 S) i (phi i)) by (intros; apply hA1_1; auto). reflexivity.
Qed.
Lemma gF1_1 i e a : (i < n)%nat -> gF1 sph m P1 fg s H i e a = qF1 sph m P0 P1 fg S (phi i) (re psi e) a.
Proof.
  intros Hi. unfold gF1, qF1. apply (ofsc_0 s phi Hty); auto; [apply (sc1_0 s phi); auto; apply Hes0| |apply (zF_0 s phi); auto].
  unfold dotlk. apply nsum_ext. intros p _. rewrite gA1r_1, hA1_1 by auto. reflexivity.
Qed.
Lemma gA1_1 i lm k : (i < n)%nat -> gA1 sph m P1 fg s H i lm k = qA1 sph m P0 P1 fg S (phi i) lm k.
Proof. intros Hi. unfold gA1, qA1. apply odivs_0; [apply (sc1_0 s phi); auto; apply Hes0|apply gA1r_1; auto]. Qed.
Lemma gP1r_1 i c k : (i < n)%nat -> gP1r sph m P1 fg s H i c k = qP1r sph m P0 P1 fg S (phi i) c k.
Proof.
  intros Hi.
  assert (E : rA1 m (gA1 sph m P1 fg s H) i = rA1 m (qA1 sph m P0 P1 fg S) (phi i)).
  { unfold rA1. apply flat_map_ext_in. intros l _. apply flat_map_ext_in. intros mm _.
    apply tab_ext. intros q _. apply nsum_ext. intros q' _. rewrite gA1_1 by auto. reflexivity. }
  unfold gP1r, qP1r, phi1T, rA1f. apply nfold_ext. intros p _. rewrite E. reflexivity.
Qed.
Lemma gF2_1 i e a : (i < n)%nat -> In e (es s i) -> gF2 sph m P1 fg s H i e a = qF2 sph m P0 P1 fg S (phi i) (re psi e) a.
Proof.
  intros Hi He. unfold gF2, qF2, fold1. rewrite gF1_1 by auto. apply nfold_ext. intros [c k] Hp. apply in_pck in Hp. destruct Hp as [Hc Hk].
  unfold f1term, R1d, R1v. rewrite gP1r_1, Hty by auto. rewrite (HH i) by (auto; apply (plm2_lt m W); auto). reflexivity.
Qed.

(** what one edge of [S] adds to the adjoint of the features of its end *)
Definition hsum (L k : nat) (p : nat * edge RNum) : R :=
  rl (csel m L) (fun c => R1v m S (fst p) (snd p) (ple m c * K + k)%nat * Yv sph m (fst p) (snd p) (plm1 m c) * qP1r sph m P0 P1 fg S (fst p) c k).

Lemma gH1l_1 nH j L k : (forall i e, (i < n)%nat -> In e (es s i) -> (e_idx e < nH)%nat) -> (j < nH)%nat -> (L < LMs)%nat -> (k < K)%nat ->
  @eq R (at_ (N:=RNum) (gH1l sph m P1 fg s H nH) (j * (LMs * K) + (L * K + k)))
  ((if (j <? n)%nat then qH1a sph m P0 P1 fg S (phi j) L k else 0) +
  rl (epairs s) (fun p => if (e_idx (snd p) =? j)%nat then hsum L k (phi (fst p), re psi (snd p)) else 0)).
Proof.
  intros Hix Hj HL Hk. unfold gH1l. etransitivity; [apply (hadds_nth m W s nH Hix); auto|]. rewrite nfold_rl. f_equal.
  - destruct (Nat.ltb_spec j n); [apply gH1a_1; auto|apply gH1a_out; auto].
  - unfold hsrc. rewrite rl_flat_map. apply rl_ext. intros [i e] Hp. apply in_epairs in Hp. destruct Hp as [Hi He]. cbn [snd fst].
    destruct (e_idx e =? j)%nat; [|reflexivity]. rewrite rl_map. apply rl_ext. intros c Hc. cbn [fst snd]. unfold R1v. rewrite Hty, gP1r_1 by auto. reflexivity.
Qed.
End Layer1.

(** the adjoint of the features in [S] itself *)
Lemma qH1_sum : (forall i e, (i < length S)%nat -> In e (es S i) -> (e_idx e < length S)%nat) ->
  forall g L k, (g < length S)%nat -> (L < LMs)%nat -> (k < K)%nat -> @eq R (qH1 sph m P0 P1 fg S g L k) (qH1a sph m P0 P1 fg S g L k +
  rl (epairs S) (fun p => if (e_idx (snd p) =? g)%nat then hsum L k p else 0)).
Proof.
  intros Hix g L k Hg HL Hk. rewrite (qH1_src sph m W P0 P1 fg S Hix g L k Hg HL Hk). rewrite nfold_rl. f_equal.
  unfold hsrc. rewrite rl_flat_map. apply rl_ext. intros p _. destruct (e_idx (snd p) =? g)%nat; [|reflexivity]. rewrite rl_map. reflexivity.
Qed.
End Alg.
