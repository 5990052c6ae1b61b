(** Momentum: every successful call of a compute function of the pair style leaves the sum of all forces unchanged. *)
From Coq Require Import List Arith ZArith Reals Lia Lra Bool.
From Verif Require Import Base BaseLemmas Instances RSums MaceModel MaceGradSpec AseGrad PairModel PairMpiModel PairSpec PairTally.
Import ListNotations.
Local Open Scope R_scope.

(** component [c] of the total force *)
Definition csum (na : nat) (f : list R) (c : nat) : R := rsum na (fun k => nth (3 * k + c) f 0).

Lemma csum_six f i j F0 F1 F2 na c : length f = (3 * na)%nat -> (i < na)%nat -> (j < na)%nat -> (c < 3)%nat ->
  csum na (six f i j F0 F1 F2) c = csum na f c.
Proof.
  intros Hf Hi Hj Hc. unfold csum. rewrite (rsum_ext na _ (fun k => nth (3 * k + c) f 0 + nth c [F0; F1; F2] 0 * (ind j k - ind i k))).
  - rewrite rsum_plus, rsum_scal_l, rsum_minus, !ind_sum by auto. ring.
  - intros k Hk. apply (nth_six _ _ _ _ _ _ na); auto.
Qed.

Lemma subto_inv (f g : list R) p v : subto (N:=RNum) f p v = Some g -> (p < length f)%nat /\ g = bump f p (- v).
Proof.
  intros H. destruct (Nat.lt_ge_cases p (length f)) as [Hp|Hp].
  - rewrite subto_R in H by exact Hp. injection H as <-. auto.
  - exfalso. unfold subto, rd in H. rewrite (proj2 (nth_error_None _ _)) in H by exact Hp. discriminate H.
Qed.
Lemma addto_inv (f g : list R) p v : addto (N:=RNum) f p v = Some g -> (p < length f)%nat /\ g = bump f p v.
Proof.
  intros H. destruct (Nat.lt_ge_cases p (length f)) as [Hp|Hp].
  - rewrite addto_R in H by exact Hp. injection H as <-. auto.
  - exfalso. unfold addto, rd in H. rewrite (proj2 (nth_error_None _ _)) in H by exact Hp. discriminate H.
Qed.

(** invariant of a loop that succeeds *)
Lemma for_keep {St} (P : nat -> St -> Prop) n (body : nat -> St -> option St) s s' :
  for_ n body s = Some s' -> P 0%nat s -> (forall k s s', (k < n)%nat -> P k s -> body k s = Some s' -> P (S k) s') -> P n s'.
Proof.
  intros H H0 HP. unfold for_ in H.
  cut (forall i s, for_from n i body s = Some s' -> P i s -> (forall k s s', (k < i + n)%nat -> P k s -> body k s = Some s' -> P (S k) s') -> P (i + n)%nat s').
  { intros C. exact (C 0%nat s H H0 HP). }
  clear s H H0 HP. induction n as [|n IH]; intros i s H H0 HP; simpl in H.
  - injection H as <-. rewrite Nat.add_0_r. exact H0.
  - apply bind_some_inv in H. destruct H as (s1 & E & H). rewrite Nat.add_succ_r. apply (IH (S i) s1 H).
    + apply (HP i s s1); [lia|exact H0|exact E].
    + intros k s2 s3 Hk. apply HP. lia.
Qed.

Ltac bnd H v E := apply bind_some_inv in H; destruct H as (v & E & H).

Lemma tally_momentum fl ne n NI NN NJ (xyz En F : list R) (a a' : accum RNum) na :
  tally (N:=RNum) fl ne n NI NN NJ xyz En F a = Some a' -> length (force a) = (3 * na)%nat ->
  length (force a') = (3 * na)%nat /\ forall c, (c < 3)%nat -> csum na (force a') c = csum na (force a) c.
Proof.
  intros H Hf. unfold tally in H. bnd H e1 H1. bnd H e2 H2. bnd H st H3. destruct st as [f ij]. bnd H v H4.
  destruct (vflag_atom fl); [discriminate H|]. injection H as <-. cbn [force].
  set (P := fun (s : list R * nat) => length (fst s) = (3 * na)%nat /\ forall c, (c < 3)%nat -> csum na (fst s) c = csum na (force a) c).
  cut (P (f, ij)); [intros HP; exact HP|].
  apply (for_keep (fun _ => P) _ _ _ _ H3).
  - split; [exact Hf|reflexivity].
  - intros ii [g k] [g' k'] Hii HP Hb. bnd Hb i Hi. bnd Hb nn Hnn.
    apply (for_keep (fun _ => P) _ _ _ _ Hb HP).
    intros jj [h q] [h' q'] Hjj [HL HC] Hc. cbn [fst] in HL, HC. bnd Hc j Hj. bnd Hc F0 HF0. bnd Hc g0 G0. bnd Hc F1 HF1. bnd Hc g1 G1. bnd Hc F2 HF2. bnd Hc g2 G2.
    bnd Hc g3 G3. bnd Hc g4 G4. bnd Hc g5 G5. injection Hc as <- <-.
    apply subto_inv in G0, G1, G2. apply addto_inv in G3, G4, G5.
    destruct G0 as [B0 ->], G1 as [B1 ->], G2 as [B2 ->], G3 as [B3 ->], G4 as [B4 ->], G5 as [B5 ->]. rewrite !length_bump in *.
    assert (Hi' : (i < na)%nat) by lia. assert (Hj' : (j < na)%nat) by lia.
    change (P (six h i j F0 F1 F2, (q + 1)%nat)). split; cbn [fst].
    + rewrite length_six. exact HL.
    + intros c Hc. rewrite csum_six by auto. apply HC. exact Hc.
Qed.

Lemma nd_momentum sph m rc types fl l b p (a : accum RNum) b' p' a' na :
  compute_no_domain_decomposition sph m rc types fl l b p a = Some (b', p', a') -> length (force a) = (3 * na)%nat ->
  length (force a') = (3 * na)%nat /\ forall c, (c < 3)%nat -> csum na (force a') c = csum na (force a) c.
Proof.
  intros H Hf. unfold compute_no_domain_decomposition in H. bnd H E H1. bnd H u H2. bnd H st H3.
  destruct st as [[[[[[[[v0 v1] v2] v3] v4] v5] v6] v7] v8]. bnd H bb H4. bnd H aa H5. injection H as <- <- <-.
  eapply tally_momentum; eauto.
Qed.
Lemma mpi_momentum m fl n b p (a : accum RNum) b' p' a' na :
  mpi_end m fl n b p a = Some (b', p', a') -> length (force a) = (3 * na)%nat ->
  length (force a') = (3 * na)%nat /\ forall c, (c < 3)%nat -> csum na (force a') c = csum na (force a) c.
Proof.
  intros H Hf. unfold mpi_end in H. bnd H E H1. bnd H u H2. bnd H st H3. destruct st as [v0 v1]. bnd H bb H4. bnd H aa H5. injection H as <- <- <-.
  eapply tally_momentum; eauto.
Qed.
Lemma nompi_momentum sph m rc types fl l b p (a : accum RNum) b' p' a' na :
  compute_no_mpi_message_passing sph m rc types fl l b p a = Some (b', p', a') -> length (force a) = (3 * na)%nat ->
  length (force a') = (3 * na)%nat /\ forall c, (c < 3)%nat -> csum na (force a') c = csum na (force a) c.
Proof.
  intros H Hf. unfold compute_no_mpi_message_passing in H.
  repeat (let v := fresh "v" in let E := fresh "E" in bnd H v E; repeat match type of v with prod _ _ => let w := fresh "w" in destruct v as [v w] end).
  injection H as <- <- <-. eapply tally_momentum; eauto.
Qed.

Lemma force_sum_csum n f c : force_sum n f c = csum n f c.
Proof. unfold csum. induction n as [|n IH]; cbn [force_sum rsum]; [reflexivity|rewrite IH; reflexivity]. Qed.
Lemma pair_momentum (a : accum RNum) n : length (force a) = (3 * n)%nat ->
  (forall sph m rc types fl l b p b' p' a', compute_no_domain_decomposition sph m rc types fl l b p a = Some (b', p', a') ->
     length (force a') = (3 * n)%nat /\ forall c, (c < 3)%nat -> force_sum n (force a') c = force_sum n (force a) c) /\
  (forall m fl k b p b' p' a', mpi_end m fl k b p a = Some (b', p', a') ->
     length (force a') = (3 * n)%nat /\ forall c, (c < 3)%nat -> force_sum n (force a') c = force_sum n (force a) c) /\
  (forall sph m rc types fl l b p b' p' a', compute_no_mpi_message_passing sph m rc types fl l b p a = Some (b', p', a') ->
     length (force a') = (3 * n)%nat /\ forall c, (c < 3)%nat -> force_sum n (force a') c = force_sum n (force a) c).
Proof.
  intros Hf. split; [|split]; intros.
  - destruct (nd_momentum _ _ _ _ _ _ _ _ _ _ _ _ _ H Hf) as [H1 H2]. split; [exact H1|]. intros c Hc. rewrite !force_sum_csum. auto.
  - destruct (mpi_momentum _ _ _ _ _ _ _ _ _ _ H Hf) as [H1 H2]. split; [exact H1|]. intros c Hc. rewrite !force_sum_csum. auto.
  - destruct (nompi_momentum _ _ _ _ _ _ _ _ _ _ _ _ _ H Hf) as [H1 H2]. split; [exact H1|]. intros c Hc. rewrite !force_sum_csum. auto.
Qed.
