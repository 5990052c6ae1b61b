(** The reverse pass through the first layer is linear in the adjoints of the features of the node. *)
From Coq Require Import List Arith ZArith Lia Bool Reals Lra Permutation.
From Verif Require Import Base BaseLemmas Segs Instances BlasLemmas RSums RList SplineModel MpModel MpProofs MlpModel ZblModel MaceModel
  Sys SysLoops MaceGrid MacePure MaceStages1 MaceStages4 MaceStages6 MaceStages7 MaceStages8 MacePipe MaceHsrc MaceInert DistPipe DistAlg DistSum.
Import ListNotations.
Local Open Scope R_scope.

Section Lin.
Variables (nL nK i : nat).
Notation LK := (flat_map (fun L => map (pair L) (seq 0 nK)) (seq 0 nL)).
Definition lin (Phi : (nat -> nat -> nat -> RNum) -> R) : Type :=
  { c : nat * nat -> R | forall Ha, Phi Ha = rl LK (fun p => c p * Ha i (fst p) (snd p)) }.
Lemma lin_0 : lin (fun _ => 0).
Proof. exists (fun _ => 0). intros Ha. symmetry. apply rl_0. intros; ring. Qed.
Lemma lin_add f g : lin f -> lin g -> lin (fun Ha => f Ha + g Ha).
Proof. intros [c Hc] [d Hd]. exists (fun p => c p + d p). intros Ha. rewrite Hc, Hd, <- rl_plus. apply rl_ext. intros; ring. Qed.
Lemma lin_scal k f : lin f -> lin (fun Ha => k * f Ha).
Proof. intros [c Hc]. exists (fun p => k * c p). intros Ha. rewrite Hc, <- rl_scal. apply rl_ext. intros; ring. Qed.
Lemma lin_rl {A} (l : list A) f : (forall x, In x l -> lin (f x)) -> lin (fun Ha => rl l (fun x => f x Ha)).
Proof.
  induction l as [|x l IH]; intros H; [exact lin_0|]. destruct (lin_add (f x) (fun Ha => rl l (fun x => f x Ha))) as [c Hc].
  - apply H. left. reflexivity.
  - apply IH. intros; apply H. right. assumption.
  - exists c. intros Ha. rewrite rl_cons. apply Hc.
Qed.
Lemma lin_ext f g : lin f -> (forall Ha, g Ha = f Ha) -> lin g.
Proof. intros [c Hc] H. exists c. intros Ha. rewrite H. apply Hc. Qed.
Lemma lin_at L q : (L < nL)%nat -> (q < nK)%nat -> lin (fun Ha => Ha i L q).
Proof.
  intros HL Hq. exists (fun p => if (L =? fst p)%nat then (if (q =? snd p)%nat then 1 else 0) else 0). intros Ha. rewrite rl_flat_map.
  rewrite (rl_ext _ _ (fun L' => if (L =? L')%nat then Ha i L' q else 0)); [symmetry; apply (rl_pick nL L (fun L' => Ha i L' q) HL)|].
  intros L' _. rewrite rl_map. cbn [fst snd]. destruct (L =? L')%nat; [|apply rl_0; intros; ring].
  rewrite <- (rl_pick nK q (fun k => Ha i L' k) Hq). apply rl_ext. intros k _. destruct (q =? k)%nat; ring.
Qed.
Lemma lin_nsum n f : (forall j, (j < n)%nat -> lin (f j)) -> lin (fun Ha => nsum (N:=RNum) n (fun j => f j Ha)).
Proof.
  intros H. apply (lin_ext (fun Ha => rl (seq 0 n) (fun j => f j Ha))); [apply lin_rl; intros j Hj; apply in_seq in Hj; apply H; lia|].
  intros Ha. rewrite nsum_rsum, rl_seq. reflexivity.
Qed.
End Lin.

Section Rev.
Variable sph : nat -> RNum -> RNum -> RNum -> list RNum * list RNum.
Variable m : mace_model RNum.
Hypothesis W : mace_wf m.
Variables (P0 : nat -> @mpoly RNum).
Variable S : sys RNum.
Notation K := (m_num_channels m).
Notation LMs := (num_LM m).
Notation LK := (flat_map (fun L => map (pair L) (seq 0 K)) (seq 0 LMs)).

Lemma rrF_lin i e a : { c : nat * nat -> R | forall Ha F2,
  @eq R (rrF sph m P0 S Ha F2 i e a) (F2 i e a + rl LK (fun p => c p * Ha i (fst p) (snd p))) }.
Proof.
  assert (L1 : forall L k, (L < LMs)%nat -> lin LMs K i (fun Ha => rrM0 m Ha i L k)).
  { intros L k HL. unfold rrM0, mulH1T. apply lin_nsum. intros q Hq. apply (lin_scal LMs K i _ (fun Ha => Ha i L q)). apply lin_at; assumption. }
  assert (L2 : forall lm k, lin LMs K i (fun Ha => rrA0r sph m P0 S Ha i lm k)).
  { intros lm k. unfold rrA0r, rm0. eapply lin_ext; [|intros Ha; apply nfold_rl0]. apply lin_rl. intros L HL. apply in_seq in HL. apply (lin_scal LMs K i _ (fun Ha => rrM0 m Ha i L k)). apply L1. lia. }
  assert (L3 : forall lm k, lin LMs K i (fun Ha => rrA0 sph m P0 S Ha i lm k)).
  { intros lm k. unfold rrA0, odivs, divs. destruct (m_A0_scaled m); [|apply L2].
    apply (lin_ext LMs K i (fun Ha => / sc0 m S i * rrA0r sph m P0 S Ha i lm k)); [apply lin_scal, L2|]. intros Ha. cbn [ndiv RNum]. unfold Rdiv. apply Rmult_comm. }
  assert (L4 : forall lm k, lin LMs K i (fun Ha => mulW0T m S (rrA0 sph m P0 S Ha) i lm k)).
  { intros lm k. unfold mulW0T. apply lin_nsum. intros q Hq. apply (lin_scal LMs K i _ (fun Ha => rrA0 sph m P0 S Ha i lm q)). apply L3. }
  assert (L5 : lin LMs K i (fun Ha => dotlk m (rrA0r sph m P0 S Ha) (pA0 sph m S) i)).
  { unfold dotlk. apply lin_nsum. intros p Hp. 
    eapply lin_ext; [apply (lin_scal LMs K i (pA0 sph m S i (p / K)%nat (p mod K)%nat) (fun Ha => rrA0r sph m P0 S Ha i (p / K)%nat (p mod K)%nat)); apply L2|]. intros Ha. apply Rmult_comm. }
  assert (L6 : lin LMs K i (fun Ha => rl (lmk m) (fun p => f0term m (R0v m S) (R0d m S) (Yv sph m) (Yg sph m) (mulW0T m S (rrA0 sph m P0 S Ha)) i e a p))).
  { apply lin_rl. intros [lm k] _. unfold f0term. match goal with |- lin _ _ _ (fun Ha => nmul (nopp _) ?x) => set (X := x) end.
    eapply lin_ext; [apply (lin_scal LMs K i (- X) (fun Ha => mulW0T m S (rrA0 sph m P0 S Ha) i lm k)); apply L4|]. intros Ha. rring. }
  assert (L7 : { c : nat * nat -> R | forall Ha F2, @eq R (rrF3 sph m P0 S Ha F2 i e a) (F2 i e a + rl LK (fun p => c p * Ha i (fst p) (snd p))) }).
  { unfold rrF3, ofsc, fsc. destruct (m_A0_scaled m).
    - destruct L5 as [c Hc]. match goal with |- context [nadd _ (ndiv (nmul (nmul (ndiv _ ?s) ?d) ?x) ?r)] => exists (fun p => (/ s * d * x / r) * c p) end.
      intros Ha F2. cbn [nadd nmul ndiv RNum]. apply (f_equal (Rplus _)). etransitivity; [|symmetry; apply rl_ext; intros p _; apply Rmult_assoc]. rewrite rl_scal, <- Hc. unfold Rdiv.
      match goal with |- @eq _ ?a ?b => change (@eq R a b) end. ring.
    - exists (fun _ => 0). intros Ha F2. rewrite rl_0 by (intros; ring). symmetry. apply Rplus_0_r. }
  destruct L6 as [c6 H6]. destruct L7 as [c7 H7]. exists (fun p => c7 p + c6 p). intros Ha F2. unfold rrF, fold0. rewrite nfold_rl. etransitivity; [apply f_equal2; [apply H7|apply H6]|].
  rewrite Rplus_assoc. apply (f_equal (Rplus _)). rewrite <- rl_plus. apply rl_ext. intros; ring.
Qed.
End Rev.
