(** Executions of kernels come to an end, and only stop at the end or at undefined behaviour.  Used in proofs only. *)
From Coq Require Import List Arith.
From Verif Require Import Base Instances KkSem KkSpec.
Import ListNotations.

Section T.
Notation prog A := (prog RNum A).
Notation mem := (mem RNum).

(** one step of the program, the memory changing in any way between steps *)
Definition pst A (p' p : prog A) : Prop := exists m m', step A p m p' m'.

Lemma step_inv A (p : prog A) m p' m' : step A p m p' m' ->
  match p with
  | Ret _ | Fail => False
  | Get c k => p' = k (val m c)
  | Put _ _ k | Add _ _ k => p' = k
  | Fork q r k => (exists q', step unit q m q' m' /\ p' = Fork q' r k) \/ (exists r', step unit r m r' m' /\ p' = Fork q r' k)
      \/ (q = Ret tt /\ r = Ret tt /\ p' = k)
  end.
Proof. destruct 1; auto; [left|right; left]; eauto. Qed.

Lemma pst_acc A (p : prog A) : Acc (pst A) p.
Proof.
  induction p as [A a|A|A c k IH|A c v k IH|A c v k IH|A p IHp q IHq k IHk].
  - constructor. intros p' (m & m' & H). destruct (step_inv _ _ _ _ _ H).
  - constructor. intros p' (m & m' & H). destruct (step_inv _ _ _ _ _ H).
  - constructor. intros p' (m & m' & H). apply step_inv in H. subst. apply IH.
  - constructor. intros p' (m & m' & H). apply step_inv in H. subst. apply IH.
  - constructor. intros p' (m & m' & H). apply step_inv in H. subst. apply IH.
  - revert q IHq. induction IHp as [p _ IHp]. intros q IHq. induction IHq as [q Hq IHq].
    constructor. intros p' (m & m' & H). apply step_inv in H.
    destruct H as [(p1 & H & ->)|[(q1 & H & ->)|(-> & -> & ->)]].
    + apply IHp; [exists m, m'; exact H|constructor; exact Hq].
    + apply IHq. exists m, m'. exact H.
    + exact IHk.
Qed.

(** nothing goes on for ever *)
Lemma no_loop l : forall m (s : nat -> list (hcmd RNum) * mem), s 0 = (l, m) -> (forall i, hstep (s i) (s (S i))) -> False.
Proof.
  induction l as [|[f|p] l IH]; intros m s H0 H.
  - specialize (H 0). rewrite H0 in H. inversion H.
  - pose proof (H 0) as H1. rewrite H0 in H1. inversion H1 as [f' l' m0 m1 E E1 E2| |]; subst.
    eapply (IH m1 (fun i => s (S i))); auto.
  - revert m s H0 H. induction (pst_acc unit p) as [p _ IHp]. intros m s H0 H.
    pose proof (H 0) as H1. rewrite H0 in H1. inversion H1 as [|p0 l' m0 p1 m1 E E1 E2|]; subst.
    + apply (IHp p1) with (m := m1) (s := fun i => s (S i)); [exists m, m1; exact E|auto|intros i; apply H].
    + eapply (IH m (fun i => s (S i))); auto.
Qed.

(** a program that has not ended makes a step or is undefined *)
Lemma progress A (p : prog A) : forall m, (exists a, p = Ret a) \/ (exists p' m', step A p m p' m') \/ ub A p m.
Proof.
  induction p as [A a|A|A c k IH|A c v k IH|A c v k IH|A p IHp q IHq k IHk]; intros m.
  - left. eauto.
  - right; right. constructor.
  - destruct (alloc m c) eqn:E; [right; left; do 2 eexists; constructor; auto|right; right; constructor; auto].
  - destruct (alloc m c) eqn:E; [right; left; do 2 eexists; constructor; auto|right; right; constructor; auto].
  - destruct (alloc m c) eqn:E; [right; left; do 2 eexists; constructor; auto|right; right; constructor; auto].
  - destruct (IHp m) as [(a & ->)|[(p' & m' & H)|H]].
    + destruct (IHq m) as [(b & ->)|[(q' & m' & H)|H]].
      * destruct a, b. right; left. do 2 eexists. apply step_join.
      * right; left. do 2 eexists. apply step_right. exact H.
      * right; right. apply ub_right. exact H.
    + right; left. do 2 eexists. apply step_left. exact H.
    + right; right. apply ub_left. exact H.
Qed.

Lemma hstep_back l m l1 m1 o : hstep (l, m) (l1, m1) -> hexec l1 m1 o -> hexec l m o.
Proof.
  intros H X. inversion H as [f l' m0 m2 E E1 E2|p0 l' m0 p1 m2 E E1 E2|l' m0]; subst.
  - eapply hexec_op; eauto.
  - inversion X; subst.
    + eapply hexec_run; [eapply steps_step; eauto|assumption].
    + eapply hexec_run_ub; [eapply steps_step; eauto|eassumption].
  - eapply hexec_run; [apply steps_refl|exact X].
Qed.
Lemma hreach_back c c' : hreach c c' -> forall o, hexec (fst c') (snd c') o -> hexec (fst c) (snd c) o.
Proof.
  induction 1 as [c|[l m] [l1 m1] [l2 m2] H R IH]; intros o X; cbn [fst snd] in *; auto.
  eapply hstep_back; eauto.
Qed.
Lemma hprogress l m : ~ hexec l m None -> l = [] \/ exists c, hstep (l, m) c.
Proof.
  intros H. destruct l as [|[f|p] l]; [left; reflexivity|right|right].
  - destruct (f m) as [m1|] eqn:E; [eexists; constructor; exact E|]. destruct H. apply hexec_op_ub. exact E.
  - destruct (progress unit p m) as [([] & ->)|[(p' & m' & X)|X]].
    + eexists. apply hs_end.
    + eexists. apply hs_run. exact X.
    + destruct H. eapply hexec_run_ub; [apply steps_refl|exact X].
Qed.

(** all executions, given all outcomes *)
Lemma all_end l m m' : (forall o, hexec l m o <-> o = Some m') ->
  (forall s, s 0 = (l, m) -> ~ forall i, hstep (s i) (s (S i))) /\
  (forall c, hreach (l, m) c -> c = ([], m') \/ exists c', hstep c c').
Proof.
  intros H. split; [intros s H0 H1; eapply no_loop; eauto|].
  intros [l1 m1] R. pose proof (hreach_back _ _ R) as B. cbn [fst snd] in B.
  destruct (hprogress l1 m1) as [->|X]; [| |right; exact X].
  - intros X. apply B, H in X. discriminate.
  - left. assert (X : Some m1 = Some m') by (apply H, B; constructor). congruence.
Qed.
End T.
