(** Tactics for kernels. *)
From Coq Require Import List Arith ZArith Bool Lia Reals Lra FunctionalExtensionality.
From Verif Require Import Base BaseLemmas Segs Instances RSums MaceModel Sys SysLoops MacePure MaceStages1.
From Verif Require Import KkSem KkSound KkWp KkWp2 KkModel KkHost.
Import ListNotations.
Local Open Scope R_scope.

Lemma kd_own pi own acc i c : kd pi own acc i c = POwn -> pi c = POwn /\ own c = Some i.
Proof.
  unfold kd. destruct (pi c); try discriminate; destruct (acc c); try discriminate;
  destruct (own c) as [j|]; try discriminate; destruct (Nat.eqb_spec j i); try discriminate; subst; auto.
Qed.
Lemma kd_own_ok pi own acc i c : pi c = POwn -> own c = Some i -> kd pi own acc i c = POwn.
Proof. unfold kd. intros -> ->. rewrite Nat.eqb_refl. auto. Qed.
Lemma kd_none_acc pi own i c : kd pi own none_ i c <> PAcc.
Proof. unfold kd, none_. destruct (pi c); try congruence. destruct (own c) as [j|]; try congruence. destruct (j =? i)%nat; congruence. Qed.

Definition nadd_ : nat -> cell -> R := fun _ _ => 0.
(** without additions into shared cells *)
Lemma kpost_own pi own (Sp : cell -> R -> Prop) m i m' : (forall c, pi c = POwn -> own c = Some i -> Sp c (va m' c)) ->
  kpost pi own none_ Sp nadd_ m i m'.
Proof. intros H. split; auto. intros c [A _]. discriminate A. Qed.

Lemma cov_al (m m' : rmem) b ds idx : dims m' b = dims m b -> cov m b ds -> inP ds idx -> alloc m' (b, idx) = true.
Proof. intros E H. apply (cov_dims _ _ _ _ E H). Qed.
Lemma some_inj {A} (x y : A) : Some x = Some y -> x = y.
Proof. congruence. Qed.
(** permission and allocation goals *)
Ltac eqbs := rewrite ?Nat.eqb_refl.
Ltac lcbn := cbn -[Nat.mul Nat.add Nat.sub Nat.div Nat.modulo Nat.sqrt eo es ow eg epairs k_num_lm k_num_LM list_eq_dec].
Ltac lcbni H := cbn -[Nat.mul Nat.add Nat.sub Nat.div Nat.modulo Nat.sqrt eo es ow eg epairs k_num_lm k_num_LM list_eq_dec] in H.
Ltac look := unfold top, kd, hide, none_, scrs; lcbn; eqbs; lcbn; eqbs; reflexivity.
Ltac solve_in := cbn [inP]; repeat split; auto; try lia; try nia.
Ltac al := match goal with
  | |- alloc _ (bScr, _) = true => reflexivity
  | H : cov ?m ?b _ |- alloc ?m' (?b, _) = true =>
     refine (cov_al m m' b _ _ _ H _); [first [reflexivity | congruence | (repeat first [rewrite dims_store | rewrite dims_puts0]; congruence)] | solve [solve_in]]
  end.
(** split a cell by the ownership function *)
Ltac cells c O :=
  let b := fresh "b" in let idx := fresh "idx" in
  destruct c as [b idx]; destruct b; try discriminate O;
  repeat (destruct idx as [|? idx]; try discriminate O); cbv beta iota in O; try (injection O as O).

Ltac cell1 c O x := let b := fresh "b" in let idx := fresh "idx" in destruct c as [b idx]; destruct b; try discriminate O;
  destruct idx as [|x [|? ?]]; try discriminate O; lcbni O.
Ltac cell2 c O x y := let b := fresh "b" in let idx := fresh "idx" in destruct c as [b idx]; destruct b; try discriminate O;
  destruct idx as [|x [|y [|? ?]]]; try discriminate O; lcbni O.
Ltac cell3 c O x y z := let b := fresh "b" in let idx := fresh "idx" in destruct c as [b idx]; destruct b; try discriminate O;
  destruct idx as [|x [|y [|z [|? ?]]]]; try discriminate O; lcbni O.
Ltac owned P := apply kd_own in P; destruct P as [_ P]; lcbni P; apply some_inj in P.
(** the views that are not written *)
Ltac keepv P4 := split; [assumption|]; let b := fresh "b" in let idx := fresh "idx" in let Hb := fresh "Hb" in
  intros b idx Hb; apply P4; unfold idle; lcbn; destruct b; try discriminate Hb; split; reflexivity.
(** ** reductions whose bodies only read *)
Definition nown : cell -> option nat := fun _ => None.
Definition tsp : cell -> R -> Prop := fun _ _ => True.
Lemma idle_none pi c : idle pi nown none_ c.
Proof. unfold idle, nown, none_. destruct (pi c); auto. Qed.
Lemma kpost_none pi m j m' : kpost pi nown none_ tsp nadd_ m j m'.
Proof. apply kpost_own. intros c _ O. discriminate O. Qed.
Lemma wp_red1r (pi : perms) c n body (f : nat -> R) m (Q : R -> rmem -> Prop) :
  pi (bScr, c) = POwn ->
  (forall j, (j < n)%nat -> wp (kd (hide [c] pi) nown none_ j) (body j) (puts0 [c] m) (fun v _ => v = f j)) ->
  (forall m', dims m' = dims m -> (forall x, scrs [c] x = false -> va m' x = va m x) -> Q (rsum n f) m') ->
  wp pi (par_reduce (N:=RNum) c n body) m Q.
Proof.
  intros P HB HQ. apply (wp_red1 pi nown none_ tsp nadd_ c n body f); auto.
  - intros j Hj. eapply wp_conseq; [apply HB; auto|]. intros v m' ->. split; auto. apply kpost_none.
  - intros m' (D & _ & _ & P4). apply HQ; auto. intros x Hx. apply P4; auto. apply idle_none.
Qed.
Lemma wp_red2r (pi : perms) c n body (f g : nat -> R) m (Q : R * R -> rmem -> Prop) :
  let cs := [c ++ [0]; c ++ [1]]%nat in
  (forall q, (q < 2)%nat -> pi (bScr, c ++ [q]) = POwn) ->
  (forall j, (j < n)%nat -> wp (kd (hide cs pi) nown none_ j) (body j) (puts0 cs m) (fun v _ => v = (f j, g j))) ->
  (forall m', dims m' = dims m -> (forall x, scrs cs x = false -> va m' x = va m x) -> Q (rsum n f, rsum n g) m') ->
  wp pi (par_reduce2 (N:=RNum) c n body) m Q.
Proof.
  intros cs P HB HQ. apply (wp_red2 pi nown none_ tsp nadd_ c n body f g); auto.
  - intros j Hj. eapply wp_conseq; [apply HB; auto|]. intros v m' ->. split; auto. apply kpost_none.
  - intros m' (D & _ & _ & P4). apply HQ; auto. intros x Hx. apply P4; auto. apply idle_none.
Qed.
Ltac vap := rewrite ?va_puts0; lcbn.

(** ** the three components of the force on an edge *)
Lemma div3 q a : (a < 3)%nat -> ((3 * q + a) / 3 = q)%nat.
Proof. intros H. rewrite Nat.mul_comm. apply divL. auto. Qed.
Lemma mod3 q a : (a < 3)%nat -> ((3 * q + a) mod 3 = a)%nat.
Proof. intros H. rewrite Nat.mul_comm. apply modL. auto. Qed.
Lemma div3_0 q : (3 * q / 3 = q)%nat. Proof. rewrite <- (div3 q 0) at 2 by lia. f_equal. lia. Qed.
Lemma split3 x : exists a, (a < 3)%nat /\ x = (3 * (x / 3) + a)%nat.
Proof. exists (x mod 3)%nat. split; [apply Nat.mod_upper_bound; lia|]. apply Nat.div_mod. lia. Qed.
Lemma lt3 q a nE : (q < nE)%nat -> (a < 3)%nat -> (3 * q + a < 3 * nE)%nat.
Proof. lia. Qed.
Ltac va3 := repeat first [rewrite va_store_eq | rewrite va_store_ne by (let E := fresh in intros E; injection E; lia) | rewrite va_store_ne by discriminate].
Ltac owned2 P P2 := apply kd_own in P; destruct P as [P P2]; apply kd_own in P; destruct P as [_ P];
  lcbni P; lcbni P2; apply some_inj in P; apply some_inj in P2.
(** cells of two kinds, after the case analysis on the buffer *)
Ltac idx1 idx O x := destruct idx as [|x [|? ?]]; try discriminate O; lcbni O; apply some_inj in O.
Ltac idx2 idx O x y := destruct idx as [|x [|y [|? ?]]]; try discriminate O; lcbni O; apply some_inj in O.
Ltac idx3 idx O x y z := destruct idx as [|x [|y [|z [|? ?]]]]; try discriminate O; lcbni O; apply some_inj in O.
