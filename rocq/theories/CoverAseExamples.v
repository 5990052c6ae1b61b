(** Data for the examples beside C87: a boolean test of [nl_covers], a doubled cell, a renumbered structure. *)
From Coq Require Import List Arith ZArith Reals Lia Lra Sorted Bool.
From Verif Require Import Base Instances MaceModel MaceSpec MaceSpec2 AseModel AseSpec AseExamples CoverSpec CoverAseSpec.
Import ListNotations.

Definition lifts_b (sg ep : nat -> nat) (l' l : list nat) (i : nat) : bool :=
  forallb (fun q => negb (nth q l 0 =? sg i) || (length (filter (fun p => (nth p l' 0 =? i) && (ep p =? q)) (seq 0 (length l'))) =? 1)) (seq 0 (length l)).
Lemma lifts_test sg ep l' l i : lifts_b sg ep l' l i = true -> lifts sg ep l' l i.
Proof.
  intros H q Hq E. unfold lifts_b in H. rewrite forallb_forall in H. specialize (H q (proj2 (in_seq _ _ _) (conj (Nat.le_0_l _) Hq))).
  rewrite E, Nat.eqb_refl in H. cbn [negb orb] in H. apply Nat.eqb_eq in H.
  assert (C : forall p, In p (filter (fun p => (nth p l' 0 =? i) && (ep p =? q)) (seq 0 (length l'))) <-> p < length l' /\ nth p l' 0 = i /\ ep p = q).
  { intros p. rewrite filter_In, in_seq, andb_true_iff, !Nat.eqb_eq. intuition lia. }
  destruct (filter _ _) as [|p [|p2 l2]]; try discriminate H. exists p. split; [apply C; left; reflexivity|].
  intros p' Hp'. apply C in Hp'. destruct Hp' as [->|[]]. reflexivity.
Qed.
Definition nl_covers_b (sg ep : nat -> nat) (numbers' il' jl' numbers il jl : list nat) : bool :=
  forallb (fun i => (sg i <? length numbers) && (nth i numbers' 0 =? nth (sg i) numbers 0) && lifts_b sg ep il' il i && lifts_b sg ep jl' jl i) (seq 0 (length numbers')) &&
  forallb (fun p => (ep p <? length il) && (nth (ep p) il 0 =? sg (nth p il' 0)) && (nth (ep p) jl 0 =? sg (nth p jl' 0))) (seq 0 (length il')).
Lemma nl_covers_test sg ep numbers' il' jl' numbers il jl : nl_covers_b sg ep numbers' il' jl' numbers il jl = true -> nl_covers sg ep numbers' il' jl' numbers il jl.
Proof.
  intros H. unfold nl_covers_b in H. apply andb_true_iff in H. destruct H as (H1 & H2). rewrite forallb_forall in H1, H2.
  assert (A : forall i, i < length numbers' -> sg i < length numbers /\ nth i numbers' 0 = nth (sg i) numbers 0 /\ lifts sg ep il' il i /\ lifts sg ep jl' jl i).
  { intros i Hi. specialize (H1 i (proj2 (in_seq _ _ _) (conj (Nat.le_0_l _) Hi))). rewrite !andb_true_iff, Nat.ltb_lt, Nat.eqb_eq in H1. destruct H1 as (((X1 & X2) & X3) & X4).
    repeat split; auto; apply lifts_test; assumption. }
  assert (B : forall p, p < length il' -> ep p < length il /\ nth (ep p) il 0 = sg (nth p il' 0) /\ nth (ep p) jl 0 = sg (nth p jl' 0)).
  { intros p Hp. specialize (H2 p (proj2 (in_seq _ _ _) (conj (Nat.le_0_l _) Hp))). rewrite !andb_true_iff, Nat.ltb_lt, !Nat.eqb_eq in H2. tauto. }
  constructor; intros; first [apply A; assumption | apply B; assumption].
Qed.
Lemma fold_test sg n' n k : forallb (fun j => count_occ Nat.eq_dec (map sg (seq 0 n')) j =? k) (seq 0 n) = true -> fold_of sg n' n k.
Proof. intros H j Hj. rewrite forallb_forall in H. apply Nat.eqb_eq, H, in_seq. lia. Qed.

(** the cell of AseExamples.v, doubled along the periodic direction *)
Definition dx_numbers : list nat := [1; 2; 2; 1; 2; 2].
Definition dx_types : list nat := [0; 1; 1; 0; 1; 1].
Definition dx_il : list nat := [0; 0; 0; 0; 0; 1; 1; 2; 3; 3; 3; 3; 3; 4; 4; 5].
Definition dx_jl : list nat := [1; 2; 4; 3; 3; 0; 3; 0; 4; 5; 1; 0; 0; 3; 0; 3].
Definition dx_sg (i : nat) : nat := nth i [0; 1; 2; 0; 1; 2] 0.
Definition dx_ep (p : nat) : nat := nth p [0; 1; 2; 3; 4; 5; 6; 7; 0; 1; 2; 3; 4; 5; 6; 7] 0.
Lemma dx_covers : nl_covers dx_sg dx_ep dx_numbers dx_il dx_jl ax_numbers ax_il ax_jl.
Proof. apply nl_covers_test. reflexivity. Qed.
Lemma species12 ns ts : length ts = length ns -> forallb (fun a => ((nth a ns 0 =? 1) && (nth a ts 9 =? 0)) || ((nth a ns 0 =? 2) && (nth a ts 9 =? 1))) (seq 0 (length ns)) = true -> species_map [1; 2] ns ts.
Proof.
  intros L H. split; [exact L|]. intros a Z t H1 H2. rewrite forallb_forall in H. assert (Ha : a < length ns) by (apply nth_error_Some; congruence).
  specialize (H a (proj2 (in_seq _ _ _) (conj (Nat.le_0_l _) Ha))). rewrite (nth_error_nth ns a 0 H1), (nth_error_nth ts a 9 H2) in H.
  rewrite orb_true_iff, !andb_true_iff, !Nat.eqb_eq in H. destruct H as [(-> & ->)|(-> & ->)]; split; try reflexivity; intros t' Ht'; [lia|replace t' with 0 by lia; discriminate].
Qed.
Lemma dx_species : species_map [1; 2] dx_numbers dx_types.
Proof. apply species12; reflexivity. Qed.
Lemma dx_nl : nl_ok 6 dx_il dx_jl.
Proof.
  constructor.
  - reflexivity.
  - intros i H. cbn in H. lia.
  - unfold dx_il. repeat constructor; lia.
  - intros a. destruct a as [|[|[|[|[|[|a]]]]]]; reflexivity.
Qed.
Definition dx_tau (i : nat) : nat := nth i [3; 4; 5; 0; 1; 2] 0.
Definition dx_te (p : nat) : nat := nth p [8; 9; 10; 11; 12; 13; 14; 15; 0; 1; 2; 3; 4; 5; 6; 7] 0.
Lemma dx_translations : nl_translations dx_ep dx_numbers dx_il dx_jl.
Proof.
  intros q q1 Hq Hq1 E. destruct (Nat.eq_dec q q1) as [->|Ne].
  - exists (fun i => i), (fun p => p). split; [apply nl_covers_test; reflexivity|]. split; [apply fold_test; reflexivity|]. split; reflexivity.
  - exists dx_tau, dx_te. split; [apply nl_covers_test; reflexivity|]. split; [apply fold_test; reflexivity|].
    assert (T : forallb (fun j => (dx_ep (dx_te j) =? dx_ep j) && forallb (fun j' => (j =? j') || negb (dx_ep j =? dx_ep j') || (dx_te j =? j')) (seq 0 16)) (seq 0 16) = true) by reflexivity.
    rewrite forallb_forall in T. split.
    + intros j Hj. specialize (T j (proj2 (in_seq _ _ _) (conj (Nat.le_0_l _) Hj))). apply andb_true_iff in T. apply Nat.eqb_eq, T.
    + specialize (T q (proj2 (in_seq _ _ _) (conj (Nat.le_0_l _) Hq))). apply andb_true_iff in T. destruct T as (_ & T). rewrite forallb_forall in T.
      specialize (T q1 (proj2 (in_seq _ _ _) (conj (Nat.le_0_l _) Hq1))). rewrite !orb_true_iff, negb_true_iff, !Nat.eqb_eq, Nat.eqb_neq in T. tauto.
Qed.

(** the same cell with the atoms in reverse order *)
Definition rx_numbers : list nat := [2; 2; 1].
Definition rx_types : list nat := [1; 1; 0].
Definition rx_il : list nat := [0; 1; 1; 2; 2; 2; 2; 2].
Definition rx_jl : list nat := [2; 2; 2; 1; 0; 1; 2; 2].
Definition rx_sg (i : nat) : nat := 2 - i.
Definition rx_ep (p : nat) : nat := nth p [7; 5; 6; 0; 1; 2; 3; 4] 0.
Lemma rx_covers : nl_covers rx_sg rx_ep rx_numbers rx_il rx_jl ax_numbers ax_il ax_jl.
Proof. apply nl_covers_test. reflexivity. Qed.
Lemma rx_species : species_map [1; 2] rx_numbers rx_types.
Proof. apply species12; reflexivity. Qed.
Lemma rx_nl : nl_ok 3 rx_il rx_jl.
Proof.
  constructor.
  - reflexivity.
  - intros i H. cbn in H. lia.
  - unfold rx_il. repeat constructor; lia.
  - intros a. destruct a as [|[|[|a]]]; reflexivity.
Qed.
