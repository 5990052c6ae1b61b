(** Specification vocabulary for the combinatorial tools. *)
From Coq Require Import List Arith Permutation.
Import ListNotations.

(** [i] and [j] lie in a common block of [p] *)
Definition same_block (p : list (list nat)) (i j : nat) : bool :=
  existsb (fun b => andb (existsb (Nat.eqb i) b) (existsb (Nat.eqb j) b)) p.

(** a partition of [0..n-1]: non-empty blocks using every position exactly once *)
Definition set_partition (n : nat) (p : list (list nat)) : Prop :=
  (forall b, In b p -> b <> []) /\ Permutation (concat p) (seq 0 n).

Definition equivalence_on (n : nat) (E : nat -> nat -> bool) : Prop :=
  (forall i, i < n -> E i i = true) /\
  (forall i j, i < n -> j < n -> E i j = true -> E j i = true) /\
  (forall i j k, i < n -> j < n -> k < n -> E i j = true -> E j k = true -> E i k = true).

(** [p] induces exactly the relation [E] on [0..n-1] *)
Definition induces (n : nat) (E : nat -> nat -> bool) (p : list (list nat)) : bool :=
  forallb (fun i => forallb (fun j => Bool.eqb (same_block p i j) (E i j)) (seq 0 n)) (seq 0 n).

(** strict lexicographic order *)
Fixpoint lexlt (a b : list nat) : Prop :=
  match a, b with
  | x :: a', y :: b' => x < y \/ (x = y /\ lexlt a' b')
  | [], _ :: _ => True
  | _, [] => False
  end.

(** the elements of [v] at the positions where the mask is true *)
Fixpoint pick {A} (m : list bool) (v : list A) : list A :=
  match m, v with
  | b :: m', x :: v' => if b then x :: pick m' v' else pick m' v'
  | _, _ => []
  end.

(** index of the tuple chosen by positions [js] when the last position runs fastest *)
Fixpoint rank_from {A} (r : nat) (inputs : list (list A)) (js : list nat) : nat :=
  match inputs, js with
  | input :: is, j :: js' => rank_from (r * length input + j) is js'
  | _, _ => r
  end.
