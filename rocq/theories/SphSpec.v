(** Vocabulary of the statements about spherical harmonics. *)
From Coq Require Import List Arith ZArith Reals.
From Verif Require Import Base Instances.
Import ListNotations.
Local Open Scope R_scope.

(** contract of sphericart: [(l_max+1)^2] values per sample, and the value at a given degree and order does not depend on l_max *)
Definition sphericart_len {N : Num} (sph : nat -> N -> N -> N -> list N) : Prop :=
  forall L x y z, length (sph L x y z) = ((L + 1) * (L + 1))%nat.
Definition sphericart_stable {N : Num} (sph : nat -> N -> N -> N -> list N) : Prop :=
  forall L L' x y z k, (k < (L + 1) * (L + 1))%nat -> (L <= L')%nat -> nth_error (sph L x y z) k = nth_error (sph L' x y z) k.

(** position of degree [l], order [m] in the block of sample [i] *)
Definition lm (L i l : nat) (m : Z) : nat := Z.to_nat (Z.of_nat (i * ((L + 1) * (L + 1))) + Z.of_nat l * (Z.of_nat l + 1) + m).

Definition conj (a : R * R) : R * R := (fst a, - snd a).
Definition times (c : R) (a : R * R) : R * R := (c * fst a, c * snd a).
Definition abs2 (a : R * R) : R := fst a * fst a + snd a * snd a.

(** (-1)^m *)
Definition sign (m : Z) : R := if Z.even m then 1 else -1.

(** sum over m = -l .. l *)
Definition sum_m (l : nat) (f : Z -> R) : R := fold_right Rplus 0 (map (fun k => f (Z.of_nat k - Z.of_nat l)%Z) (seq 0 (2 * l + 1))).
