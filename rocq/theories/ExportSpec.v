(** Reference orders of species pairs and coupling indices, as plain lists. *)
From Coq Require Import List Arith ZArith.
Import ListNotations.

(** unordered pairs of the first [n] numbers, row by row *)
Definition upairs (n : nat) : list (nat * nat) := flat_map (fun a => map (pair a) (seq a (n - a))) (seq 0 n).

Local Open Scope Z_scope.

(** layout used by compute_A1: rows of block l, then m, then the paths with that l in order *)
Definition lrows (L : list nat) : list (nat * Z) :=
  flat_map (fun l => flat_map (fun mm => map (fun le => (le, Z.of_nat mm - Z.of_nat l))
    (filter (fun le => nth le L 0 =? l)%nat (seq 0 (length L)))) (seq 0 (2 * l + 1))) (seq 0 (list_max L + 1)).

(** (path, lm1, lm2) in the order of compute_Phi1 *)
Definition prows (L1 L2 : list nat) (n : nat) : list (nat * Z * Z) :=
  flat_map (fun le => flat_map (fun a => map (fun b =>
      (le, Z.of_nat a - Z.of_nat (nth le L1 0%nat), Z.of_nat b - Z.of_nat (nth le L2 0%nat)))
    (seq 0 (2 * nth le L2 0%nat + 1))) (seq 0 (2 * nth le L1 0%nat + 1))) (seq 0 n).
