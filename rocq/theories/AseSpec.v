(** Vocabulary for the ASE properties: neighbour lists, edge vectors as functions of positions. *)
From Coq Require Import List Arith ZArith Reals Sorted.
From Verif Require Import Base Instances MaceModel MaceSpec MaceSpec2.
Import ListNotations.

(** [t] is the first position of atomic number [Z] in the model's list of species *)
Definition species_of (nums : list nat) (Z t : nat) : Prop :=
  nth_error nums t = Some Z /\ forall t', t' < t -> nth_error nums t' <> Some Z.

(** [types] are the model species of the atoms with atomic numbers [numbers] *)
Definition species_map (nums numbers types : list nat) : Prop :=
  length types = length numbers /\
  forall a Z t, nth_error numbers a = Some Z -> nth_error types a = Some t -> species_of nums Z t.

(** what neighbor_list('ij') promises for a structure of [n] atoms: pairs of existing atoms, ordered by first atom, and with
    every pair also its reverse, so that every atom occurs equally often as first and as second *)
Record nl_ok (n : nat) (il jl : list nat) : Prop := {
  nl_len : length jl = length il;
  nl_i : forall i, In i il -> i < n;
  nl_sorted : StronglySorted le il;
  nl_sym : forall a, count_occ Nat.eq_dec jl a = count_occ Nat.eq_dec il a
}.

(** the system behind a neighbour list: the first [n] atoms, atom [i] with all pairs that start at [i] *)
Definition nl_input {N : Num} (n : nat) (types il jl : list nat) (r xyz : list N) : input N :=
  mkInput n (firstn n types) (map (count_occ Nat.eq_dec il) (seq 0 n)) jl (map (fun j => nth j types 0) jl) xyz r.

Local Open Scope R_scope.
(** the vectors from first to second atom, for positions [pos] (3 per atom) and lattice translations [sh] (3 per pair) *)
Definition nl_vectors (il jl : list nat) (pos sh : list R) : list R :=
  flat_map (fun q => map (fun c => nth (3 * nth q jl 0%nat + c) pos 0 - nth (3 * nth q il 0%nat + c) pos 0 + nth (3 * q + c) sh 0)
                         [0; 1; 2]%nat) (seq 0 (length il)).
(** lengths of vectors stored three by three *)
Definition lengths3 (xyz : list R) : list R :=
  map (fun q => sqrt (nth (3 * q) xyz 0 * nth (3 * q) xyz 0 + nth (3 * q + 1) xyz 0 * nth (3 * q + 1) xyz 0
                      + nth (3 * q + 2) xyz 0 * nth (3 * q + 2) xyz 0)) (seq 0 (length xyz / 3)).
(** vectors under a homogeneous strain: every vector [v] becomes [v + t e v] *)
Definition strain (e : nat -> nat -> R) (t : R) (xyz : list R) : list R :=
  map (fun k => nth k xyz 0 + t * (e (k mod 3)%nat 0%nat * nth (3 * (k / 3)) xyz 0 + e (k mod 3)%nat 1%nat * nth (3 * (k / 3) + 1) xyz 0
                                   + e (k mod 3)%nat 2%nat * nth (3 * (k / 3) + 2) xyz 0)) (seq 0 (length xyz)).
