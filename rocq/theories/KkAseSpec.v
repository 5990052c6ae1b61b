(** Well-formed structures for the ASE calculator with the Kokkos evaluator. *)
From Coq Require Import List Arith.
From Verif Require Import Base Instances MaceModel MaceSpec AseModel AseSpec KkAseModel.
Import ListNotations.

(** the species are known to the model; the neighbour list is what neighbor_list promises; if it is not empty, the distances lie
    in the radial tables.  Structures without any pair are included: [calculate] raises an exception for them. *)
Definition structure_ok (f : mace_file RNum) (a : structure) : Prop := exists types,
  species_map (f_atomic_numbers f) (s_numbers a) types /\ nl_ok (length (s_numbers a)) (s_il a) (s_jl a) /\
  (s_il a <> [] -> input_ok f (nl_input (S (list_max (s_il a))) types (s_il a) (s_jl a) (s_r a) (s_xyz a))).

(** number of atoms handed to the evaluator: up to the last one with a neighbour *)
Definition atoms_seen (a : structure) : nat := match s_il a with [] => 0 | _ => S (list_max (s_il a)) end.
