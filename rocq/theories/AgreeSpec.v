(** Vocabulary for comparing the ASE calculator with the LAMMPS pair style: when a neighbour list of ASE and the state of a LAMMPS simulation describe the same structure. *)
From Coq Require Import List Arith Reals Permutation.
From Verif Require Import Base Instances MaceModel AseModel PairModel PairMpiModel PairSpec DistSpec DistGradSpec SymPairSpec AseSpec.
Import ListNotations.
Local Open Scope R_scope.

Definition vec (D : list R) (q : nat) : R * R * R := (nth (3 * q) D 0, nth (3 * q + 1) D 0, nth (3 * q + 2) D 0).
Definition vec_to (l : lmp RNum) (i j : nat) : R * R * R := (sep (N:=RNum) (atom_x l) i j 0, sep (N:=RNum) (atom_x l) i j 1, sep (N:=RNum) (atom_x l) i j 2).

(** Local atom [i] of the simulation is atom [sg i] of the structure ([numbers], pairs [il], [jl], vectors [D]): a bijection; the same elements
    ([nums] are the elements of the model); the same neighbours within the cutoff at the same displacements, in any order. *)
Record same_structure (nums numbers il jl : list nat) (D : list R) (types : list nat) (rc : R) (owner : nat -> nat) (l : lmp RNum) (sg : nat -> nat) : Prop := {
  ss_atoms : Permutation (map sg (seq 0 (nlocal l))) (seq 0 (length numbers));
  ss_species : forall j, (j < nlocal l + nghost l)%nat -> species_of nums (nth (sg (owner j)) numbers 0%nat) (spec_of types l j);
  ss_neigh : forall i, (i < nlocal l)%nat ->
    Permutation (map (fun j => (sg (owner j), vec_to l i j)) (kept (N:=RNum) rc l i))
                (map (fun q => (nth q jl 0%nat, vec D q)) (filter (fun q => nth q il 0 =? sg i)%nat (seq 0 (length il))))
}.

(** the symmetric tensor with components xx, yy, zz, yz, xz, xy *)
Definition voigt_tensor (v : list R) (a c : nat) : R := if (a =? c)%nat then nth a v 0 else nth (6 - a - c) v 0.

(** What the processes of a distributed evaluation of the simulation [L] computed together is what the calculator computed. *)
Record agrees (sg : nat -> nat) (V : R) (res : ase_results (N:=RNum)) (fl : ev) (L : lmp RNum) (ranks : list (lmp RNum)) (acc : list (accum RNum)) (qs : list (proc RNum)) : Prop := {
  ag_energy : eflag_global fl = true -> added_energy acc (map (fun q => pr_a q) qs) = res_energy res;
  ag_atom : forall r l q i i', nth_error ranks r = Some l -> nth_error qs r = Some q -> (i < nlocal l)%nat -> (i' < nlocal L)%nat -> tag l i = tag L i' ->
    nth (position i (ilist l)) (b_node_energies (pr_b q)) 0 = nth (sg i') (res_energies res) 0;
  ag_force : forall i c, (i < nlocal L)%nat -> (c < 3)%nat ->
    added_force (map (fun l => atom_tag l) ranks) acc (map (fun q => pr_a q) qs) (tag L i) c = nth (3 * sg i + c) (res_forces res) 0;
  ag_virial : vflag_global fl = true -> forall a c, (a < 3)%nat -> (c < 3)%nat ->
    lammps_tensor (added_virial acc (map (fun q => pr_a q) qs)) a c = - V * voigt_tensor (res_stress res) a c
}.
