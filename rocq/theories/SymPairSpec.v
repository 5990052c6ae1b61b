(** Vocabulary for rigid motions of the atoms of a LAMMPS simulation. *)
From Coq Require Import List Arith ZArith Reals.
From Verif Require Import Base Instances MaceModel ExportPolySpec PairModel PairMpiModel PairSpec DistSpec DistGradSpec SymSpec.
Import ListNotations.
Local Open Scope R_scope.

(** every position multiplied by the matrix g and shifted by d *)
Definition rigid (g : nat -> nat -> R) (d : nat -> R) (xs : list R) : list R :=
  map (fun p => sum 3 (fun c => g (p mod 3)%nat c * nth (3 * (p / 3) + c) xs 0) + d (p mod 3)%nat) (seq 0 (length xs)).
(** the same atoms, local and ghost, and the same neighbour list after the motion *)
Definition carried (g : nat -> nat -> R) (d : nat -> R) (l : lmp RNum) : lmp RNum := at_x l (rigid g d (atom_x l)).
(** the symmetric tensor with components xx, yy, zz, xy, xz, yz *)
Definition lammps_tensor (v : nat -> R) (a c : nat) : R := if (a =? c)%nat then v a else v (a + c + 2)%nat.

(** What two distributed evaluations computed, the second one for the atoms carried along (in whatever way they are distributed over processes): the same energy,
    the same energy of every atom, rotated forces on every atom (with all its ghosts), a rotated virial. *)
Record carried_results (g : nat -> nat -> R) (L : lmp RNum) (ranks ranks' : list (lmp RNum)) (acc acc' : list (accum RNum)) (qs qs' : list (proc RNum)) : Prop := {
  cr_energy : added_energy acc' (map (fun q => pr_a q) qs') = added_energy acc (map (fun q => pr_a q) qs);
  cr_atom : forall r l q r' l' q' i i', nth_error ranks r = Some l -> nth_error qs r = Some q -> nth_error ranks' r' = Some l' -> nth_error qs' r' = Some q' ->
    (i < nlocal l)%nat -> (i' < nlocal l')%nat -> tag l' i' = tag l i ->
    nth (position i' (ilist l')) (b_node_energies (pr_b q')) 0 = nth (position i (ilist l)) (b_node_energies (pr_b q)) 0;
  cr_force : forall i c, (i < nlocal L)%nat -> (c < 3)%nat ->
    added_force (map (fun l => atom_tag l) ranks') acc' (map (fun q => pr_a q) qs') (tag L i) c =
    sum 3 (fun c' => g c c' * added_force (map (fun l => atom_tag l) ranks) acc (map (fun q => pr_a q) qs) (tag L i) c');
  cr_virial : forall a c, (a < 3)%nat -> (c < 3)%nat ->
    lammps_tensor (added_virial acc' (map (fun q => pr_a q) qs')) a c = rotated_tensor g (lammps_tensor (added_virial acc (map (fun q => pr_a q) qs))) a c
}.
