(** Vocabulary for comparing the ASE calculator with the Kokkos pair style on several processes. *)
From Coq Require Import List Arith Reals.
From Verif Require Import Base Instances AseModel PairModel PairSpec DistSpec DistGradSpec SymPairSpec AgreeSpec.
Import ListNotations.
Local Open Scope R_scope.

(** What the processes [ranks] of a distributed evaluation of the simulation [L] added to their accumulators is what the calculator computed; [acc], [acc'] before and after,
    [before] what k_eatom contained.  Atomic energies on the processes for which [listed] holds. *)
Record kk_agrees (sg : nat -> nat) (V : R) (res : ase_results (N:=RNum)) (fl : ev) (L : lmp RNum) (listed : lmp RNum -> Prop) (ranks : list (lmp RNum))
    (acc acc' : list (accum RNum)) (before : list (list R)) : Prop := {
  ka_energy : eflag_global fl = true -> added_energy acc acc' = res_energy res;
  ka_atom : eflag_atom fl = true -> forall r l a' e i i', nth_error ranks r = Some l -> nth_error acc' r = Some a' -> nth_error before r = Some e -> listed l ->
    (i < nlocal l)%nat -> (i' < nlocal L)%nat -> tag l i = tag L i' -> nth i (eatom a') 0 = nth i e 0 + nth (sg i') (res_energies res) 0;
  ka_force : forall i c, (i < nlocal L)%nat -> (c < 3)%nat ->
    added_force (map (fun l => atom_tag l) ranks) acc acc' (tag L i) c = nth (3 * sg i + c) (res_forces res) 0;
  ka_virial : vflag_global fl = true -> forall a c, (a < 3)%nat -> (c < 3)%nat ->
    lammps_tensor (added_virial acc acc') a c = - V * voigt_tensor (res_stress res) a c
}.
