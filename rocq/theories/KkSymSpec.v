(** Vocabulary for rigid motions of atoms distributed over processes, in terms of the accumulators before and after the evaluation. *)
From Coq Require Import List Arith ZArith Reals.
From Verif Require Import Base Instances MaceModel ExportPolySpec PairModel PairMpiModel PairSpec DistSpec DistGradSpec SymSpec SymPairSpec.
Import ListNotations.
Local Open Scope R_scope.

(** What two distributed evaluations added to their accumulators, from [acc] to [res] and from [acc'] to [res'], the second one for the atoms of [L] carried along (in whatever way
    they are distributed): the same energy, rotated forces on every atom (with all its ghosts), a rotated virial.  [tags] and [tags'] are the tags of the atoms of every process. *)
Record carried_sums (g : nat -> nat -> R) (L : lmp RNum) (tags tags' : list (list nat)) (acc acc' res res' : list (accum RNum)) : Prop := {
  cs_energy : added_energy acc' res' = added_energy acc res;
  cs_force : forall i c, (i < nlocal L)%nat -> (c < 3)%nat ->
    added_force tags' acc' res' (tag L i) c = sum 3 (fun c' => g c c' * added_force tags acc res (tag L i) c');
  cs_virial : forall a c, (a < 3)%nat -> (c < 3)%nat ->
    lammps_tensor (added_virial acc' res') a c = rotated_tensor g (lammps_tensor (added_virial acc res)) a c
}.
