(** Vocabulary for derivatives of the energy of a distributed system. *)
From Coq Require Import List Arith Bool ZArith Reals.
From Verif Require Import Base Instances MaceModel MaceGradSpec AseSpec PairModel PairSpec PairCommSpec PairMpiModel DistSpec.
Import ListNotations.
Local Open Scope R_scope.

(** every copy of the atom with tag [q], local or ghost, moved by [u] in direction [c] *)
Definition displaced (q c : nat) (u : R) (l : lmp RNum) : lmp RNum :=
  at_x l (map (fun k => nth k (atom_x l) 0 + (if (tag l (k / 3) =? q)%nat && (k mod 3 =? c)%nat then u else 0)) (seq 0 (length (atom_x l)))).
(** all positions strained *)
Definition strained (e : nat -> nat -> R) (u : R) (l : lmp RNum) : lmp RNum := at_x l (strain e u (atom_x l)).
(** the same motion on all processes and in the serial system *)
Definition moved (g : lmp RNum -> lmp RNum) (t : dstep) : dstep :=
  mkStep (map g (d_ranks t)) (d_own t) (d_msgs t) (d_fl t) (d_acc t) (g (d_L t)) (d_owner t).

(** no pair listed for the atoms [A] is exactly at the cutoff *)
Definition off_cutoff_at (A : list nat) (l : lmp RNum) (rc : R) : Prop :=
  forall i j, In i A -> In j (listed l i) -> sep2 (N:=RNum) (atom_x l) i j <> rc * rc.

(** what the processes together add to the energy, to component [k] of the virial, and to component [c] of the forces on all
    atoms, local and ghost, with tag [q]: accumulators [A] before and [A'] after *)
Definition added_energy (A A' : list (accum RNum)) : R := total (map (fun z => eng_vdwl (snd z) - eng_vdwl (fst z)) (combine A A')).
Definition added_virial (A A' : list (accum RNum)) (k : nat) : R := total (map (fun z => nth k (virial (snd z)) 0 - nth k (virial (fst z)) 0) (combine A A')).
Definition no_acc : accum RNum := mkAcc (N:=RNum) 0 [] [] [].
Definition added_force (tags : list (list nat)) (A A' : list (accum RNum)) (q c : nat) : R :=
  total (map (fun z : slot => nth (3 * snd z + c) (force (nth (fst z) A' no_acc)) 0 - nth (3 * snd z + c) (force (nth (fst z) A no_acc)) 0) (tagged tags q)).
