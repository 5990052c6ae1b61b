(** Vocabulary for the properties of the LAMMPS pair style: what LAMMPS promises, which pairs are evaluated. *)
From Coq Require Import List Arith ZArith Reals Permutation.
From Verif Require Import Base Instances MaceModel MaceSpec PairModel.
Import ListNotations.

(** position of the first occurrence of [a] *)
Fixpoint position (a : nat) (l : list nat) : nat :=
  match l with [] => 0 | b :: r => if a =? b then 0 else S (position a r) end.

Section Spec.
Context {N : Num}.
Local Open Scope num_scope.

(** component [c] of the vector from atom [i] to atom [j], and the squared distance *)
Definition sep (x : list N) (i j c : nat) : N := nth (3 * j + c) x nzero - nth (3 * i + c) x nzero.
Definition sep2 (x : list N) (i j : nat) : N :=
  sep x i j 0 * sep x i j 0 + sep x i j 1 * sep x i j 1 + sep x i j 2 * sep x i j 2.

(** the neighbours of atom [i] in the list: the low 29 bits of the first [numneigh] entries *)
Definition listed (l : lmp N) (i : nat) : list nat :=
  map (fun z => Z.to_nat (Z.modulo z (2 ^ 29))) (firstn (nth i (numneigh l) 0%nat) (nth i (firstneigh l) [])).
(** those closer than the cutoff *)
Definition kept (rc : N) (l : lmp N) (i : nat) : list nat :=
  filter (fun j => nltb (sep2 (atom_x l) i j) (rc * rc)) (listed l i).

(** model species of an atom *)
Definition spec_of (types : list nat) (l : lmp N) (i : nat) : nat := nth (nth i (atom_type l) 0 - 1)%nat types 0%nat.

Notation nall l := (nlocal l + nghost l)%nat.

(** atom arrays and neighbour list for [nt] atom types: every list index is an atom, neighbours of the atoms [A] are listed *)
Record lmp_ok (nt : nat) (A : list nat) (l : lmp N) : Prop := {
  lo_x : length (atom_x l) = (3 * nall l)%nat;
  lo_type : length (atom_type l) = nall l;
  lo_types : forall t, In t (atom_type l) -> (1 <= t <= nt)%nat;
  lo_il : inum l = nlocal l /\ Permutation (ilist l) (seq 0 (nlocal l));
  lo_A : forall i, In i A -> (i < nall l)%nat /\ (i < length (numneigh l))%nat /\ (i < length (firstneigh l))%nat /\
           (nth i (numneigh l) 0 <= length (nth i (firstneigh l) []))%nat /\
           forall j, In j (listed l i) -> (j < nall l)%nat
}.
(** [atom->map(tag)] finds the local atom [owner j] behind every atom [j]; local atoms own themselves *)
Record owner_ok (owner : nat -> nat) (l : lmp N) : Prop := {
  oo_tag : length (atom_tag l) = nall l;
  oo_map : forall j, (j < nall l)%nat -> atom_map l (nth j (atom_tag l) 0%nat) = Some (owner j);
  oo_lt : forall j, (j < nall l)%nat -> (owner j < nlocal l)%nat;
  oo_self : forall i, (i < nlocal l)%nat -> owner i = i
}.

(** the system that has to be evaluated: one node per local atom in the order of the list, one edge per kept pair *)
Definition nd_input (types : list nat) (rc : N) (owner : nat -> nat) (l : lmp N) : input N :=
  let A := ilist l in
  mkInput (length A) (map (spec_of types l) A) (map (fun i => length (kept rc l i)) A)
    (flat_map (fun i => map (fun j => position (owner j) A) (kept rc l i)) A)
    (flat_map (fun i => map (spec_of types l) (kept rc l i)) A)
    (flat_map (fun i => flat_map (fun j => [sep (atom_x l) i j 0; sep (atom_x l) i j 1; sep (atom_x l) i j 2]) (kept rc l i)) A)
    (flat_map (fun i => map (fun j => nsqrt (sep2 (atom_x l) i j)) (kept rc l i)) A).

(** accumulators of the right sizes *)
Record acc_ok (l : lmp N) (a : accum N) : Prop := {
  ao_f : length (force a) = (3 * nall l)%nat;
  ao_e : length (eatom a) = nall l;
  ao_v : length (virial a) = 6%nat
}.

(** the same atoms and neighbour list at other positions *)
Definition at_x (l : lmp N) (x : list N) : lmp N :=
  mkLmp (nlocal l) (nghost l) (inum l) (ilist l) (numneigh l) (firstneigh l) x (atom_type l) (atom_tag l) (atom_map l).
End Spec.

Local Open Scope R_scope.
(** positions of all atoms when the local atoms are at [pos] and every atom is its owner displaced by a fixed shift *)
Definition images (n : nat) (owner : nat -> nat) (sh pos : list R) : list R :=
  map (fun k => nth (3 * owner (k / 3)%nat + k mod 3) pos 0 + nth k sh 0) (seq 0 (3 * n)).

(** no listed pair is exactly at the cutoff *)
Definition off_cutoff (l : lmp RNum) (rc : R) : Prop :=
  forall i j, In i (ilist l) -> In j (listed l i) -> sep2 (N:=RNum) (atom_x l) i j <> rc * rc.

(** component [c] of the sum of the forces on the atoms [0 .. n-1] *)
Fixpoint force_sum (n : nat) (f : list R) (c : nat) : R :=
  match n with O => 0 | S k => force_sum k f c + nth (3 * k + c) f 0 end.

(** what one call should do to the per-atom energies: atom [i] gets the energy of the node that stands for it, where
    node [ii] stands for atom [nth ii NI] *)
Definition eatom_added (n : nat) (NI : list nat) (En : list R) (ea ea' : list R) : Prop :=
  forall i, (i < n)%nat -> nth i ea' 0 = nth i ea 0 + nth (position i NI) En 0.
