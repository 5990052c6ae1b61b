(** Vocabulary for distributed evaluation: when the atoms of several processes are the atoms of one serial system. *)
From Coq Require Import List Arith ZArith Reals Permutation.
From Verif Require Import Base Instances MaceModel MaceSpec MaceGradSpec PairModel PairMpiModel PairSpec PairCommSpec.
Import ListNotations.

Section Spec.
Context {N : Num}.
Definition tag (l : lmp N) (j : nat) : nat := nth j (atom_tag l) 0.
Definition local_tags (l : lmp N) : list nat := firstn (nlocal l) (atom_tag l).

(** the surroundings of atom [i]: identity, type and relative position of every neighbour within the cutoff *)
Definition env (rc : N) (l : lmp N) (i : nat) : list (nat * nat * (N * N * N)) :=
  map (fun j => (tag l j, nth j (atom_type l) 0, (sep (atom_x l) i j 0, sep (atom_x l) i j 1, sep (atom_x l) i j 2))) (kept rc l i).

(** atoms of a process whose surroundings are needed: in mode mpi_message_passing the local ones, in mode
    no_mpi_message_passing also their neighbours *)
Definition needed_mpi (l : lmp N) : list nat := seq 0 (nlocal l).
Definition needed_no_mpi (rc : N) (l : lmp N) : list nat := seq 0 (nlocal l) ++ flat_map (kept rc l) (seq 0 (nlocal l)).

(** The processes [ranks] share the atoms of the serial system [L]: every atom is local on exactly one process, and every
    atom whose surroundings are needed has the type and the surroundings of the atom of [L] with the same tag, the
    neighbours in any order. *)
Record split_ok (nt : nat) (rc : N) (owner : nat -> nat) (needed : lmp N -> list nat) (L : lmp N) (ranks : list (lmp N)) : Prop := {
  sp_rank : forall l, In l ranks -> lmp_ok nt (needed l) l /\ length (atom_tag l) = nlocal l + nghost l;
  sp_part : Permutation (flat_map local_tags ranks) (local_tags L);
  sp_owner : forall j, j < nlocal L + nghost L -> tag L (owner j) = tag L j;
  sp_ghost : forall l j, In l ranks -> j < nlocal l + nghost l -> In (tag l j) (local_tags L);
  sp_env : forall l i a, In l ranks -> In i (needed l) -> a < nlocal L -> tag l i = tag L a ->
             nth i (atom_type l) 0 = nth a (atom_type L) 0 /\ Permutation (env rc l i) (env rc L a)
}.
End Spec.

(** tag of an atom of a process; the atoms, local and ghost, of all processes with a given tag *)
Definition tag_at (tags : list (list nat)) (z : slot) : nat := nth (snd z) (nth (fst z) tags []) 0.
Definition tagged (tags : list (list nat)) (t : nat) : list slot :=
  filter (fun z => tag_at tags z =? t) (atoms (map (@length nat) tags)).

(** ghost communication between the processes: a complete plan that respects tags *)
Record messages_ok {N : Num} (ranks : list (lmp N)) (own : slot -> slot) (gs : list msg) : Prop := {
  ms_plan : comm_ok (map nlocal ranks) (map (fun l => nlocal l + nghost l) ranks) own gs;
  ms_tag : forall z, In z (atoms (map (fun l => nlocal l + nghost l) ranks)) ->
             tag_at (map atom_tag ranks) (own z) = tag_at (map atom_tag ranks) z
}.

(** one step of a run: the atoms of the processes, the messages, what is requested, the accumulators; and the serial system *)
Record dstep := mkStep {
  d_ranks : list (lmp RNum); d_own : slot -> slot; d_msgs : list msg; d_fl : ev; d_acc : list (accum RNum);
  d_L : lmp RNum; d_owner : nat -> nat
}.
Record step_ok (f : mace_file RNum) (rc : R) (types : list nat) (needed : lmp RNum -> list nat) (P : nat) (t : dstep) : Prop := {
  so_P : length (d_ranks t) = P;
  so_L : lmp_ok (length types) (ilist (d_L t)) (d_L t);
  so_owner : owner_ok (d_owner t) (d_L t);
  so_split : split_ok (length types) (rc : RNum) (d_owner t) needed (d_L t) (d_ranks t);
  so_dom : input_ok f (nd_input (N:=RNum) types rc (d_owner t) (d_L t));
  so_acc : Forall2 acc_ok (d_ranks t) (d_acc t);
  so_fl : vflag_atom (d_fl t) = false
}.
(** mode mpi_message_passing moreover relies on the local atoms being listed in order (pair_symmetrix_mace.cpp:461-469 sorts
    the features by atom, but the following functions and reverse_H1 index them by position in the list) and on the ghost communication *)
Record mpi_step_ok (f : mace_file RNum) (rc : R) (types : list nat) (P : nat) (t : dstep) : Prop := {
  mo_step : step_ok f rc types needed_mpi P t;
  mo_ilist : forall l, In l (d_ranks t) -> ilist l = seq 0 (nlocal l);
  mo_msgs : messages_ok (d_ranks t) (d_own t) (d_msgs t)
}.

Local Open Scope R_scope.
(** the processes at the beginning of a step *)
Definition procs (t : dstep) (st : list (mace_bufs RNum * pair_bufs RNum)) : list (proc RNum) :=
  map (fun q => mkProc (N:=RNum) (fst (fst q)) (fst (snd q)) (snd (snd q)) (snd (fst q))) (combine (combine (d_ranks t) (d_acc t)) st).
(** the steps of a run *)
Fixpoint mpi_steps sph (m : mace_model RNum) (rc : R) (types : list nat) (ts : list dstep) (st : list (mace_bufs RNum * pair_bufs RNum))
    : option (list (mace_bufs RNum * pair_bufs RNum)) :=
  match ts with
  | [] => Some st
  | t :: ts' => ps <- mpi_run (N:=RNum) sph m rc types (d_fl t) (d_msgs t) (procs t st) ;;
                mpi_steps sph m rc types ts' (map (fun q => (pr_b q, pr_p q)) ps)
  end.

(** mode no_mpi_message_passing needs no communication: every process evaluates on its own *)
Definition no_mpi_run sph (m : mace_model RNum) (rc : R) (types : list nat) (fl : ev) (ps : list (proc RNum)) : option (list (proc RNum)) :=
  each (fun q => ' (b, p, a) <- compute_no_mpi_message_passing (N:=RNum) sph m rc types fl (pr_l q) (pr_b q) (pr_p q) (pr_a q) ;;
                 Some (mkProc (pr_l q) b p a)) ps.
Fixpoint no_mpi_steps sph (m : mace_model RNum) (rc : R) (types : list nat) (ts : list dstep) (st : list (mace_bufs RNum * pair_bufs RNum))
    : option (list (mace_bufs RNum * pair_bufs RNum)) :=
  match ts with
  | [] => Some st
  | t :: ts' => ps <- no_mpi_run sph m rc types (d_fl t) (procs t st) ;;
                no_mpi_steps sph m rc types ts' (map (fun q => (pr_b q, pr_p q)) ps)
  end.

(** the processes together add to their accumulators what the serial evaluation adds to its accumulators:
    [a_r], [a'_r] before and after on the processes, [a], [a'] in the serial evaluation *)
Record same_added (L : lmp RNum) (tags : list (list nat)) (as_ as' : list (accum RNum)) (a a' : accum RNum) : Prop := {
  sa_len : length as' = length as_ /\ forall r, (r < length as_)%nat ->
             length (force (nth r as' a)) = length (force (nth r as_ a)) /\ length (virial (nth r as' a)) = length (virial (nth r as_ a));
  sa_energy : total (map (fun r => eng_vdwl (nth r as' a) - eng_vdwl (nth r as_ a)) (seq 0 (length as_))) = eng_vdwl a' - eng_vdwl a;
  sa_virial : forall k, (k < 6)%nat ->
     total (map (fun r => nth k (virial (nth r as' a)) 0 - nth k (virial (nth r as_ a)) 0) (seq 0 (length as_))) =
     nth k (virial a') 0 - nth k (virial a) 0;
  sa_force : forall i c, (i < nlocal L)%nat -> (c < 3)%nat ->
     total (map (fun z : slot => nth (3 * snd z + c) (force (nth (fst z) as' a)) 0 - nth (3 * snd z + c) (force (nth (fst z) as_ a)) 0)
       (tagged tags (tag L i))) =
     nth (3 * i + c) (force a') 0 - nth (3 * i + c) (force a) 0
}.

(** the energy of every local atom of a process is that of the atom with the same tag in the serial system; and so is the
    per-atom energy reported to LAMMPS, when the local atoms are listed in order (cf. C43) *)
Record same_energies (fl : ev) (L l : lmp RNum) (b b1 : mace_bufs RNum) (a' : accum RNum) : Prop := {
  se_node : forall i j, (i < nlocal l)%nat -> (j < nlocal L)%nat -> tag l i = tag L j ->
    nth (position i (ilist l)) (b_node_energies b) 0 = nth (position j (ilist L)) (b_node_energies b1) 0;
  se_eatom : eflag_atom fl = true -> ilist l = seq 0 (nlocal l) -> forall i j, (i < nlocal l)%nat -> (j < nlocal L)%nat -> tag l i = tag L j ->
    nth i (eatom a') 0 = nth (position j (ilist L)) (b_node_energies b1) 0
}.
