(** Admissible calls of the Kokkos pair style in mode no_mpi_message_passing and the states they lead to. *)
From Coq Require Import List Arith ZArith Reals.
From Verif Require Import Base Instances MaceModel MaceSpec PairModel PairMpiModel PairSpec DistSpec.
From Verif Require Import KkSem KkModel KkSpec KkPairModel KkPairMpiModel.
Import ListNotations.

(** LAMMPS keeps its promises (PairSpec.v) for the local atoms and their neighbours, the distances of these atoms from their neighbours lie
    in the domain of the model, the accumulators have the right sizes, no per-atom virial is requested, and [maxeatom] covers the local atoms. *)
Record no_call_ok (f : mace_file RNum) (types : list nat) (rc : R) (maxeatom : nat) (fl : ev) (l : lmp RNum) (a : accum RNum) : Prop := {
  no_lmp : lmp_ok (length types) (needed_no_mpi (rc : RNum) l) l;
  no_acc : acc_ok l a;
  no_dom : forall i j, In i (needed_no_mpi (rc : RNum) l) -> In j (kept (rc : RNum) l i) -> in_domain f (sqrt (sep2 (atom_x l) i j));
  no_vatom : vflag_atom fl = false;
  no_max : nlocal l <= maxeatom
}.

(** the states of the object after any number of such calls, with any scheduler *)
Inductive kn_reach sph junk (km : kmace RNum) (f : mace_file RNum) (rc : R) (types : list nat) (mace_types : list Z) : kpairm RNum -> Prop :=
| kn_new : kn_reach sph junk km f rc types mace_types kpm_fresh
| kn_call s maxeatom fl l a s' a' : kn_reach sph junk km f rc types mace_types s -> no_call_ok f types rc maxeatom fl l a ->
    kk_no_mpi sph junk km rc mace_types maxeatom fl l s a (Some (s', a')) -> kn_reach sph junk km f rc types mace_types s'.

(** the per-atom energies when compute starts: those of the previous call, or zeros if the array has to grow *)
Definition eatom_before_no (maxeatom : nat) (s : kpairm RNum) : list R :=
  let e := kk_view (kpm_mem s) bLe in if length e <? maxeatom then [] else e.

(** the buffers of the CPU pair style after any number of calls in the same mode *)
Inductive cn_reach sph (m : mace_model RNum) (b0 : mace_bufs RNum) (f : mace_file RNum) (rc : R) (types : list nat) : mace_bufs RNum -> Prop :=
| cn_new : cn_reach sph m b0 f rc types b0
| cn_call b p maxeatom fl l a b' p' a' : cn_reach sph m b0 f rc types b -> no_call_ok f types rc maxeatom fl l a ->
    compute_no_mpi_message_passing (N:=RNum) sph m rc types fl l b p a = Some (b', p', a') -> cn_reach sph m b0 f rc types b'.

(** one process of a distributed evaluation with the Kokkos pair style *)
Record kproc := mkKProc { kq_l : lmp RNum; kq_a : accum RNum; kq_max : nat; kq_st : kpairm RNum }.
(** the processes share the atoms of a serial system (DistSpec.v) and their objects have seen any admissible calls *)
Record kprocs_ok sph junk (km : kmace RNum) (f : mace_file RNum) (rc : R) (types : list nat) (mace_types : list Z) (t : dstep) (qs : list kproc) : Prop := {
  kq_step : step_ok f rc types (needed_no_mpi (rc : RNum)) (length qs) t;
  kq_ranks : map kq_l qs = d_ranks t;
  kq_acc : map kq_a qs = d_acc t;
  kq_state : forall q, In q qs -> kn_reach sph junk km f rc types mace_types (kq_st q);
  kq_maxe : forall q, In q qs -> nlocal (kq_l q) <= kq_max q
}.
(** one outcome for every process *)
Definition kk_no_run sph junk (km : kmace RNum) (rc : R) (mace_types : list Z) (fl : ev) (qs : list kproc) (os : list (option (kpairm RNum * accum RNum))) : Prop :=
  Forall2 (fun q o => kk_no_mpi sph junk km rc mace_types (kq_max q) fl (kq_l q) (kq_st q) (kq_a q) o) qs os.
