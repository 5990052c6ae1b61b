(** Admissible steps of the Kokkos pair style in mode mpi_message_passing and the states they lead to. *)
From Coq Require Import List Arith ZArith Reals.
From Verif Require Import Base Instances MaceModel MaceSpec PairModel PairMpiModel PairSpec DistSpec.
From Verif Require Import KkSem KkModel KkSpec KkPairModel KkPairMpi2Model.
Import ListNotations.

(** the processes share the atoms of a serial system and exchange the data of ghosts (DistSpec.v); maxeatom covers the local atoms *)
Record kd_ok (f : mace_file RNum) (rc : R) (types : list nat) (t : dstep) (qs : list (kdproc RNum)) : Prop := {
  kd_step : mpi_step_ok f rc types (length qs) t;
  kd_ranks : map kd_l qs = d_ranks t;
  kd_acc : map kd_a qs = d_acc t;
  kd_maxe : forall q, In q qs -> nlocal (kd_l q) <= kd_max q
}.

(** the states of the processes after any number of such steps, with any schedulers and with communication through the host or on the device *)
Inductive kd_reach sph junk (km : kmace RNum) (f : mace_file RNum) (rc : R) (types : list nat) (mace_types : list Z) (host : bool) : list (kpaird RNum) -> Prop :=
| kd_new P : kd_reach sph junk km f rc types mace_types host (repeat kpd_fresh P)
| kd_call t qs rs : kd_reach sph junk km f rc types mace_types host (map kd_st qs) -> kd_ok f rc types t qs ->
    kk_mpi_run sph junk km rc mace_types (d_fl t) (d_msgs t) host qs (Some rs) -> kd_reach sph junk km f rc types mace_types host (map fst rs).

(** the per-atom energies when compute starts: those of the previous call, or zeros if the array has to grow *)
Definition eatom_before_mpi (maxeatom : nat) (s : kpaird RNum) : list R :=
  let e := kk_view (kpd_mem s) bLe in if length e <? maxeatom then [] else e.
