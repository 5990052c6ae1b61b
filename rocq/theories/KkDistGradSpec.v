(** Vocabulary for derivatives of the energy of a distributed evaluation with the Kokkos pair style: the same motion on all processes. *)
From Coq Require Import List Reals.
From Verif Require Import Base Instances MaceModel PairModel PairMpiModel.
From Verif Require Import KkSem KkPairMpiModel KkPairMpiSpec KkPairMpi2Model.
Import ListNotations.

(** each process keeps its object, its accumulators and its maxeatom; only the positions change, by [g] *)
Definition kq_moved (g : lmp RNum -> lmp RNum) (q : kproc) : kproc := mkKProc (g (kq_l q)) (kq_a q) (kq_max q) (kq_st q).
Definition kd_moved (g : lmp RNum -> lmp RNum) (q : kdproc RNum) : kdproc RNum := mkKD (N:=RNum) (g (kd_l q)) (kd_a q) (kd_max q) (kd_st q).
