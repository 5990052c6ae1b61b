(** Admissible calls of the Kokkos pair style and the states they lead to. *)
From Coq Require Import List Arith ZArith Reals.
From Verif Require Import Base Instances MaceModel MaceSpec PairModel PairSpec.
From Verif Require Import KkSem KkModel KkSpec KkPairModel.
Import ListNotations.

(** LAMMPS keeps its promises (PairSpec.v), the system lies in the domain of the model, the accumulators have the right sizes, no per-atom
    virial is requested, [maxeatom] covers the local atoms, and the neighbour list is in the order of the atoms. *)
Record nd_call_ok (f : mace_file RNum) (types : list nat) (rc : R) (owner : nat -> nat) (maxeatom : nat) (fl : ev) (l : lmp RNum) (a : accum RNum) : Prop := {
  nc_lmp : lmp_ok (length types) (ilist l) l;
  nc_order : ilist l = seq 0 (nlocal l);
  nc_owner : owner_ok owner l;
  nc_acc : acc_ok l a;
  nc_input : input_ok f (nd_input types rc owner l);
  nc_vatom : vflag_atom fl = false;
  nc_max : nlocal l <= maxeatom
}.

(** the states of the object after any number of such calls, with any scheduler *)
Inductive kp_reach sph junk (km : kmace RNum) (f : mace_file RNum) (rc : R) (types : list nat) (mace_types : list Z) : kpair RNum -> Prop :=
| kr_new : kp_reach sph junk km f rc types mace_types kp_fresh
| kr_call s owner maxeatom fl l a s' a' : kp_reach sph junk km f rc types mace_types s -> nd_call_ok f types rc owner maxeatom fl l a ->
    kk_no_domain sph junk km rc mace_types maxeatom fl l s a (Some (s', a')) -> kp_reach sph junk km f rc types mace_types s'.

(** the per-atom energies when compute starts: those of the previous call, or zeros if the array has to grow *)
Definition eatom_before (maxeatom : nat) (s : kpair RNum) : list R :=
  let e := kk_view (kp_mem s) bLe in if length e <? maxeatom then [] else e.
