(** What [MACEKokkos::load_from_json] needs of a model file beyond [file_ok] of MaceSpec.v, and what one evaluation or a
    history of evaluations with the Kokkos evaluator is.  Terms of the file, the argument arrays and the two output views
    only. *)
From Coq Require Import List Arith Reals.
From Verif Require Import Base Instances MaceModel MaceSpec.
From Verif Require Import KkSem KkModel.
Import ListNotations.

(** - all radial tables have the same knots (the code sizes its tables by the first one, mace_kokkos.cpp:1571-1632 and
      radial_function_set_kokkos.cpp:12-42);
    - there is exactly one table per unordered pair of species (the code computes the number of species from the number
      of tables, radial_function_set_kokkos.cpp:55);
    - no monomial has more than three factors (the tables of monomials have three columns, mace_kokkos.cpp:1667-1678 and
      1801-1808). *)
Record kk_file_ok {N : Num} (f : mace_file N) : Prop := {
  kf_R0 : forall v row, In v (f_radial_spline_values_0 f) -> In row v ->
    length row = length (nth 0 (nth 0 (f_radial_spline_values_0 f) []) []);
  kf_R1 : forall v row, In v (f_radial_spline_values_1 f) -> In row v ->
    length row = length (nth 0 (nth 0 (f_radial_spline_values_1 f) []) []);
  kf_R1n : length (f_radial_spline_values_1 f) = length (f_atomic_numbers f) * (length (f_atomic_numbers f) + 1) / 2;
  kf_A0 : f_A0_scaled f = true ->
    length (f_A0_spline_values f) = length (f_atomic_numbers f) * (length (f_atomic_numbers f) + 1) / 2 /\
    forall row, In row (f_A0_spline_values f) -> length row = length (nth 0 (f_A0_spline_values f) []);
  kf_A1 : f_A1_scaled f = true ->
    length (f_A1_spline_values f) = length (f_atomic_numbers f) * (length (f_atomic_numbers f) + 1) / 2 /\
    forall row, In row (f_A1_spline_values f) -> length row = length (nth 0 (f_A1_spline_values f) []);
  kf_M0 : forall lm, lm < (f_L_max f + 1) * (f_L_max f + 1) -> forall mo, In mo (f_M0_monomials f lm) -> length mo <= 3;
  kf_M1 : forall mo, In mo (f_M1_monomials f) -> length mo <= 3
}.

Section Runs.
Variable sph : nat -> RNum -> RNum -> RNum -> list RNum * list RNum.
Variable junk : mem RNum -> cell -> RNum.

(** [kk_call km m x o]: [o] is one possible outcome of an evaluation of [x] started with the views [m]; [None] is undefined
    behaviour, data races included.  The scheduler is free. *)
Definition kk_call (km : kmace RNum) (m : mem RNum) (x : input RNum) (o : option (mem RNum)) : Prop :=
  hexec (kk_compute_node_energies_forces sph junk km (i_num_nodes x) (i_node_types x) (i_num_neigh x) (i_neigh_indices x)
    (i_neigh_types x) (i_xyz x) (i_r x)) m o.
(** the evaluations of [xs] one after the other on the same object *)
Inductive kk_calls (km : kmace RNum) : mem RNum -> list (input RNum) -> option (mem RNum) -> Prop :=
| kc_nil m : kk_calls km m [] (Some m)
| kc_ub m x xs : kk_call km m x None -> kk_calls km m (x :: xs) None
| kc_cons m x xs m' o : kk_call km m x (Some m') -> kk_calls km m' xs o -> kk_calls km m (x :: xs) o.
End Runs.

(** the two output views as the host sees them (mace_kokkos.hpp:34): all their entries *)
Definition kk_view (m : mem RNum) (b : buf) : list R := map (fun i => val m (b, [i])) (seq 0 (extent m b 0)).
Definition kk_node_energies (m : mem RNum) : list R := kk_view m bE.
Definition kk_node_forces (m : mem RNum) : list R := kk_view m bF.
(** the entries [i j k] of a view of rank 3, and those of a view of rank 2, are those of a flat array in row-major order *)
Definition same3 (m : mem RNum) (b : buf) (n A K : nat) (l : list R) : Prop :=
  forall i j k, i < n -> j < A -> k < K -> nth_error l ((i * A + j) * K + k) = Some (val m (b, [i; j; k])).
Definition same2 (m : mem RNum) (b : buf) (n K : nat) (l : list R) : Prop :=
  forall i k, i < n -> k < K -> nth_error l (i * K + k) = Some (val m (b, [i; k])).

(** the host-side and kernel steps of an evaluation one at a time; [([], m)] has ended *)
Inductive hstep : list (hcmd RNum) * mem RNum -> list (hcmd RNum) * mem RNum -> Prop :=
| hs_op f l m m1 : f m = Some m1 -> hstep (HOp f :: l, m) (l, m1)
| hs_run p l m p1 m1 : step unit p m p1 m1 -> hstep (HRun p :: l, m) (HRun p1 :: l, m1)
| hs_end l m : hstep (HRun (Ret tt) :: l, m) (l, m).
Inductive hreach : list (hcmd RNum) * mem RNum -> list (hcmd RNum) * mem RNum -> Prop :=
| hr_refl c : hreach c c
| hr_step c c1 c2 : hstep c c1 -> hreach c1 c2 -> hreach c c2.
