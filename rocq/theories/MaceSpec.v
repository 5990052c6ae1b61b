(** What a well-formed model file and a well-formed call of [MACE::compute_node_energies_forces] are,
    in terms of the file and of the argument arrays only (no reference to how the model evaluates them). *)
From Coq Require Import List Arith ZArith.
From Verif Require Import Base MpSpec MaceModel.
Import ListNotations.

Section Spec.
Context {N : Num}.

(** the arguments of one call (mace.hpp:31-37) *)
Record input := mkInput {
  i_num_nodes : nat;
  i_node_types : list nat;
  i_num_neigh : list nat;
  i_neigh_indices : list nat;
  i_neigh_types : list nat;
  i_xyz : list N;
  i_r : list N
}.

Variable sph : nat -> N -> N -> N -> list N * list N.
(** sphericart fills all of its output: (l+1)^2 values and 3 (l+1)^2 derivatives *)
Definition sph_ok : Prop := forall l x y z,
  length (fst (sph l x y z)) = (l + 1) * (l + 1) /\ length (snd (sph l x y z)) = 3 * ((l + 1) * (l + 1)).

(** one call on an object [(m, b)] *)
Definition call (m : mace_model N) (b : mace_bufs N) (x : input) : option (mace_bufs N) :=
  compute_node_energies_forces sph m b (i_num_nodes x) (i_node_types x) (i_num_neigh x) (i_neigh_indices x)
    (i_neigh_types x) (i_xyz x) (i_r x).

(** a sequence of calls on the same object *)
Fixpoint calls (m : mace_model N) (b : mace_bufs N) (xs : list input) : option (mace_bufs N) :=
  match xs with
  | [] => Some b
  | x :: r => b' <- call m b x ;; calls m b' r
  end.

(** the cell that [r] falls into exists in a table with [knots] knots *)
Definition in_cells (h : N) (knots : nat) (r : N) : Prop :=
  (0 <= ntrunc (ndiv r h) < Z.of_nat (knots - 1))%Z.

(** a distance is inside the domain of every table of the file *)
Definition in_domain (f : mace_file N) (r : N) : Prop :=
  (forall v row, In v (f_radial_spline_values_0 f) -> In row v -> in_cells (f_radial_spline_h f) (length row) r) /\
  (forall v row, In v (f_radial_spline_values_1 f) -> In row v -> in_cells (f_radial_spline_h f) (length row) r) /\
  (f_A0_scaled f = true -> forall row, In row (f_A0_spline_values f) -> in_cells (f_A0_spline_h f) (length row) r) /\
  (f_A1_scaled f = true -> forall row, In row (f_A1_spline_values f) -> in_cells (f_A1_spline_h f) (length row) r).

(** sizes agree; species and neighbour indices exist; distances lie in the tables *)
Record input_ok (f : mace_file N) (x : input) : Prop := {
  io_types : length (i_node_types x) = i_num_nodes x;
  io_nn : length (i_num_neigh x) = i_num_nodes x;
  io_idx : length (i_neigh_indices x) = list_sum (i_num_neigh x);
  io_nt : length (i_neigh_types x) = list_sum (i_num_neigh x);
  io_r : length (i_r x) = list_sum (i_num_neigh x);
  io_xyz : length (i_xyz x) = 3 * list_sum (i_num_neigh x);
  io_ty : forall t, In t (i_node_types x) -> t < length (f_atomic_numbers f);
  io_nty : forall t, In t (i_neigh_types x) -> t < length (f_atomic_numbers f);
  io_ix : forall j, In j (i_neigh_indices x) -> j < i_num_nodes x;
  io_dom : forall r, In r (i_r x) -> in_domain f r
}.

(** a list of radial tables: one per unordered pair of [T] species, each with [c] rows of equal length *)
Definition radial_ok (T c : nat) (vals ders : list (list (list N))) : Prop :=
  T * (T + 1) / 2 <= length vals /\ length ders = length vals /\
  forall q, q < length vals -> exists knots, 1 <= knots /\
    length (nth q vals []) = c /\ length (nth q ders []) = c /\
    (forall row, In row (nth q vals []) -> length row = knots) /\
    (forall row, In row (nth q ders []) -> length row = knots).

Definition density_ok (T : nat) (vals ders : list (list N)) : Prop :=
  T * (T + 1) / 2 <= length vals /\ length ders = length vals /\
  forall q, q < length vals -> 1 <= length (nth q vals []) /\ length (nth q ders []) = length (nth q vals []).

(** the documented sizes of the arrays of a model file *)
Record file_ok (f : mace_file N) : Prop := {
  fo_K : 1 <= f_num_channels f;
  fo_T : 1 <= length (f_atomic_numbers f);
  fo_E0 : length (f_atomic_numbers f) <= length (f_atomic_energies f);
  fo_zbl : f_has_zbl f = true ->
    (forall Z, In Z (f_atomic_numbers f) -> Z < length (f_zbl_covalent_radii f)) /\ 4 <= length (f_zbl_c f);
  fo_R0 : radial_ok (length (f_atomic_numbers f)) ((f_l_max f + 1) * f_num_channels f)
            (f_radial_spline_values_0 f) (f_radial_spline_derivs_0 f);
  fo_R1 : radial_ok (length (f_atomic_numbers f)) (length (f_Phi1_l f) * f_num_channels f)
            (f_radial_spline_values_1 f) (f_radial_spline_derivs_1 f);
  fo_H0 : length (f_atomic_numbers f) * f_num_channels f <= length (f_H0_weights f);
  fo_A0 : length (f_atomic_numbers f) <= length (f_A0_weights f) /\
    forall t, t < length (f_atomic_numbers f) -> f_l_max f + 1 <= length (nth t (f_A0_weights f) []) /\
    forall l, l <= f_l_max f ->
      f_num_channels f * f_num_channels f <= length (nth l (nth t (f_A0_weights f) []) []);
  fo_A0s : f_A0_scaled f = true ->
    density_ok (length (f_atomic_numbers f)) (f_A0_spline_values f) (f_A0_spline_derivs f);
  fo_M0 : forall a lm k, a < length (f_atomic_numbers f) -> lm < (f_L_max f + 1) * (f_L_max f + 1) ->
    k < f_num_channels f ->
    monos_ok ((f_l_max f + 1) * (f_l_max f + 1)) (f_M0_monomials f lm) /\
    length (f_M0_weights f a lm k) = length (f_M0_monomials f lm);
  fo_H1 : (f_L_max f + 1) * f_num_channels f * f_num_channels f <= length (f_H1_weights f);
  fo_l1 : length (f_Phi1_l f) <= length (f_Phi1_l1 f);
  fo_l2 : length (f_Phi1_l f) <= length (f_Phi1_l2 f);
  fo_l_le : forall l, In l (f_Phi1_l f) -> l <= f_l_max f;
  fo_l_all : forall l, l <= f_l_max f -> In l (f_Phi1_l f);
  fo_l1_le : forall q, q < length (f_Phi1_l f) -> nth q (f_Phi1_l1 f) 0 <= f_l_max f;
  fo_l2_le : forall q, q < length (f_Phi1_l f) -> nth q (f_Phi1_l2 f) 0 <= f_L_max f;
  fo_lme : length (f_Phi1_clebsch_gordan f) <= length (f_Phi1_lme f);
  fo_lel : length (f_Phi1_clebsch_gordan f) <= length (f_Phi1_lelm1lm2 f);
  fo_lme_lt : forall p, p < length (f_Phi1_clebsch_gordan f) ->
    nth p (f_Phi1_lme f) 0 < list_sum (map (fun l => 2 * l + 1) (f_Phi1_l f));
  fo_lel_lt : forall p, p < length (f_Phi1_clebsch_gordan f) ->
    nth p (f_Phi1_lelm1lm2 f) 0 <
    list_sum (map (fun q => (2 * nth q (f_Phi1_l1 f) 0 + 1) * (2 * nth q (f_Phi1_l2 f) 0 + 1)) (seq 0 (length (f_Phi1_l f))));
  fo_A1 : f_l_max f + 1 <= length (f_A1_weights f) /\
    forall l, l <= f_l_max f ->
      count_occ Nat.eq_dec (f_Phi1_l f) l * f_num_channels f * f_num_channels f <= length (nth l (f_A1_weights f) []);
  fo_A1s : f_A1_scaled f = true ->
    density_ok (length (f_atomic_numbers f)) (f_A1_spline_values f) (f_A1_spline_derivs f);
  fo_M1 : forall a k, a < length (f_atomic_numbers f) -> k < f_num_channels f ->
    monos_ok ((f_l_max f + 1) * (f_l_max f + 1)) (f_M1_monomials f) /\
    length (f_M1_weights f a k) = length (f_M1_monomials f);
  fo_HH : length (f_atomic_numbers f) <= length (f_H2_weights_for_H1 f) /\
    forall t, t < length (f_atomic_numbers f) ->
      f_num_channels f * f_num_channels f <= length (nth t (f_H2_weights_for_H1 f) []);
  fo_HM : f_num_channels f * f_num_channels f <= length (f_H2_weights_for_M1 f);
  fo_r1 : f_num_channels f <= length (f_readout_1_weights f);
  fo_r2a : length (f_readout_2_weights_1 f) = f_num_channels f * 16;
  fo_r2b : length (f_readout_2_weights_2 f) = 16
}.
End Spec.
Arguments input : clear implicits.
