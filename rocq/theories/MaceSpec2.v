(** Vocabulary for statements about rearranging and extending the neighbour list, and about model files written
    table by table, in terms of the argument arrays and of the file only. *)
From Coq Require Import List Arith ZArith.
From Verif Require Import Base SplineModel ZblModel MaceModel MaceSpec ExportSpec.
Import ListNotations.

Section Spec2.
Context {N : Num}.

(** positions in the edge arrays after reordering every node's segment: [sgs] holds, for every node,
    the order in which its neighbours are to be listed *)
Fixpoint positions (o : nat) (sgs : list (list nat)) (num_neigh : list nat) : list nat :=
  match sgs, num_neigh with
  | sg :: sgs, n :: nn => map (Nat.add o) sg ++ positions (o + n) sgs nn
  | _, _ => []
  end.
Definition gather {A} (d : A) (l : list A) (ps : list nat) : list A := map (fun p => nth p l d) ps.
Definition gather3 (l : list N) (ps : list nat) : list N :=
  flat_map (fun p => [nth (3 * p) l nzero; nth (3 * p + 1) l nzero; nth (3 * p + 2) l nzero]) ps.

Definition reorder_input (sgs : list (list nat)) (x : input N) : input N :=
  let ps := positions 0 sgs (i_num_neigh x) in
  mkInput (i_num_nodes x) (i_node_types x) (i_num_neigh x) (gather 0 (i_neigh_indices x) ps)
    (gather 0 (i_neigh_types x) ps) (gather3 (i_xyz x) ps) (gather nzero (i_r x) ps).

Definition insert_at {A} (p : nat) (new l : list A) : list A := firstn p l ++ new ++ skipn p l.
(** the edge position at which the [j]-th neighbour of node [i] is stored *)
Definition edge_pos (num_neigh : list nat) (i j : nat) : nat := list_sum (firstn i num_neigh) + j.

(** a new edge, as neighbour number [j] of node [i] *)
Definition insert_edge (x : input N) (i j : nat) (t idx : nat) (vx vy vz r : N) : input N :=
  let p := edge_pos (i_num_neigh x) i j in
  mkInput (i_num_nodes x) (i_node_types x)
    (firstn i (i_num_neigh x) ++ [nth i (i_num_neigh x) 0 + 1] ++ skipn (i + 1) (i_num_neigh x))
    (insert_at p [idx] (i_neigh_indices x)) (insert_at p [t] (i_neigh_types x))
    (insert_at (3 * p) [vx; vy; vz] (i_xyz x)) (insert_at p [r] (i_r x)).

(** the spline through the tabulated values and derivatives vanishes at [r], and so does its derivative *)
Definition spline_zero (h : N) (vs ds : list N) (r : N) : Prop :=
  exists s, make_spline h vs ds = Some s /\ cs_evaluate_deriv s r = Ret (nzero, nzero).

(** every function of the distance between species [t] and [u] vanishes at [r] *)
Definition inert_at (f : mace_file N) (t u : nat) (r : N) : Prop :=
  (forall q, nth_error (upairs (length (f_atomic_numbers f))) q = Some (Nat.min t u, Nat.max t u) ->
    (forall p, p < (f_l_max f + 1) * f_num_channels f -> spline_zero (f_radial_spline_h f)
       (nth p (nth q (f_radial_spline_values_0 f) []) []) (nth p (nth q (f_radial_spline_derivs_0 f) []) []) r) /\
    (forall p, p < length (f_Phi1_l f) * f_num_channels f -> spline_zero (f_radial_spline_h f)
       (nth p (nth q (f_radial_spline_values_1 f) []) []) (nth p (nth q (f_radial_spline_derivs_1 f) []) []) r) /\
    (f_A0_scaled f = true -> spline_zero (f_A0_spline_h f) (nth q (f_A0_spline_values f) []) (nth q (f_A0_spline_derivs f) []) r) /\
    (f_A1_scaled f = true -> spline_zero (f_A1_spline_h f) (nth q (f_A1_spline_values f) []) (nth q (f_A1_spline_derivs f) []) r)) /\
  (f_has_zbl f = true -> forall Zt Zu, nth_error (f_atomic_numbers f) t = Some Zt -> nth_error (f_atomic_numbers f) u = Some Zu ->
    let z := mkZBL (f_zbl_a_exp f) (f_zbl_a_prefactor f) (f_zbl_c f) (f_zbl_covalent_radii f) (f_zbl_p f) in
    zbl_compute z Zt Zu r = Some nzero /\ zbl_compute_gradient z Zt Zu r = Some nzero).

(** the owner of every position of the edge arrays *)
Definition owners (num_neigh : list nat) : list nat :=
  flat_map (fun i => repeat i (nth i num_neigh 0)) (seq 0 (length num_neigh)).

(** two calls put side by side; the second one's neighbour indices are shifted *)
Definition cat_input (x y : input N) : input N :=
  mkInput (i_num_nodes x + i_num_nodes y) (i_node_types x ++ i_node_types y) (i_num_neigh x ++ i_num_neigh y)
    (i_neigh_indices x ++ map (Nat.add (i_num_nodes x)) (i_neigh_indices y))
    (i_neigh_types x ++ i_neigh_types y) (i_xyz x ++ i_xyz y) (i_r x ++ i_r y).

(** a single atom of species [t] without neighbours *)
Definition single_input (t : nat) : input N := mkInput 1 [t] [0] [] [] [] [].

(** value of the density spline of a species pair, if it is defined at [r] *)
Definition dens (h : N) (V D : nat -> nat -> list N) (t u : nat) (r : N) : option N :=
  s <- make_spline h (V (Nat.min t u) (Nat.max t u)) (D (Nat.min t u) (Nat.max t u)) ;;
  match cs_evaluate s r with Ret y => Some y | _ => None end.

(** one plus the sum of the densities of the neighbours of node [i], in order *)
Definition density_sum (h : N) (V D : nat -> nat -> list N) (x : input N) (i : nat) : option N :=
  t <- rd (i_node_types x) i ;; n <- rd (i_num_neigh x) i ;;
  fold_left (fun acc q => a <- acc ;; u <- rd (i_neigh_types x) q ;; r <- rd (i_r x) q ;; d <- dens h V D t u r ;; Some (nadd a d))
    (seq (edge_pos (i_num_neigh x) i 0) n) (Some none).

End Spec2.
