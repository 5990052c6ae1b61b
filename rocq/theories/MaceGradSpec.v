(** Vocabulary for the statement that edge forces are minus the gradient of the energy: edge vectors as coordinates,
    what makes the energy differentiable, what sphericart promises about its derivatives. *)
From Coq Require Import List Arith ZArith Reals.
From Verif Require Import Base Instances MaceModel MaceSpec MaceSpec2 ExportSpec.
Import ListNotations.
Local Open Scope R_scope.

(** sphericart's second output holds the derivatives of its first output: along every differentiable motion of a
    non-zero vector the [lm]-th value changes at the rate given by the blocks of d/dx, d/dy and d/dz *)
Definition sph_gradient (sph : nat -> RNum -> RNum -> RNum -> list RNum * list RNum) : Prop :=
  forall l (x y z : R -> R) t x' y' z', derivable_pt_lim x t x' -> derivable_pt_lim y t y' -> derivable_pt_lim z t z' ->
  x t * x t + y t * y t + z t * z t <> 0 -> forall lm, (lm < (l + 1) * (l + 1))%nat ->
  derivable_pt_lim (fun s => nth lm (fst (sph l (x s) (y s) (z s))) 0) t
    (nth lm (snd (sph l (x t) (y t) (z t))) 0 * x'
     + nth ((l + 1) * (l + 1) + lm) (snd (sph l (x t) (y t) (z t))) 0 * y'
     + nth (2 * ((l + 1) * (l + 1)) + lm) (snd (sph l (x t) (y t) (z t))) 0 * z').

(** positive table spacings; ZBL with four terms, an integer envelope exponent of at least two and positive radii *)
Record smooth_ok (f : mace_file RNum) : Prop := {
  so_h : 0 < f_radial_spline_h f;
  so_h0 : f_A0_scaled f = true -> 0 < f_A0_spline_h f;
  so_h1 : f_A1_scaled f = true -> 0 < f_A1_spline_h f;
  so_zbl : f_has_zbl f = true -> length (f_zbl_c f) = 4%nat /\ (2 <= f_zbl_p f)%Z /\
    forall Z Z' r r', In Z (f_atomic_numbers f) -> In Z' (f_atomic_numbers f) ->
      rd (f_zbl_covalent_radii f) Z = Some r -> rd (f_zbl_covalent_radii f) Z' = Some r' -> 0 < r + r'
}.

(** squared length of the [q]-th edge vector *)
Definition norm2 (xs : list R) (q : nat) : R :=
  nth (3 * q) xs 0 * nth (3 * q) xs 0 + nth (3 * q + 1) xs 0 * nth (3 * q + 1) xs 0 + nth (3 * q + 2) xs 0 * nth (3 * q + 2) xs 0.

(** the call with edge vectors [xs] and their lengths *)
Definition with_xyz (x : input RNum) (xs : list R) : input RNum :=
  mkInput (N:=RNum) (i_num_nodes x) (i_node_types x) (i_num_neigh x) (i_neigh_indices x) (i_neigh_types x) xs
    (map (fun q => sqrt (norm2 xs q)) (seq 0 (list_sum (i_num_neigh x)))).

(** the density tables of the file, by species pair, give a non-zero density at every node *)
Definition density_nonzero (f : mace_file RNum) (h : R) (vals ders : list (list R)) (x : input RNum) : Prop :=
  exists V D : nat -> nat -> list R,
    (forall q t u, nth_error (upairs (length (f_atomic_numbers f))) q = Some (t, u) ->
       V t u = nth q vals [] /\ D t u = nth q ders []) /\
    forall i, (i < i_num_nodes x)%nat -> exists rho, density_sum (N:=RNum) h V D x i = Some rho /\ rho <> 0.

(** a configuration at which the energy is differentiable *)
Record smooth_at (f : mace_file RNum) (x : input RNum) (xs : list R) : Prop := {
  sa_ok : input_ok f (with_xyz x xs);
  sa_pos : forall q, (q < list_sum (i_num_neigh x))%nat -> norm2 xs q <> 0;
  sa_A0 : f_A0_scaled f = true ->
    density_nonzero f (f_A0_spline_h f) (f_A0_spline_values f) (f_A0_spline_derivs f) (with_xyz x xs);
  sa_A1 : f_A1_scaled f = true ->
    density_nonzero f (f_A1_spline_h f) (f_A1_spline_values f) (f_A1_spline_derivs f) (with_xyz x xs)
}.

(** sum of a list of reals *)
Definition total (l : list R) : R := fold_right Rplus 0 l.
(** sum of products of two lists *)
Definition dot (a b : list R) : R := total (map (fun p => fst p * snd p) (combine a b)).
