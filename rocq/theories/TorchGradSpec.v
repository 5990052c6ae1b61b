(** Total energy of the PyTorch model and the configurations at which it is differentiable. *)
From Coq Require Import List Arith ZArith Bool Reals.
From Verif Require Import Base Instances MlpSpec MaceModel MaceSpec EnergySpec ExportPolySpec ExportFullModel TorchSpec.
Import ListNotations.
Local Open Scope R_scope.

Definition torch_total (sph : nat -> R -> R -> R -> list R * list R) (spl : list R -> list R -> list R * list R) (points : nat) (t : torch_model RNum) (el : nat -> nat)
    (x : input RNum) : R := sum (i_num_nodes x) (torch_energy sph spl points t el x).
(** parameters of the pair repulsion: four exponentials, envelope of degree two or more, positive range *)
Definition repulsion_smooth (t : torch_model RNum) : Prop :=
  match t_zbl t with
  | Some (Some zp) => length (zp_c zp) = 4%nat /\ (2 <= zp_p zp)%Z /\
      forall Z Z', In Z (t_atomic_numbers t) -> In Z' (t_atomic_numbers t) -> 0 < nth Z (zp_covalent_radii zp) 0 + nth Z' (zp_covalent_radii zp) 0
  | _ => True
  end.
(** no coinciding atoms, all pairs inside the radius up to which the radial functions are tabulated, no message divided by zero *)
Record regular (spl : list R -> list R -> list R * list R) (points : nat) (t : torch_model RNum) (el : nat -> nat) (x : input RNum) : Prop := {
  rg_r : forall r, In r (i_r x) -> 0 < r < t_r_cut t - 1 / 10 ^ 12;
  rg_den : forall b b' i, t_interactions t = [b; b'] -> (i < i_num_nodes x)%nat ->
    denominator spl points t el x b (t_avg_num_neighbors0 t) (t_dens0 t) i <> 0 /\ denominator spl points t el x b' (t_avg_num_neighbors1 t) (t_dens1 t) i <> 0
}.
