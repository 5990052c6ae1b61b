(** Equivariance of the constant tensors of a PyTorch model (what e3nn promises about its spherical harmonics, its Clebsch-Gordan coefficients and the
    generalised coefficients U of the symmetric contractions).  The trained weights do not occur. *)
From Coq Require Import List Arith Reals.
From Verif Require Import Base Instances MaceSpec ExportPolySpec EnergySpec ExportFullModel TorchSpec SymSpec.
Import ListNotations.
Local Open Scope R_scope.

Record torch_equivariant (sph : nat -> R -> R -> R -> list R * list R) (t : torch_model RNum) (C : nat -> nat -> nat -> nat -> R)
    (g : nat -> nat -> R) (D : nat -> nat -> nat -> R) : Prop := {
  te_scalar : D 0%nat 0%nat 0%nat = 1;
  te_sph : forall x y z l m, x * x + y * y + z * z <> 0 -> (l <= t_l_max t)%nat -> (m < 2 * l + 1)%nat ->
    let v a := g a 0%nat * x + g a 1%nat * y + g a 2%nat * z in
    nth (l * l + m) (fst (sph (t_l_max t) (v 2%nat) (v 0%nat) (v 1%nat))) 0 = turn D (fun l m => nth (l * l + m) (fst (sph (t_l_max t) z x y)) 0) l m;
  te_U0 : forall L M W a, (L <= t_L_max t)%nat -> (M < 2 * L + 1)%nat ->
    contraction 3 ((t_l_max t + 1) * (t_l_max t + 1)) M (t_U0 t L) W (by_degree (t_l_max t) (turn D a)) =
    turn D (fun L M => contraction 3 ((t_l_max t + 1) * (t_l_max t + 1)) M (t_U0 t L) W (by_degree (t_l_max t) a)) L M;
  te_U1 : forall W a,
    contraction 3 ((t_l_max t + 1) * (t_l_max t + 1)) 0 (t_U1 t) W (by_degree (t_l_max t) (turn D a)) =
    contraction 3 ((t_l_max t + 1) * (t_l_max t + 1)) 0 (t_U1 t) W (by_degree (t_l_max t) a);
  te_C : forall le l l1 l2, (le < length (t_paths t))%nat -> nth le (t_paths t) (0, 0, 0)%nat = (l, l1, l2) ->
    forall m m1' m2', (m < 2 * l + 1)%nat -> (m1' < 2 * l1 + 1)%nat -> (m2' < 2 * l2 + 1)%nat ->
    sum (2 * l1 + 1) (fun m1 => sum (2 * l2 + 1) (fun m2 => C le m m1 m2 * D l1 m1 m1' * D l2 m2 m2')) = sum (2 * l + 1) (fun m' => D l m m' * C le m' m1' m2')
}.
