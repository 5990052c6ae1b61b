(** Vocabulary for rotations: a linear map of the edge vectors, and tables that are equivariant under it.
    Nothing here refers to the code; the file is the parsed model file and the formulas are those of EnergySpec. *)
From Coq Require Import List Arith ZArith Reals.
From Verif Require Import Base Instances MpSpec MaceModel MaceSpec ExportPolySpec EnergySpec.
Import ListNotations.
Local Open Scope R_scope.

(** all vectors multiplied by the matrix g *)
Definition rotate (g : nat -> nat -> R) (xs : list R) : list R :=
  map (fun p => sum 3 (fun c => g (p mod 3)%nat c * nth (3 * (p / 3) + c) xs 0)) (seq 0 (length xs)).
(** the same atoms and distances, the edge vectors rotated *)
Definition rotated (g : nat -> nat -> R) (x : input RNum) : input RNum :=
  mkInput (N:=RNum) (i_num_nodes x) (i_node_types x) (i_num_neigh x) (i_neigh_indices x) (i_neigh_types x) (rotate g (i_xyz x)) (i_r x).
Definition orthogonal (g : nat -> nat -> R) : Prop :=
  forall a b, (a < 3)%nat -> (b < 3)%nat -> sum 3 (fun c => g a c * g b c) = (if (a =? b)%nat then 1 else 0) /\ sum 3 (fun c => g c a * g c b) = (if (a =? b)%nat then 1 else 0).

(** components (l, m) multiplied by matrices D l *)
Definition turn (D : nat -> nat -> nat -> R) (a : nat -> nat -> R) (l m : nat) : R := sum (2 * l + 1) (fun m' => D l m m' * a l m').
(** both angular momenta of a column (path, m1, m2) of the coupling *)
Definition turn2 (f : mace_file RNum) (D : nat -> nat -> nat -> R) (v : nat -> nat -> nat -> R) (le m1 m2 : nat) : R :=
  let l1 := nth le (f_Phi1_l1 f) 0%nat in let l2 := nth le (f_Phi1_l2 f) 0%nat in
  sum (2 * l1 + 1) (fun m1' => sum (2 * l2 + 1) (fun m2' => D l1 m1 m1' * D l2 m2 m2' * v le m1' m2')).
(** the coupling table applied to any numbers v (path, m1, m2): its entry (l, m, e) *)
Definition coupled (f : mace_file RNum) (v : nat -> nat -> nat -> R) (l m e : nat) : R :=
  sum (length (f_Phi1_clebsch_gordan f)) (fun p =>
    if (nth p (f_Phi1_lme f) 0 =? row f l m e)%nat
    then nth p (f_Phi1_clebsch_gordan f) 0 * (let '(le, m1, m2) := nth (nth p (f_Phi1_lelm1lm2 f) 0%nat) (columns f) (0, 0, 0)%nat in v le m1 m2)
    else 0).

(** The tables of a file are equivariant under g, represented on the harmonics of degree l by the matrix D l (which is 1 for l = 0):
    the harmonics of a rotated (non-zero) vector are combinations of those of the vector, the polynomials of the first layer and the coupling take rotated
    arguments to rotated results, the polynomial of the second layer is invariant. *)
Record equivariant (sph : nat -> R -> R -> R -> list R * list R) (f : mace_file RNum) (g : nat -> nat -> R) (D : nat -> nat -> nat -> R) : Prop := {
  eq_scalar : D 0%nat 0%nat 0%nat = 1;
  eq_sph : forall x y z l m, x * x + y * y + z * z <> 0 -> (l <= f_l_max f)%nat -> (m < 2 * l + 1)%nat ->
    let v a := g a 0%nat * x + g a 1%nat * y + g a 2%nat * z in
    nth (l * l + m) (fst (sph (f_l_max f) (v 2%nat) (v 0%nat) (v 1%nat))) 0 = turn D (fun l m => nth (l * l + m) (fst (sph (f_l_max f) z x y)) 0) l m;
  eq_M0 : forall t L M k a, (t < length (f_atomic_numbers f))%nat -> (L <= f_L_max f)%nat -> (M < 2 * L + 1)%nat -> (k < f_num_channels f)%nat ->
    poly (f_M0_weights f t (L * L + M)%nat k) (f_M0_monomials f (L * L + M)%nat) (all_lm f (turn D a)) =
    turn D (fun L M => poly (f_M0_weights f t (L * L + M)%nat k) (f_M0_monomials f (L * L + M)%nat) (all_lm f a)) L M;
  eq_Phi1 : forall v l m e, (l <= f_l_max f)%nat -> (m < 2 * l + 1)%nat -> (e < npaths f l)%nat ->
    coupled f (turn2 f D v) l m e = turn D (fun l m => coupled f v l m e) l m;
  eq_M1 : forall t k a, (t < length (f_atomic_numbers f))%nat -> (k < f_num_channels f)%nat ->
    poly (f_M1_weights f t k) (f_M1_monomials f) (all_lm f (turn D a)) = poly (f_M1_weights f t k) (f_M1_monomials f) (all_lm f a)
}.

(** the symmetric tensor with components xx, yy, zz, yz, xz, xy *)
Definition voigt (s : list R) (a c : nat) : R := if (a =? c)%nat then nth a s 0 else nth (6 - a - c) s 0.
(** a tensor of second rank multiplied by g from both sides *)
Definition rotated_tensor (g : nat -> nat -> R) (s : nat -> nat -> R) (a c : nat) : R := sum 3 (fun i => sum 3 (fun j => g a i * g c j * s i j)).
