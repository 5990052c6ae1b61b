(** Property theorem C65: the node energies computed by [MACE::compute_node_energies_forces].
    Formula: EnergySpec.v.  Model: MaceModel.v.  [sph] is the spherical-harmonics library, [srt] is std::sort up to ties. *)
From Coq Require Import List Arith ZArith Reals Permutation Lia Lra.
From Verif Require Import Base Instances MpSpec MaceModel MaceSpec MaceSpec2 EnergySpec EnergyProofs MaceExamples MaceGradSpec GradExamples.
Import ListNotations.
Local Open Scope R_scope.

(** ** C65: after any history of calls, the energy of node i is [node_energy sph f x i] *)
Theorem C65_energy_formula : forall sph, sph_ok (N:=RNum) sph -> forall srt, (forall l, Permutation l (srt l)) ->
  forall f : mace_file RNum, file_ok f -> monomials_once f ->
  f_radial_spline_h f <> 0 -> (f_A0_scaled f = true -> f_A0_spline_h f <> 0) -> (f_A1_scaled f = true -> f_A1_spline_h f <> 0) ->
  forall hist x, List.Forall (input_ok f) hist -> input_ok f x ->
  exists m b0 b1 b2, load_from_json srt f = Some (m, b0) /\ calls sph m b0 hist = Some b1 /\ call sph m b1 x = Some b2 /\
    b_node_energies b2 = map (node_energy sph f x) (seq 0 (i_num_nodes x)).
Proof. exact lemma_C65. Qed.
Print Assumptions C65_energy_formula.

(** Example: two species, two channels, l_max = L_max = 1, density scaling and repulsion, three atoms and five edges *)
Lemma ex_once : monomials_once ex_file.
Proof.
  split.
  - intros lm Hlm. change (lm < 4)%nat in Hlm. change (NoDup (ex_monos lm)). unfold ex_monos.
    destruct lm as [|[|[|[|lm]]]]; [| | | |lia]; repeat constructor; cbn; intuition discriminate.
  - change (NoDup (ex_monos 3)). repeat constructor; cbn; intuition discriminate.
Qed.
Example C65_example : exists m b0 b1 b2, load_from_json (N:=RNum) (fun l => l) ex_file = Some (m, b0) /\
  calls ex_sph m b0 [with_xyz ex_xi ex_xs] = Some b1 /\ call ex_sph m b1 (with_xyz ex_xi ex_xs) = Some b2 /\
  b_node_energies b2 = map (node_energy ex_sph ex_file (with_xyz ex_xi ex_xs)) [0; 1; 2]%nat.
Proof.
  assert (H1 : (1 : R) <> 0) by lra.
  apply (C65_energy_formula ex_sph ex_sph_ok (fun l => l) (fun l => Permutation_refl l) ex_file ex_file_ok ex_once H1 (fun _ => H1) (fun _ => H1) [with_xyz ex_xi ex_xs]).
  - apply List.Forall_cons; [exact ex_with_ok|apply List.Forall_nil].
  - exact ex_with_ok.
Qed.
(** the interpolant takes the tabulated values at the knots; half way between them it averages the values and adds an eighth of the difference of the slopes *)
Example hermite_knot : hermite 2 [5; 7; 1] [3; -1; 4] 2 = 7.
Proof.
  unfold hermite. replace (2 / 2) with 1 by lra. rewrite (SplineR.Int_part_unique 1 1) by lra. change (Z.to_nat 1) with 1%nat. cbn [nth Nat.add INR]. ring.
Qed.
Example hermite_middle : hermite 2 [5; 7; 1] [3; -1; 4] 3 = (7 + 1) / 2 + 2 * (-1 - 4) / 8.
Proof.
  unfold hermite. replace (3 / 2) with (1 + 1 / 2) by lra. rewrite (SplineR.Int_part_unique (1 + 1 / 2) 1) by lra. change (Z.to_nat 1) with 1%nat. cbn [nth Nat.add INR]. field.
Qed.

(** ** C66: an atom without neighbours has exactly the tabulated energy of its species *)
Theorem C66_isolated_atom : forall sph, sph_ok (N:=RNum) sph -> forall srt, (forall l, Permutation l (srt l)) ->
  forall f : mace_file RNum, file_ok f -> monomials_once f ->
  f_radial_spline_h f <> 0 -> (f_A0_scaled f = true -> f_A0_spline_h f <> 0) -> (f_A1_scaled f = true -> f_A1_spline_h f <> 0) ->
  forall hist x, List.Forall (input_ok f) hist -> input_ok f x ->
  forall i, (i < i_num_nodes x)%nat -> nth i (i_num_neigh x) 0%nat = 0%nat ->
  exists m b0 b1 b2, load_from_json srt f = Some (m, b0) /\ calls sph m b0 hist = Some b1 /\ call sph m b1 x = Some b2 /\
    nth_error (b_node_energies b2) i = Some (nth (nth i (i_node_types x) 0%nat) (f_atomic_energies f) 0).
Proof. exact lemma_C66. Qed.
Print Assumptions C66_isolated_atom.

(** Example: atoms 0 and 2 are neighbours, atom 1 (species 1, tabulated energy 5) has none; the previous call left other numbers in the buffers *)
Example C66_example : exists m b0 b1 b2, load_from_json (N:=RNum) (fun l => l) ex_file = Some (m, b0) /\
  calls ex_sph m b0 [with_xyz ex_xi ex_xs] = Some b1 /\ call ex_sph m b1 (ex_y (N:=RNum) (3/2)) = Some b2 /\
  nth_error (b_node_energies b2) 1 = Some 5.
Proof.
  assert (H1 : (1 : R) <> 0) by lra.
  assert (D : 0 <= 3/2 < 3) by lra.
  assert (L : (1 < i_num_nodes (ex_y (N:=RNum) (3/2)%R))%nat) by (cbn; lia).
  pose proof (C66_isolated_atom ex_sph ex_sph_ok (fun l => l) (fun l => Permutation_refl l) ex_file ex_file_ok ex_once H1 (fun _ => H1) (fun _ => H1)
    [with_xyz ex_xi ex_xs] (ex_y (N:=RNum) (3/2)%R) (List.Forall_cons _ ex_with_ok (List.Forall_nil _)) (ex_y_ok (N:=RNum) (3/2)%R (ex_in_R (3/2) D)) 1%nat L eq_refl) as H.
  exact H.
Qed.
