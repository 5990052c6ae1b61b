(** Properties C74-C77: rotating the atoms leaves the energies unchanged and rotates forces and stress. *)
From Coq Require Import List Arith ZArith Permutation Sorted Reals Lra Lia.
From Verif Require Import Base BaseLemmas Instances MlpSpec MpSpec MaceModel MaceSpec MaceSpec2 MaceExamples MaceGradSpec GradExamples ExportPolySpec EnergySpec ExportFullModel TorchSpec TorchGradSpec
  AseModel AseSpec AseExamples PairExamples ExportFullExamples ExportGradExamples SymSpec TorchSymSpec SymForces SymExport SymAse SymExamples SymTorchExamples.
Import ListNotations.
Local Open Scope R_scope.

(** C74: if the tables of a file are equivariant under a linear map g of space (a rotation or rotation with reflection, represented on the harmonics by
    matrices D), the energies of all nodes are the same for the edge vectors and for their images under g, after any sequence of earlier calls. *)
Theorem C74_energy_invariant : forall sph, sph_ok (N:=RNum) sph -> forall srt, (forall l, Permutation l (srt l)) ->
  forall f : mace_file RNum, file_ok f -> monomials_once f ->
  f_radial_spline_h f <> 0 -> (f_A0_scaled f = true -> f_A0_spline_h f <> 0) -> (f_A1_scaled f = true -> f_A1_spline_h f <> 0) ->
  forall g D, equivariant sph f g D ->
  forall hist x, List.Forall (input_ok f) hist -> input_ok f x -> (forall q, (q < list_sum (i_num_neigh x))%nat -> norm2 (i_xyz x) q <> 0) ->
  exists m b0 bh b b', load_from_json srt f = Some (m, b0) /\ calls sph m b0 hist = Some bh /\ call sph m bh x = Some b /\ call sph m bh (rotated g x) = Some b' /\
    b_node_energies b' = b_node_energies b.
Proof. exact lemma_C74. Qed.
Print Assumptions C74_energy_invariant.

Lemma one_ne : none (N:=RNum) <> 0.
Proof. rewrite RNum_one. lra. Qed.
(** two species, vectors and scalars coupled by dot, cross and scalar products; three atoms with five edges; a rotation by 60 degrees *)
Example C74_example : exists m b0 b b', load_from_json (fun l => l) sym_file = Some (m, b0) /\
  call (ex_sph (N:=RNum)) m b0 (with_xyz ex_xi ex_xs) = Some b /\ call (ex_sph (N:=RNum)) m b0 (rotated sym_g (with_xyz ex_xi ex_xs)) = Some b' /\ b_node_energies b' = b_node_energies b.
Proof.
  destruct (C74_energy_invariant (ex_sph (N:=RNum)) ex_sph_ok (fun l => l) (fun l => Permutation_refl l) sym_file sym_file_ok sym_once one_ne (fun _ => one_ne) (fun _ => one_ne) sym_g sym_D sym_equivariant
    [] (with_xyz ex_xi ex_xs)) as (m & b0 & bh & b & b' & E1 & E2 & E3 & E4 & E5).
  - constructor.
  - apply sym_input, ex_with_ok.
  - apply (sa_pos _ _ _ ex_smooth_at).
  - injection E2 as <-. exists m, b0, b, b'. auto.
Qed.
(** C75: if moreover g is orthogonal and the model is differentiable at the edge vectors, the edge forces for the rotated vectors are the rotated edge forces. *)
Theorem C75_forces_rotate : forall sph, sph_ok (N:=RNum) sph -> sph_gradient sph -> forall srt, (forall l, Permutation l (srt l)) ->
  forall f : mace_file RNum, file_ok f -> smooth_ok f -> monomials_once f -> forall g D, orthogonal g -> equivariant sph f g D ->
  forall hist x xs, List.Forall (input_ok f) hist -> smooth_at f x xs ->
  exists m b0 bh b b', load_from_json srt f = Some (m, b0) /\ calls sph m b0 hist = Some bh /\
    call sph m bh (with_xyz x xs) = Some b /\ call sph m bh (with_xyz x (rotate g xs)) = Some b' /\
    b_node_energies b' = b_node_energies b /\ b_node_forces b' = rotate g (b_node_forces b).
Proof. exact lemma_C75. Qed.
Print Assumptions C75_forces_rotate.

Example C75_example : exists m b0 b b', load_from_json (fun l => l) sym_file = Some (m, b0) /\
  call (ex_sph (N:=RNum)) m b0 (with_xyz ex_xi ex_xs) = Some b /\ call (ex_sph (N:=RNum)) m b0 (with_xyz ex_xi (rotate sym_g ex_xs)) = Some b' /\
  b_node_energies b' = b_node_energies b /\ b_node_forces b' = rotate sym_g (b_node_forces b).
Proof.
  destruct (C75_forces_rotate (ex_sph (N:=RNum)) ex_sph_ok ex_sph_gradient (fun l => l) (fun l => Permutation_refl l) sym_file sym_file_ok sym_smooth sym_once sym_g sym_D sym_orthogonal sym_equivariant
    [] ex_xi ex_xs (Forall_nil _) (sym_smooth_at _ _ ex_smooth_at)) as (m & b0 & bh & b & b' & E1 & E2 & E3 & E4 & E5 & E6).
  injection E2 as <-. exists m, b0, b, b'. auto.
Qed.
(** C76: with an exported file it is enough that the constant tensors of the PyTorch model (harmonics, generalised and ordinary Clebsch-Gordan coefficients)
    are equivariant; then for all trained weights the energies computed by C++ are invariant and the edge forces rotate with the atoms. *)
Theorem C76_export_rotation : forall rank inv spl t C, torch_ok t C -> spl_ok spl -> inv_ok rank inv -> (t_num_channels t <= rank (t_num_channels t) (fused t))%nat -> repulsion_smooth t ->
  forall species points, NoDup species -> incl species (t_atomic_numbers t) -> (2 <= points)%nat -> 1 / 10 ^ 12 < t_r_cut t ->
  exists f, extract_mace_data rank inv spl t species points = Some f /\
    forall sph, sph_ok (N:=RNum) sph -> sph_gradient sph -> forall g D, orthogonal g -> torch_equivariant sph t C g D -> forall srt, (forall l, Permutation l (srt l)) ->
    forall el, (forall j, (j < length (f_atomic_numbers f))%nat -> (el j < length (t_atomic_numbers t))%nat /\ nth (el j) (t_atomic_numbers t) 0%nat = nth j (f_atomic_numbers f) 0%nat) ->
    forall hist x xs, List.Forall (input_ok f) hist -> input_ok f (with_xyz x xs) -> regular spl points t el (with_xyz x xs) ->
    exists m b0 bh b b', load_from_json srt f = Some (m, b0) /\ calls sph m b0 hist = Some bh /\
      call sph m bh (with_xyz x xs) = Some b /\ call sph m bh (with_xyz x (rotate g xs)) = Some b' /\
      b_node_energies b' = b_node_energies b /\ b_node_forces b' = rotate g (b_node_forces b).
Proof. exact lemma_C76. Qed.
Print Assumptions C76_export_rotation.

Example C76_example : exists f, extract_mace_data ex_rank ex_inv ex_spl sym_torch [] 3 = Some f /\
  exists m b0 b b', load_from_json (fun l => l) f = Some (m, b0) /\
    call (ex_sph (N:=RNum)) m b0 (with_xyz px_in px_D) = Some b /\ call (ex_sph (N:=RNum)) m b0 (with_xyz px_in (rotate sym_g px_D)) = Some b' /\
    b_node_energies b' = b_node_energies b /\ b_node_forces b' = rotate sym_g (b_node_forces b).
Proof.
  destruct (C76_export_rotation ex_rank ex_inv ex_spl sym_torch sym_C sym_torch_ok ex_spl_ok ex_inv_ok sym_rank_ok sym_repulsion [] 3 (NoDup_nil _) (fun a H => match H with end) (le_S _ _ (le_n 2)) sym_cut) as (f & E & H).
  destruct sym_export as (f' & E' & An & D). rewrite E in E'. injection E' as <-. exists f. split; [exact E|].
  assert (W : with_xyz px_in px_D = px_in) by (pose proof px_with as W; rewrite px_in_eq in W at 2; exact W).
  destruct (H (ex_sph (N:=RNum)) ex_sph_ok ex_sph_gradient sym_g sym_D sym_orthogonal sym_torch_equivariant (fun l => l) (fun l => Permutation_refl l) (fun j => j)) with (hist := @nil (input RNum)) (x := px_in) (xs := px_D)
    as (m & b0 & bh & b & b' & E1 & E2 & E3 & E4 & E5).
  - rewrite An. intros j Hj. split; [exact Hj|reflexivity].
  - constructor.
  - rewrite W. apply (px_export f An D).
  - rewrite W. apply sym_regular. rewrite px_in_eq. cbn [i_r]. intros r Hr. unfold px_r in Hr. cbn in Hr. intuition (subst; lra).
  - injection E2 as <-. exists m, b0, b, b'. auto.
Qed.

(** C77: the ASE calculator.  Rotating positions and periodic images together leaves 'energies' and 'energy' unchanged, rotates 'forces', and multiplies the
    stress (six components xx, yy, zz, yz, xz, xy) by the matrix from both sides. *)
Theorem C77_ase_rotation : forall sph, sph_ok (N:=RNum) sph -> sph_gradient sph -> forall srt, (forall l, Permutation l (srt l)) ->
  forall f : mace_file RNum, file_ok f -> smooth_ok f -> monomials_once f -> forall g D, orthogonal g -> equivariant sph f g D ->
  forall numbers types il jl, species_map (f_atomic_numbers f) numbers types -> nl_ok (length numbers) il jl -> il <> [] ->
  forall hist V pos sh, List.Forall (input_ok f) hist -> length pos = (3 * length numbers)%nat -> length sh = (3 * length il)%nat ->
  smooth_at f (nl_input (N:=RNum) (S (list_max il)) types il jl [] []) (nl_vectors il jl pos sh) ->
  let evaluate m b pos sh := let D := nl_vectors il jl pos sh in calculate sph m b numbers (Some V) il jl (lengths3 D) D in
  exists m b0 bh b res b' res', load_from_json srt f = Some (m, b0) /\ calls sph m b0 hist = Some bh /\
    evaluate m bh pos sh = Some (b, res) /\ evaluate m bh (rotate g pos) (rotate g sh) = Some (b', res') /\
    res_energy res' = res_energy res /\ res_energies res' = res_energies res /\ res_forces res' = rotate g (res_forces res) /\
    forall a c, (a < 3)%nat -> (c < 3)%nat -> voigt (res_stress res') a c = rotated_tensor g (voigt (res_stress res)) a c.
Proof. exact lemma_C77. Qed.
Print Assumptions C77_ase_rotation.

(** three periodic atoms with eight edges *)
Example C77_example : let evaluate m b pos sh := let D := nl_vectors ax_il ax_jl pos sh in calculate (ex_sph (N:=RNum)) m b ax_numbers (Some 2) ax_il ax_jl (lengths3 D) D in
  exists m b0 b res b' res', load_from_json (fun l => l) sym_file = Some (m, b0) /\
    evaluate m b0 ax_pos ax_sh = Some (b, res) /\ evaluate m b0 (rotate sym_g ax_pos) (rotate sym_g ax_sh) = Some (b', res') /\
    res_energy res' = res_energy res /\ res_forces res' = rotate sym_g (res_forces res) /\
    forall a c, (a < 3)%nat -> (c < 3)%nat -> voigt (res_stress res') a c = rotated_tensor sym_g (voigt (res_stress res)) a c.
Proof.
  cbv zeta.
  destruct (C77_ase_rotation (ex_sph (N:=RNum)) ex_sph_ok ex_sph_gradient (fun l => l) (fun l => Permutation_refl l) sym_file sym_file_ok sym_smooth sym_once sym_g sym_D sym_orthogonal sym_equivariant
    ax_numbers ax_types ax_il ax_jl ax_species ax_nl) with (hist := @nil (input RNum)) (V := 2) (pos := ax_pos) (sh := ax_sh) as (m & b0 & bh & b & res & b' & res' & E1 & E2 & E3 & E4 & E5 & E6 & E7 & E8).
  - discriminate.
  - constructor.
  - reflexivity.
  - reflexivity.
  - apply sym_smooth_at. exact ax_smooth_at.
  - injection E2 as <-. exists m, b0, b, res, b', res'. do 5 (split; [assumption|]). exact E8.
Qed.
