(** Properties C67-C70: the complete export. *)
From Coq Require Import List Arith ZArith Lia Bool Permutation Sorted Reals Lra.
From Verif Require Import Base Instances MlpSpec MpSpec MaceModel MaceSpec MaceSpec2 MaceExamples ExportPolySpec EnergySpec ExportFullModel TorchSpec ExportFullThms ExportSubset ExportFullExamples.
Import ListNotations.
Local Open Scope R_scope.

(** C67: the energies that C++ computes with an exported file are the energies of the PyTorch model (with interpolated radial functions). *)
Theorem C67_export_energies : forall rank inv spl t C, torch_ok t C -> spl_ok spl -> inv_ok rank inv -> (t_num_channels t <= rank (t_num_channels t) (fused t))%nat ->
  forall species points, NoDup species -> incl species (t_atomic_numbers t) -> (2 <= points)%nat -> 1 / 10 ^ 12 < t_r_cut t ->
  exists f, extract_mace_data rank inv spl t species points = Some f /\ file_ok f /\ (forall r, 0 <= r < t_r_cut t - 1 / 10 ^ 12 -> in_domain f r) /\
    StronglySorted lt (f_atomic_numbers f) /\ Permutation (f_atomic_numbers f) (match species with [] => t_atomic_numbers t | _ => species end) /\
    forall sph, sph_ok (N:=RNum) sph -> forall srt, (forall l, Permutation l (srt l)) ->
    forall el, (forall j, (j < length (f_atomic_numbers f))%nat -> (el j < length (t_atomic_numbers t))%nat /\ nth (el j) (t_atomic_numbers t) 0%nat = nth j (f_atomic_numbers f) 0%nat) ->
    forall hist x, List.Forall (input_ok f) hist -> input_ok f x ->
    exists m c0 c1 c2, load_from_json srt f = Some (m, c0) /\ calls sph m c0 hist = Some c1 /\ call sph m c1 x = Some c2 /\
      b_node_energies c2 = map (torch_energy sph spl points t el x) (seq 0 (i_num_nodes x)).
Proof. exact lemma_C67. Qed.
Print Assumptions C67_export_energies.

(** a model with two elements, two channels, L_max = 1, density normalisation in both layers and repulsion; one element is requested *)
Example C67_example : torch_ok ex_torch ex_C /\ spl_ok ex_spl /\ inv_ok ex_rank ex_inv /\
  (t_num_channels ex_torch <= ex_rank (t_num_channels ex_torch) (fused ex_torch))%nat /\
  NoDup [8%nat] /\ incl [8%nat] (t_atomic_numbers ex_torch) /\ 1 / 10 ^ 12 < t_r_cut ex_torch.
Proof.
  split; [apply ex_torch_ok|]. split; [apply ex_spl_ok|]. split; [apply ex_inv_ok|]. split; [apply ex_rank_ok|]. split; [repeat constructor; intros []|].
  split; [intros a [<-|[]]; cbn; auto|]. pose proof one_large as H. rewrite Rabs_R1 in H. cbn [t_r_cut ex_torch]. lra.
Qed.
(** and a model whose energy is not zero *)
Example C67_example_value : torch_ok dup_torch ex_C /\ torch_energy (ex_sph (N:=RNum)) ex_spl 2 dup_torch dup_el dup_input 0 = sqrt PI.
Proof. split; [apply dup_torch_ok|apply dup_torch_energy]. Qed.

(** C68: models that the C++ code cannot represent are refused. *)
Theorem C68_export_refuses : forall rank inv spl (t : torch_model RNum) species points,
  (~ (exists b0 b1, t_interactions t = [b0; b1] /\ is_first b0 = true /\ is_second b1 = true) \/ t_l_max t <> 3%nat \/ t_zbl t = Some None \/
   (exists a, In a species /\ ~ In a (t_atomic_numbers t)) \/ (length (t_interactions t) = 2%nat /\ (rank (t_num_channels t) (fused t) < t_num_channels t)%nat)) ->
  extract_mace_data rank inv spl t species points = None.
Proof. exact lemma_C68_shape. Qed.
Print Assumptions C68_export_refuses.

Example C68_example : extract_mace_data ex_rank ex_inv ex_spl ex_torch [1; 6]%nat 3 = None.
Proof. apply lemma_C68_shape. do 3 right. left. exists 6%nat. split; [cbn; auto|]. cbn. lia. Qed.

(** C69: which other species are exported does not matter. *)
Theorem C69_export_subset : forall rank inv spl t C, torch_ok t C -> spl_ok spl -> inv_ok rank inv -> (t_num_channels t <= rank (t_num_channels t) (fused t))%nat ->
  forall species species' points, NoDup species -> NoDup species' -> incl species (t_atomic_numbers t) -> incl species' (t_atomic_numbers t) -> (2 <= points)%nat -> 1 / 10 ^ 12 < t_r_cut t ->
  exists f f', extract_mace_data rank inv spl t species points = Some f /\ extract_mace_data rank inv spl t species' points = Some f' /\
    forall sph, sph_ok (N:=RNum) sph -> forall srt, (forall l, Permutation l (srt l)) ->
    forall hist hist' x x', List.Forall (input_ok f) hist -> List.Forall (input_ok f') hist' -> input_ok f x -> input_ok f' x' ->
    same_atoms (f_atomic_numbers f) (f_atomic_numbers f') x x' ->
    exists m c0 c1 c m' c0' c1' c', load_from_json srt f = Some (m, c0) /\ calls sph m c0 hist = Some c1 /\ call sph m c1 x = Some c /\
      load_from_json srt f' = Some (m', c0') /\ calls sph m' c0' hist' = Some c1' /\ call sph m' c1' x' = Some c' /\ b_node_energies c = b_node_energies c'.
Proof. exact lemma_C69. Qed.
Print Assumptions C69_export_subset.

(** two atoms of the second element: type 0 of the export with species 8 only, type 1 of the export of both elements *)
Example C69_example : same_atoms [8]%nat [1; 8]%nat
  (mkInput (N:=RNum) 2 [0; 0]%nat [1; 1]%nat [1; 0]%nat [0; 0]%nat [0; 0; 1; 0; 0; -1] [1; 1])
  (mkInput (N:=RNum) 2 [1; 1]%nat [1; 1]%nat [1; 0]%nat [1; 1]%nat [0; 0; 1; 0; 0; -1] [1; 1]).
Proof. repeat split. Qed.

(** C70: repeated species.  The export succeeds and the file has the right sizes, but the energies are wrong. *)
Theorem C70_repeated_species_partial : forall rank inv spl t C, torch_ok t C -> spl_ok spl -> (t_num_channels t <= rank (t_num_channels t) (fused t))%nat ->
  forall species points, species <> [] -> incl species (t_atomic_numbers t) -> (2 <= points)%nat ->
  exists f, extract_mace_data rank inv spl t species points = Some f /\ file_ok f /\ Permutation (f_atomic_numbers f) species.
Proof. exact lemma_C70. Qed.
Print Assumptions C70_repeated_species_partial.

Example C70_example : dup_species <> [] /\ incl dup_species (t_atomic_numbers dup_torch) /\ (t_num_channels dup_torch <= ex_rank (t_num_channels dup_torch) (fused dup_torch))%nat.
Proof. split; [discriminate|]. split; [intros a [<-|[<-|[<-|[]]]]; cbn; auto|apply dup_rank_ok]. Qed.

Theorem C70_repeated_species_refuted : exists rank inv spl t C, torch_ok t C /\ spl_ok spl /\ inv_ok rank inv /\ (t_num_channels t <= rank (t_num_channels t) (fused t))%nat /\
  exists species points, incl species (t_atomic_numbers t) /\ (2 <= points)%nat /\ 1 / 10 ^ 12 < t_r_cut t /\
  exists f, extract_mace_data rank inv spl t species points = Some f /\ file_ok f /\ f_atomic_numbers f = species /\
  exists sph, sph_ok (N:=RNum) sph /\ forall srt, (forall l, Permutation l (srt l)) ->
  exists el, (forall j, (j < length (f_atomic_numbers f))%nat -> (el j < length (t_atomic_numbers t))%nat /\ nth (el j) (t_atomic_numbers t) 0%nat = nth j (f_atomic_numbers f) 0%nat) /\
  exists x, input_ok f x /\ (forall r, In r (i_r x) -> 0 <= r < t_r_cut t - 1 / 10 ^ 12) /\
  exists m c0 c, load_from_json srt f = Some (m, c0) /\ call sph m c0 x = Some c /\
    b_node_energies c <> map (torch_energy sph spl points t el x) (seq 0 (i_num_nodes x)).
Proof. exact lemma_C67_duplicates. Qed.
Print Assumptions C70_repeated_species_refuted.
