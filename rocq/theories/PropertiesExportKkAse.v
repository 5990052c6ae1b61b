(** Property C95: with an exported file, the ASE calculator with the Kokkos evaluator returns the energies of the PyTorch model and their derivatives.
    Models: ExportFullModel.v, KkModel.v, KkAseModel.v.  Vocabulary: TorchSpec.v, TorchGradSpec.v, AseSpec.v, KkSpec.v, KkAseSpec.v. *)
From Coq Require Import String List Arith ZArith Lia Bool Permutation Sorted Reals Lra.
From Verif Require Import Base BaseLemmas Instances MlpSpec MpSpec MaceModel MaceSpec MaceSpec2 MaceExamples MaceGradSpec GradExamples ExportPolySpec EnergySpec ExportFullModel TorchSpec TorchGradSpec
  AseModel AseSpec AseExamples KkAseModel KkAseSpec ExportFullExamples ExportGradExamples ExportKkAse.
From Verif Require Import KkSem KkModel KkSpec.
Import ListNotations.
Local Open Scope R_scope.

(** C95: after any calls with admissible structures, with any scheduler, every outcome succeeds; 'free_energy', 'forces' and 'stress' are the total energy of the PyTorch model (with
    interpolated radial functions), minus its gradient with respect to the positions, and its derivative with respect to strain divided by the volume.  The first entries of
    'energies' are the energies of the atoms (there may be further zeros, C48).  The last atom must have a neighbour (C44). *)
Theorem C95_kokkos_export_ase : forall rank inv spl t C, torch_ok t C -> spl_ok spl -> inv_ok rank inv -> (t_num_channels t <= rank (t_num_channels t) (fused t))%nat -> repulsion_smooth t ->
  forall species points, NoDup species -> incl species (t_atomic_numbers t) -> (2 <= points)%nat -> 1 / 10 ^ 12 < t_r_cut t ->
  exists f, extract_mace_data rank inv spl t species points = Some f /\
    forall sph, sph_ok (N:=RNum) sph -> sph_gradient sph -> forall junk srt, (forall l, Permutation l (srt l)) -> exists km, kk_load_from_json srt f = Some km /\
    forall numbers types il jl, incl numbers (match species with [] => t_atomic_numbers t | _ => species end) -> species_map (t_atomic_numbers t) numbers types ->
    nl_ok (List.length numbers) il jl -> il <> [] -> S (list_max il) = List.length numbers ->
    forall hist V pos sh, List.Forall (structure_ok f) hist -> List.length pos = (3 * List.length numbers)%nat ->
    let vectors ps := nl_vectors il jl ps sh in
    let structure_at xs := mkStructure numbers (Some V) il jl (lengths3 xs) xs in
    let at_vectors xs := nl_input (N:=RNum) (List.length numbers) types il jl (lengths3 xs) xs in
    let energy xs := torch_total sph spl points t (fun z => z) (at_vectors xs) in
    structure_ok f (structure_at (vectors pos)) -> regular spl points t (fun z => z) (at_vectors (vectors pos)) ->
    (exists o, kk_session sph junk km kk_fresh hist (structure_at (vectors pos)) o) /\
    forall o, kk_session sph junk km kk_fresh hist (structure_at (vectors pos)) o -> exists mem res, o = Some (mem, Some res) /\
      firstn (List.length numbers) (res_energies res) = map (torch_energy sph spl points t (fun z => z) (at_vectors (vectors pos))) (seq 0 (List.length numbers)) /\
      res_energy res = energy (vectors pos) /\ List.length (res_forces res) = List.length pos /\
      (forall p, (p < List.length pos)%nat -> derivable_pt_lim (fun u => energy (vectors (upd pos p u))) (nth p pos 0) (- nth p (res_forces res) 0)) /\
      (V <> 0 -> forall e, (forall a c, e a c = e c a) -> exists xx yy zz yz xz xy, res_stress res = [xx; yy; zz; yz; xz; xy] /\
       derivable_pt_lim (fun s => energy (strain e s (vectors pos))) 0
         (V * (xx * e 0%nat 0%nat + yy * e 1%nat 1%nat + zz * e 2%nat 2%nat + 2 * (yz * e 1%nat 2%nat) + 2 * (xz * e 0%nat 2%nat) + 2 * (xy * e 0%nat 1%nat)))).
Proof. exact lemma_C95. Qed.
Print Assumptions C95_kokkos_export_ase.

(** three periodic atoms with eight edges, after a call with the same structure *)
Example C95_example : exists f km mem res, extract_mace_data ex_rank ex_inv ex_spl ex_torch [] 3 = Some f /\ kk_load_from_json (fun l => l) f = Some km /\
  let a := mkStructure gx_numbers (Some 2) ax_il ax_jl (lengths3 ax_D) ax_D in
  let energy D := torch_total (ex_sph (N:=RNum)) ex_spl 3 ex_torch (fun z => z) (nl_input (N:=RNum) 3 ax_types ax_il ax_jl (lengths3 D) D) in
  kk_session ex_sph (fun _ _ => 7) km kk_fresh [a] a (Some (mem, Some res)) /\ res_energy res = energy ax_D /\
  forall p, (p < 9)%nat -> derivable_pt_lim (fun u => energy (nl_vectors ax_il ax_jl (upd ax_pos p u) ax_sh)) (nth p ax_pos 0) (- nth p (res_forces res) 0).
Proof.
  destruct (C95_kokkos_export_ase ex_rank ex_inv ex_spl ex_torch ex_C ex_torch_ok ex_spl_ok ex_inv_ok ex_rank_ok ex_repulsion [] 3 (NoDup_nil _) (fun a H => match H with end) (le_S _ _ (le_n 2)) ex_cut) as (f & E & H).
  destruct ex_export as (f' & E' & An & D). rewrite E in E'. injection E' as <-.
  destruct (H (ex_sph (N:=RNum)) ex_sph_ok ex_sph_gradient (fun _ _ => 7) (fun l => l) (fun l => Permutation_refl l)) as (km & E1 & G).
  assert (OK : structure_ok f (mkStructure gx_numbers (Some 2) ax_il ax_jl (lengths3 ax_D) ax_D)).
  { exists ax_types. cbn [s_numbers s_il s_jl s_r s_xyz]. rewrite An. split; [exact gx_species|]. split; [exact ax_nl|]. intros _. change (input_ok f (with_xyz ax_x ax_D)). rewrite ax_with.
    constructor; rewrite ?An; try reflexivity; try (intros z Hz; cbn in Hz; cbn; lia). intros r Hr. apply D. unfold ax_r in Hr. cbn in Hr. intuition (subst; lra). }
  destruct (G gx_numbers ax_types ax_il ax_jl) with (hist := [mkStructure gx_numbers (Some 2) ax_il ax_jl (lengths3 ax_D) ax_D]) (V := 2) (pos := ax_pos) (sh := ax_sh) as ((o & Ho) & G2).
  - intros a Ha. change (In a [1; 8]%nat). clear - Ha. cbn in *. lia.
  - exact gx_species.
  - exact ax_nl.
  - discriminate.
  - reflexivity.
  - constructor; [exact OK|constructor].
  - reflexivity.
  - exact OK.
  - apply gx_regular.
  - destruct (G2 o Ho) as (mem & res & -> & _ & G3 & _ & G4 & _). exists f, km, mem, res. split; [exact E|]. split; [exact E1|]. split; [exact Ho|]. split; [exact G3|exact G4].
Qed.
