(** Properties C71-C73: forces, stress and virial computed with an exported file are derivatives of the energy of the PyTorch model. *)
From Coq Require Import List Arith ZArith Lia Bool Permutation Sorted Reals Lra.
From Verif Require Import Base BaseLemmas Instances MlpSpec MpSpec MaceModel MaceSpec MaceSpec2 MaceExamples MaceGradSpec GradExamples ExportPolySpec EnergySpec ExportFullModel TorchSpec TorchGradSpec
  AseModel AseSpec AseExamples PairModel PairSpec PairExamples PairMpiModel PairCommSpec DistSpec DistGradSpec DistExamples ExportForces ExportAse ExportLammps ExportFullExamples ExportGradExamples.
Import ListNotations.
Local Open Scope R_scope.

(** C71: with an exported file, the edge forces of C++ are minus the gradient of the total energy of the PyTorch model (with interpolated radial
    functions) with respect to the edge vectors, wherever the model is differentiable ([regular]). *)
Theorem C71_export_forces : forall rank inv spl t C, torch_ok t C -> spl_ok spl -> inv_ok rank inv -> (t_num_channels t <= rank (t_num_channels t) (fused t))%nat -> repulsion_smooth t ->
  forall species points, NoDup species -> incl species (t_atomic_numbers t) -> (2 <= points)%nat -> 1 / 10 ^ 12 < t_r_cut t ->
  exists f, extract_mace_data rank inv spl t species points = Some f /\
    forall sph, sph_ok (N:=RNum) sph -> sph_gradient sph -> forall srt, (forall l, Permutation l (srt l)) ->
    forall el, (forall j, (j < length (f_atomic_numbers f))%nat -> (el j < length (t_atomic_numbers t))%nat /\ nth (el j) (t_atomic_numbers t) 0%nat = nth j (f_atomic_numbers f) 0%nat) ->
    forall hist x xs, List.Forall (input_ok f) hist -> input_ok f (with_xyz x xs) -> regular spl points t el (with_xyz x xs) ->
    exists m c0 c1 c2, load_from_json srt f = Some (m, c0) /\ calls sph m c0 hist = Some c1 /\ call sph m c1 (with_xyz x xs) = Some c2 /\
      length (b_node_forces c2) = length xs /\
      forall p, (p < length xs)%nat ->
        derivable_pt_lim (fun u => torch_total sph spl points t el (with_xyz x (upd xs p u))) (nth p xs 0) (- nth p (b_node_forces c2) 0).
Proof. exact lemma_C71. Qed.
Print Assumptions C71_export_forces.

(** two elements, density normalisation, repulsion; three periodic atoms with eight edges *)
Example C71_example : exists f, extract_mace_data ex_rank ex_inv ex_spl ex_torch [] 3 = Some f /\
  exists m c0 c2, load_from_json (fun l => l) f = Some (m, c0) /\ call ex_sph m c0 (with_xyz px_in px_D) = Some c2 /\ length (b_node_forces c2) = 24%nat /\
    forall p, (p < 24)%nat -> derivable_pt_lim (fun u => torch_total (ex_sph (N:=RNum)) ex_spl 3 ex_torch (fun j => j) (with_xyz px_in (upd px_D p u))) (nth p px_D 0) (- nth p (b_node_forces c2) 0).
Proof.
  destruct (C71_export_forces ex_rank ex_inv ex_spl ex_torch ex_C ex_torch_ok ex_spl_ok ex_inv_ok ex_rank_ok ex_repulsion [] 3 (NoDup_nil _) (fun a H => match H with end) (le_S _ _ (le_n 2)) ex_cut) as (f & E & H).
  destruct ex_export as (f' & E' & An & D). rewrite E in E'. injection E' as <-. exists f. split; [exact E|].
  assert (W : with_xyz px_in px_D = px_in) by (pose proof px_with as W; rewrite px_in_eq in W at 2; exact W).
  destruct (H (ex_sph (N:=RNum)) ex_sph_ok ex_sph_gradient (fun l => l) (fun l => Permutation_refl l) (fun j => j)) with (hist := @nil (input RNum)) (x := px_in) (xs := px_D) as (m & c0 & c1 & c2 & E1 & E2 & E3 & E4 & E5).
  - rewrite An. intros j Hj. split; [exact Hj|reflexivity].
  - constructor.
  - rewrite W. apply (px_export f An D).
  - rewrite W. apply px_regular.
  - injection E2 as <-. exists m, c0, c2. split; [exact E1|]. split; [exact E3|]. split; [exact E4|exact E5].
Qed.

(** C72: the same for the ASE calculator.  'energies', 'free_energy', 'forces' and 'stress' are the energies of the atoms, their sum, minus its gradient with
    respect to the positions, and its derivative with respect to strain divided by the volume.  The last atom must have a neighbour (cf. C44). *)
Theorem C72_export_ase : forall rank inv spl t C, torch_ok t C -> spl_ok spl -> inv_ok rank inv -> (t_num_channels t <= rank (t_num_channels t) (fused t))%nat -> repulsion_smooth t ->
  forall species points, NoDup species -> incl species (t_atomic_numbers t) -> (2 <= points)%nat -> 1 / 10 ^ 12 < t_r_cut t ->
  exists f, extract_mace_data rank inv spl t species points = Some f /\
    forall sph, sph_ok (N:=RNum) sph -> sph_gradient sph -> forall srt, (forall l, Permutation l (srt l)) ->
    forall numbers types il jl, incl numbers (match species with [] => t_atomic_numbers t | _ => species end) -> species_map (t_atomic_numbers t) numbers types ->
    nl_ok (length numbers) il jl -> il <> [] -> S (list_max il) = length numbers ->
    forall hist V pos sh, List.Forall (input_ok f) hist -> length pos = (3 * length numbers)%nat ->
    let at_vectors xs := nl_input (N:=RNum) (length numbers) types il jl (lengths3 xs) xs in
    let at_positions ps := at_vectors (nl_vectors il jl ps sh) in
    let energy := torch_total sph spl points t (fun z => z) in
    regular spl points t (fun z => z) (at_positions pos) ->
    exists m b0 bh b1 res, load_from_json srt f = Some (m, b0) /\ calls sph m b0 hist = Some bh /\
      calculate sph m bh numbers (Some V) il jl (lengths3 (nl_vectors il jl pos sh)) (nl_vectors il jl pos sh) = Some (b1, res) /\
      res_energies res = map (torch_energy sph spl points t (fun z => z) (at_positions pos)) (seq 0 (length numbers)) /\
      res_energy res = energy (at_positions pos) /\
      (length (res_forces res) = length pos /\
       forall p, (p < length pos)%nat -> derivable_pt_lim (fun u => energy (at_positions (upd pos p u))) (nth p pos 0) (- nth p (res_forces res) 0)) /\
      (V <> 0 -> forall e, (forall a c, e a c = e c a) -> exists xx yy zz yz xz xy, res_stress res = [xx; yy; zz; yz; xz; xy] /\
       derivable_pt_lim (fun s => energy (at_vectors (strain e s (nl_vectors il jl pos sh)))) 0
         (V * (xx * e 0%nat 0%nat + yy * e 1%nat 1%nat + zz * e 2%nat 2%nat + 2 * (yz * e 1%nat 2%nat) + 2 * (xz * e 0%nat 2%nat) + 2 * (xy * e 0%nat 1%nat)))).
Proof. exact lemma_C72. Qed.
Print Assumptions C72_export_ase.

Example C72_example : exists f, extract_mace_data ex_rank ex_inv ex_spl ex_torch [] 3 = Some f /\
  let energy D := torch_total (ex_sph (N:=RNum)) ex_spl 3 ex_torch (fun z => z) (nl_input (N:=RNum) 3 ax_types ax_il ax_jl (lengths3 D) D) in
  exists m b0 b1 res, load_from_json (fun l => l) f = Some (m, b0) /\
    calculate ex_sph m b0 gx_numbers (Some 2) ax_il ax_jl (lengths3 ax_D) ax_D = Some (b1, res) /\ res_energy res = energy ax_D /\
    forall p, (p < 9)%nat -> derivable_pt_lim (fun u => energy (nl_vectors ax_il ax_jl (upd ax_pos p u) ax_sh)) (nth p ax_pos 0) (- nth p (res_forces res) 0).
Proof.
  destruct (C72_export_ase ex_rank ex_inv ex_spl ex_torch ex_C ex_torch_ok ex_spl_ok ex_inv_ok ex_rank_ok ex_repulsion [] 3 (NoDup_nil _) (fun a H => match H with end) (le_S _ _ (le_n 2)) ex_cut) as (f & E & H).
  exists f. split; [exact E|]. cbv zeta.
  destruct (H (ex_sph (N:=RNum)) ex_sph_ok ex_sph_gradient (fun l => l) (fun l => Permutation_refl l) gx_numbers ax_types ax_il ax_jl) with (hist := @nil (input RNum)) (V := 2) (pos := ax_pos) (sh := ax_sh)
    as (m & b0 & bh & b1 & res & E1 & E2 & E3 & _ & E5 & (_ & E6) & _).
  - intros a Ha. change (In a [1; 8]%nat). clear - Ha. cbn in *. lia.
  - exact gx_species.
  - exact ax_nl.
  - discriminate.
  - reflexivity.
  - constructor.
  - reflexivity.
  - apply gx_regular.
  - injection E2 as <-. exists m, b0, b1, res. split; [exact E1|]. split; [exact E3|]. split; [exact E5|exact E6].
Qed.

(** C73: the same for the LAMMPS pair style in mode no_domain_decomposition. [types] maps atom types to species of the file, [el] those to elements of the model. *)
Theorem C73_export_lammps_serial : forall rank inv spl t C, torch_ok t C -> spl_ok spl -> inv_ok rank inv -> (t_num_channels t <= rank (t_num_channels t) (fused t))%nat -> repulsion_smooth t ->
  forall species points, NoDup species -> incl species (t_atomic_numbers t) -> (2 <= points)%nat -> 1 / 10 ^ 12 < t_r_cut t ->
  exists f, extract_mace_data rank inv spl t species points = Some f /\
    forall sph, sph_ok (N:=RNum) sph -> sph_gradient sph -> forall srt, (forall l, Permutation l (srt l)) ->
    forall el, (forall j, (j < length (f_atomic_numbers f))%nat -> (el j < length (t_atomic_numbers t))%nat /\ nth (el j) (t_atomic_numbers t) 0%nat = nth j (f_atomic_numbers f) 0%nat) ->
    forall types (rc : R) l owner, lmp_ok (length types) (ilist l) l -> owner_ok owner l ->
    forall hist fl p (a : accum RNum) sh pos, List.Forall (input_ok f) hist -> vflag_atom fl = false -> eflag_global fl = true -> acc_ok l a ->
    length pos = (3 * nlocal l)%nat -> atom_x l = images (nlocal l + nghost l) owner sh pos -> off_cutoff l rc ->
    input_ok f (nd_input (N:=RNum) types rc owner l) -> regular spl points t el (nd_input (N:=RNum) types rc owner l) ->
    let total_at x := torch_total sph spl points t el (nd_input (N:=RNum) types rc owner (at_x l x)) in
    exists m b0 bh b1 p1 a1, load_from_json srt f = Some (m, b0) /\ calls sph m b0 hist = Some bh /\
      compute_no_domain_decomposition sph m rc types fl l bh p a = Some (b1, p1, a1) /\
      b_node_energies b1 = map (torch_energy sph spl points t el (nd_input (N:=RNum) types rc owner l)) (seq 0 (length (ilist l))) /\
      eng_vdwl a1 = eng_vdwl a + total_at (atom_x l) /\
      (forall q, (q < 3 * nlocal l)%nat ->
         derivable_pt_lim (fun u => total_at (images (nlocal l + nghost l) owner sh (upd pos q u))) (nth q pos 0) (- (nth q (force a1) 0 - nth q (force a) 0))) /\
      (vflag_global fl = true -> forall e, (forall i c, e i c = e c i) -> let v k := nth k (virial a1) 0 - nth k (virial a) 0 in
         derivable_pt_lim (fun u => total_at (strain e u (atom_x l))) 0
           (- (v 0%nat * e 0%nat 0%nat + v 1%nat * e 1%nat 1%nat + v 2%nat * e 2%nat 2%nat + 2 * (v 3%nat * e 0%nat 1%nat) + 2 * (v 4%nat * e 0%nat 2%nat) + 2 * (v 5%nat * e 1%nat 2%nat)))).
Proof. exact lemma_C73_serial. Qed.
Print Assumptions C73_export_lammps_serial.

Example C73_serial_example : exists f, extract_mace_data ex_rank ex_inv ex_spl ex_torch [] 3 = Some f /\
  let energy x := torch_total (ex_sph (N:=RNum)) ex_spl 3 ex_torch (fun j => j) (nd_input (N:=RNum) px_types px_rc px_owner (at_x px x)) in
  forall p, exists m b0 b1 p1 a1, load_from_json (fun l => l) f = Some (m, b0) /\
    compute_no_domain_decomposition (ex_sph (N:=RNum)) m px_rc px_types px_ev px b0 p px_acc = Some (b1, p1, a1) /\ eng_vdwl a1 = eng_vdwl px_acc + energy px_x /\
    forall q, (q < 9)%nat -> derivable_pt_lim (fun u => energy (images 6 px_owner px_sh (upd px_pos q u))) (nth q px_pos 0) (- (nth q (force a1) 0 - nth q (force px_acc) 0)).
Proof.
  destruct (C73_export_lammps_serial ex_rank ex_inv ex_spl ex_torch ex_C ex_torch_ok ex_spl_ok ex_inv_ok ex_rank_ok ex_repulsion [] 3 (NoDup_nil _) (fun a H => match H with end) (le_S _ _ (le_n 2)) ex_cut) as (f & E & H).
  destruct ex_export as (f' & E' & An & D). rewrite E in E'. injection E' as <-. exists f. split; [exact E|]. cbv zeta. intros p.
  destruct (H (ex_sph (N:=RNum)) ex_sph_ok ex_sph_gradient (fun l => l) (fun l => Permutation_refl l) (fun j => j)) with (types := px_types) (rc := px_rc) (l := px) (owner := px_owner) (hist := @nil (input RNum)) (fl := px_ev) (p := p) (a := px_acc) (sh := px_sh) (pos := px_pos)
    as (m & b0 & bh & b1 & p1 & a1 & E1 & E2 & E3 & _ & E5 & E6 & _).
  - rewrite An. intros j Hj. split; [exact Hj|reflexivity].
  - exact px_lok.
  - exact px_own.
  - constructor.
  - reflexivity.
  - reflexivity.
  - exact px_acc_ok.
  - reflexivity.
  - reflexivity.
  - exact px_off.
  - apply (px_export f An D).
  - apply px_regular.
  - injection E2 as <-. exists m, b0, b1, p1, a1. split; [exact E1|]. split; [exact E3|]. split; [exact E5|exact E6].
Qed.

(** C73, mode mpi_message_passing: any number of processes, any division of the atoms, after any number of steps. *)
Theorem C73_export_lammps_mpi : forall rank inv spl t C, torch_ok t C -> spl_ok spl -> inv_ok rank inv -> (t_num_channels t <= rank (t_num_channels t) (fused t))%nat -> repulsion_smooth t ->
  forall species points, NoDup species -> incl species (t_atomic_numbers t) -> (2 <= points)%nat -> 1 / 10 ^ 12 < t_r_cut t ->
  exists f, extract_mace_data rank inv spl t species points = Some f /\
    forall sph, sph_ok (N:=RNum) sph -> sph_gradient sph -> forall srt, (forall l, Permutation l (srt l)) ->
    forall el, (forall j, (j < length (f_atomic_numbers f))%nat -> (el j < length (t_atomic_numbers t))%nat /\ nth (el j) (t_atomic_numbers t) 0%nat = nth j (f_atomic_numbers f) 0%nat) ->
    forall types (rc : R) P ts st_ pbs sh pos, List.Forall (mpi_step_ok f rc types P) ts -> mpi_step_ok f rc types P st_ -> length pbs = P ->
    let L := d_L st_ in let input_at l := nd_input (N:=RNum) types rc (d_owner st_) l in
    eflag_global (d_fl st_) = true -> length pos = (3 * nlocal L)%nat -> atom_x L = images (nlocal L + nghost L) (d_owner st_) sh pos -> off_cutoff L rc ->
    regular spl points t el (input_at L) ->
    exists m b0 s qs, load_from_json srt f = Some (m, b0) /\
      mpi_steps sph m rc types ts (map (fun pb => (b0, pb)) pbs) = Some s /\
      mpi_run (N:=RNum) sph m rc types (d_fl st_) (d_msgs st_) (procs st_ s) = Some qs /\ length qs = P /\
      (forall r l q i j, nth_error (d_ranks st_) r = Some l -> nth_error qs r = Some q -> (i < nlocal l)%nat -> (j < nlocal L)%nat -> tag l i = tag L j ->
         nth (position i (ilist l)) (b_node_energies (pr_b q)) 0 = torch_energy sph spl points t el (input_at L) (position j (ilist L))) /\
      added_energy (d_acc st_) (map (fun q => pr_a q) qs) = torch_total sph spl points t el (input_at L) /\
      forall i c, (i < nlocal L)%nat -> (c < 3)%nat ->
        derivable_pt_lim (fun u => torch_total sph spl points t el (input_at (at_x L (images (nlocal L + nghost L) (d_owner st_) sh (upd pos (3 * i + c) u))))) (nth (3 * i + c) pos 0)
          (- added_force (map (fun l : lmp RNum => atom_tag l) (d_ranks st_)) (d_acc st_) (map (fun q => pr_a q) qs) (tag L i) c).
Proof. exact lemma_C73_mpi. Qed.
Print Assumptions C73_export_lammps_mpi.

(** two processes, three atoms, second of two steps *)
Example C73_mpi_example : exists f, extract_mace_data ex_rank ex_inv ex_spl ex_torch [] 3 = Some f /\
  let energy x := torch_total (ex_sph (N:=RNum)) ex_spl 3 ex_torch (fun j => j) (nd_input (N:=RNum) px_types px_rc px_owner (at_x px x)) in
  forall pb0 pb1, exists m b0 s qs, load_from_json (fun l => l) f = Some (m, b0) /\
    mpi_steps ex_sph m px_rc px_types [dx_step] [(b0, pb0); (b0, pb1)] = Some s /\
    mpi_run (N:=RNum) ex_sph m px_rc px_types px_ev dx_msgs (procs dx_step s) = Some qs /\
    added_energy (d_acc dx_step) (map (fun q => pr_a q) qs) = energy px_x /\
    forall i c, (i < 3)%nat -> (c < 3)%nat -> derivable_pt_lim (fun u => energy (images 6 px_owner px_sh (upd px_pos (3 * i + c) u))) (nth (3 * i + c) px_pos 0)
      (- added_force (map (fun l : lmp RNum => atom_tag l) dx_ranks) (d_acc dx_step) (map (fun q => pr_a q) qs) (tag px i) c).
Proof.
  destruct (C73_export_lammps_mpi ex_rank ex_inv ex_spl ex_torch ex_C ex_torch_ok ex_spl_ok ex_inv_ok ex_rank_ok ex_repulsion [] 3 (NoDup_nil _) (fun a H => match H with end) (le_S _ _ (le_n 2)) ex_cut) as (f & E & H).
  destruct ex_export as (f' & E' & An & D). rewrite E in E'. injection E' as <-. exists f. split; [exact E|]. cbv zeta. intros pb0 pb1.
  assert (T : mpi_step_ok f px_rc px_types 2 dx_step).
  { destruct dx_mpi_step as [_ M1 M2]. constructor; auto. apply (dx_export _ f dx_split_mpi An D). }
  destruct (H (ex_sph (N:=RNum)) ex_sph_ok ex_sph_gradient (fun l => l) (fun l => Permutation_refl l) (fun j => j)) with (types := px_types) (rc := px_rc) (P := 2%nat) (ts := [dx_step]) (st_ := dx_step) (pbs := [pb0; pb1]) (sh := px_sh) (pos := px_pos)
    as (m & b0 & s & qs & E1 & E2 & E3 & _ & _ & E5 & E6).
  - rewrite An. intros j Hj. split; [exact Hj|reflexivity].
  - constructor; [exact T|constructor].
  - exact T.
  - reflexivity.
  - reflexivity.
  - reflexivity.
  - reflexivity.
  - exact px_off.
  - apply px_regular.
  - exists m, b0, s, qs. split; [exact E1|]. split; [exact E2|]. split; [exact E3|]. split; [exact E5|exact E6].
Qed.

(** C73, mode no_mpi_message_passing *)
Theorem C73_export_lammps_no_mpi : forall rank inv spl t C, torch_ok t C -> spl_ok spl -> inv_ok rank inv -> (t_num_channels t <= rank (t_num_channels t) (fused t))%nat -> repulsion_smooth t ->
  forall species points, NoDup species -> incl species (t_atomic_numbers t) -> (2 <= points)%nat -> 1 / 10 ^ 12 < t_r_cut t ->
  exists f, extract_mace_data rank inv spl t species points = Some f /\
    forall sph, sph_ok (N:=RNum) sph -> sph_gradient sph -> forall srt, (forall l, Permutation l (srt l)) ->
    forall el, (forall j, (j < length (f_atomic_numbers f))%nat -> (el j < length (t_atomic_numbers t))%nat /\ nth (el j) (t_atomic_numbers t) 0%nat = nth j (f_atomic_numbers f) 0%nat) ->
    forall types (rc : R) P ts st_ pbs sh pos, List.Forall (step_ok f rc types (needed_no_mpi (N:=RNum) rc) P) ts -> step_ok f rc types (needed_no_mpi (N:=RNum) rc) P st_ -> length pbs = P ->
    let L := d_L st_ in let input_at l := nd_input (N:=RNum) types rc (d_owner st_) l in
    eflag_global (d_fl st_) = true -> length pos = (3 * nlocal L)%nat -> atom_x L = images (nlocal L + nghost L) (d_owner st_) sh pos -> off_cutoff L rc ->
    regular spl points t el (input_at L) ->
    exists m b0 s qs, load_from_json srt f = Some (m, b0) /\
      no_mpi_steps sph m rc types ts (map (fun pb => (b0, pb)) pbs) = Some s /\
      no_mpi_run sph m rc types (d_fl st_) (procs st_ s) = Some qs /\ length qs = P /\
      (forall r l q i j, nth_error (d_ranks st_) r = Some l -> nth_error qs r = Some q -> (i < nlocal l)%nat -> (j < nlocal L)%nat -> tag l i = tag L j ->
         nth (position i (ilist l)) (b_node_energies (pr_b q)) 0 = torch_energy sph spl points t el (input_at L) (position j (ilist L))) /\
      added_energy (d_acc st_) (map (fun q => pr_a q) qs) = torch_total sph spl points t el (input_at L) /\
      forall i c, (i < nlocal L)%nat -> (c < 3)%nat ->
        derivable_pt_lim (fun u => torch_total sph spl points t el (input_at (at_x L (images (nlocal L + nghost L) (d_owner st_) sh (upd pos (3 * i + c) u))))) (nth (3 * i + c) pos 0)
          (- added_force (map (fun l : lmp RNum => atom_tag l) (d_ranks st_)) (d_acc st_) (map (fun q => pr_a q) qs) (tag L i) c).
Proof. exact lemma_C73_no_mpi. Qed.
Print Assumptions C73_export_lammps_no_mpi.

Example C73_no_mpi_example : exists f, extract_mace_data ex_rank ex_inv ex_spl ex_torch [] 3 = Some f /\
  let energy x := torch_total (ex_sph (N:=RNum)) ex_spl 3 ex_torch (fun j => j) (nd_input (N:=RNum) px_types px_rc px_owner (at_x px x)) in
  forall pb0 pb1, exists m b0 s qs, load_from_json (fun l => l) f = Some (m, b0) /\
    no_mpi_steps ex_sph m px_rc px_types [dx_step] [(b0, pb0); (b0, pb1)] = Some s /\
    no_mpi_run ex_sph m px_rc px_types px_ev (procs dx_step s) = Some qs /\
    added_energy (d_acc dx_step) (map (fun q => pr_a q) qs) = energy px_x /\
    forall i c, (i < 3)%nat -> (c < 3)%nat -> derivable_pt_lim (fun u => energy (images 6 px_owner px_sh (upd px_pos (3 * i + c) u))) (nth (3 * i + c) px_pos 0)
      (- added_force (map (fun l : lmp RNum => atom_tag l) dx_ranks) (d_acc dx_step) (map (fun q => pr_a q) qs) (tag px i) c).
Proof.
  destruct (C73_export_lammps_no_mpi ex_rank ex_inv ex_spl ex_torch ex_C ex_torch_ok ex_spl_ok ex_inv_ok ex_rank_ok ex_repulsion [] 3 (NoDup_nil _) (fun a H => match H with end) (le_S _ _ (le_n 2)) ex_cut) as (f & E & H).
  destruct ex_export as (f' & E' & An & D). rewrite E in E'. injection E' as <-. exists f. split; [exact E|]. cbv zeta. intros pb0 pb1.
  assert (T : step_ok f px_rc px_types (needed_no_mpi (N:=RNum) px_rc) 2 dx_step) by (apply (dx_export _ f dx_split_no_mpi An D)).
  destruct (H (ex_sph (N:=RNum)) ex_sph_ok ex_sph_gradient (fun l => l) (fun l => Permutation_refl l) (fun j => j)) with (types := px_types) (rc := px_rc) (P := 2%nat) (ts := [dx_step]) (st_ := dx_step) (pbs := [pb0; pb1]) (sh := px_sh) (pos := px_pos)
    as (m & b0 & s & qs & E1 & E2 & E3 & _ & _ & E5 & E6).
  - rewrite An. intros j Hj. split; [exact Hj|reflexivity].
  - constructor; [exact T|constructor].
  - exact T.
  - reflexivity.
  - reflexivity.
  - reflexivity.
  - reflexivity.
  - exact px_off.
  - apply px_regular.
  - exists m, b0, s, qs. split; [exact E1|]. split; [exact E2|]. split; [exact E3|]. split; [exact E5|exact E6].
Qed.
