(** Property C93: with an exported file, the Kokkos evaluator and the Kokkos pair style compute the energies of the PyTorch model, and their derivatives.
    Models: ExportFullModel.v, KkModel.v, KkPairModel.v, KkPairMpiModel.v, KkPairMpi2Model.v.  Vocabulary: TorchSpec.v, TorchGradSpec.v (C67, C71), KkSpec.v, KkPairSpec.v,
    KkPairMpiSpec.v, KkPairMpi2Spec.v (C54, C59, C61, C62), DistGradSpec.v. *)
From Coq Require Import String List Arith ZArith Lia Bool Permutation Sorted Reals Lra.
From Verif Require Import Base BaseLemmas Instances MlpSpec MpSpec MaceModel MaceSpec MaceSpec2 MaceExamples MaceGradSpec GradExamples ExportPolySpec EnergySpec ExportFullModel TorchSpec TorchGradSpec
  AseSpec PairModel PairMpiModel PairKokkosModel PairSpec PairExamples PairCommSpec DistSpec DistGradSpec DistExamples ExportFullExamples ExportGradExamples ExportKk2.
From Verif Require Import KkSem KkModel KkSpec KkPairModel KkPairSpec KkPairExamples KkPairMpiModel KkPairMpiSpec KkPairMpi2Model KkPairMpi2Spec.
Import ListNotations.
Local Open Scope R_scope.

(** ** C93, the file: what the exporter writes has the form the Kokkos loader relies on: tables with the same knots for all pairs, one table per unordered pair of elements, and no
    monomial with more than three factors *)
Theorem C93_export_loads_in_kokkos : forall rank inv spl t C, torch_ok t C -> spl_ok spl -> inv_ok rank inv -> (t_num_channels t <= rank (t_num_channels t) (fused t))%nat ->
  forall species points, NoDup species -> incl species (t_atomic_numbers t) -> (2 <= points)%nat -> 1 / 10 ^ 12 < t_r_cut t ->
  forall f, extract_mace_data rank inv spl t species points = Some f -> kk_file_ok f.
Proof. exact export_kk. Qed.
Print Assumptions C93_export_loads_in_kokkos.

Example C93_file_example : exists f, extract_mace_data ex_rank ex_inv ex_spl ex_torch [] 3 = Some f /\ f_atomic_numbers f = [1; 8]%nat /\ kk_file_ok f.
Proof.
  destruct ex_export as (f & E & An & _). exists f. split; [exact E|]. split; [exact An|].
  exact (C93_export_loads_in_kokkos ex_rank ex_inv ex_spl ex_torch ex_C ex_torch_ok ex_spl_ok ex_inv_ok ex_rank_ok [] 3 (NoDup_nil _) (fun a H => match H with end) (le_S _ _ (le_n 2)) ex_cut f E).
Qed.

(** ** C93, the evaluator: after any admissible calls, with any scheduler and any contents of uninitialised memory, every outcome succeeds, the node energies are those of the
    PyTorch model (with interpolated radial functions), and, where that is differentiable, the edge forces are minus its gradient.  [el] maps the elements of the file to those of the model *)
Theorem C93_kokkos_export : forall rank inv spl t C, torch_ok t C -> spl_ok spl -> inv_ok rank inv -> (t_num_channels t <= rank (t_num_channels t) (fused t))%nat -> repulsion_smooth t ->
  forall species points, NoDup species -> incl species (t_atomic_numbers t) -> (2 <= points)%nat -> 1 / 10 ^ 12 < t_r_cut t ->
  exists f, extract_mace_data rank inv spl t species points = Some f /\
  forall sph, sph_ok (N:=RNum) sph -> sph_gradient sph -> forall junk srt, (forall l, Permutation l (srt l)) ->
  forall el, (forall j, (j < List.length (f_atomic_numbers f))%nat -> (el j < List.length (t_atomic_numbers t))%nat /\ nth (el j) (t_atomic_numbers t) 0%nat = nth j (f_atomic_numbers f) 0%nat) ->
  exists km, kk_load_from_json srt f = Some km /\
  forall hist x, List.Forall (input_ok f) hist -> input_ok f x ->
  (exists mem, kk_calls sph junk km kk_fresh (hist ++ [x]) (Some mem)) /\
  forall o, kk_calls sph junk km kk_fresh (hist ++ [x]) o -> exists mem, o = Some mem /\
    firstn (i_num_nodes x) (kk_node_energies mem) = map (torch_energy sph spl points t el x) (seq 0 (i_num_nodes x)) /\
    forall y xs, x = with_xyz y xs -> regular spl points t el x -> forall p, (p < List.length xs)%nat ->
      derivable_pt_lim (fun u => torch_total sph spl points t el (with_xyz y (upd xs p u))) (nth p xs 0) (- nth p (kk_node_forces mem) 0).
Proof. exact lemma_C93_eval. Qed.
Print Assumptions C93_kokkos_export.

Example C93_evaluator_example : exists f km mem, extract_mace_data ex_rank ex_inv ex_spl ex_torch [] 3 = Some f /\ kk_load_from_json (fun l => l) f = Some km /\
  kk_calls ex_sph (fun _ _ => 7) km kk_fresh [px_in; with_xyz px_in px_D] (Some mem) /\
  firstn 3 (kk_node_energies mem) = map (torch_energy (ex_sph (N:=RNum)) ex_spl 3 ex_torch (fun j => j) px_in) [0; 1; 2]%nat /\
  forall p, (p < 24)%nat -> derivable_pt_lim (fun u => torch_total (ex_sph (N:=RNum)) ex_spl 3 ex_torch (fun j => j) (with_xyz px_in (upd px_D p u))) (nth p px_D 0) (- nth p (kk_node_forces mem) 0).
Proof.
  destruct (C93_kokkos_export ex_rank ex_inv ex_spl ex_torch ex_C ex_torch_ok ex_spl_ok ex_inv_ok ex_rank_ok ex_repulsion [] 3 (NoDup_nil _) (fun a H => match H with end) (le_S _ _ (le_n 2)) ex_cut) as (f & E & H).
  destruct ex_export as (f' & E' & An & D). rewrite E in E'. injection E' as <-.
  assert (W : with_xyz px_in px_D = px_in) by (pose proof px_with as W; rewrite px_in_eq in W at 2; exact W).
  pose proof (px_export f An D) as PX.
  destruct (H (ex_sph (N:=RNum)) ex_sph_ok ex_sph_gradient (fun _ _ => 7) (fun l => l) (fun l => Permutation_refl l) (fun j => j)) as (km & E1 & G).
  { rewrite An. intros j Hj. split; [exact Hj|reflexivity]. }
  destruct (G [px_in] (with_xyz px_in px_D) (Forall_cons _ PX (Forall_nil _))) as ((mem & Hm) & G2); [rewrite W; exact PX|].
  destruct (G2 _ Hm) as (mem' & Em & G3 & G4). injection Em as <-. exists f, km, mem. split; [exact E|]. split; [exact E1|]. split; [exact Hm|]. split.
  - rewrite W in G3. rewrite px_in_eq in G3 at 1 3. cbn [i_num_nodes seq] in G3. exact G3.
  - apply (G4 px_in px_D eq_refl). rewrite W. apply px_regular.
Qed.

(** ** C93, the pair style in mode no_domain_decomposition *)
Theorem C93_kokkos_export_serial : forall rank inv spl t C, torch_ok t C -> spl_ok spl -> inv_ok rank inv -> (t_num_channels t <= rank (t_num_channels t) (fused t))%nat -> repulsion_smooth t ->
  forall species points, NoDup species -> incl species (t_atomic_numbers t) -> (2 <= points)%nat -> 1 / 10 ^ 12 < t_r_cut t ->
  exists f, extract_mace_data rank inv spl t species points = Some f /\
  forall sph, sph_ok (N:=RNum) sph -> sph_gradient sph -> forall junk srt, (forall l, Permutation l (srt l)) ->
  forall el, (forall j, (j < List.length (f_atomic_numbers f))%nat -> (el j < List.length (t_atomic_numbers t))%nat /\ nth (el j) (t_atomic_numbers t) 0%nat = nth j (f_atomic_numbers f) 0%nat) ->
  forall arg types, coeff_types (f_atomic_numbers f) arg = Some types -> (List.length types <= List.length (f_atomic_numbers f))%nat -> forall rc : R,
  exists km mt, kk_load_from_json srt f = Some km /\ coeff_types_kk (f_atomic_numbers f) arg = Some mt /\
  forall s owner maxeatom fl l a sh pos, kp_reach sph junk km f rc types mt s -> nd_call_ok f types rc owner maxeatom fl l a -> eflag_global fl = true ->
  List.length pos = (3 * nlocal l)%nat -> atom_x l = images (nlocal l + nghost l) owner sh pos -> off_cutoff l rc -> regular spl points t el (nd_input (N:=RNum) types rc owner l) ->
  let total_at x := torch_total sph spl points t el (nd_input (N:=RNum) types rc owner (at_x l x)) in
  (exists o, kk_no_domain sph junk km rc mt maxeatom fl l s a o) /\
  forall o, kk_no_domain sph junk km rc mt maxeatom fl l s a o -> exists s' ak, o = Some (s', ak) /\
    eng_vdwl ak = eng_vdwl a + total_at (atom_x l) /\
    (forall q, (q < 3 * nlocal l)%nat ->
       derivable_pt_lim (fun u => total_at (images (nlocal l + nghost l) owner sh (upd pos q u))) (nth q pos 0) (- (nth q (force ak) 0 - nth q (force a) 0))) /\
    (vflag_global fl = true -> forall e, (forall i c, e i c = e c i) -> let v k := nth k (virial ak) 0 - nth k (virial a) 0 in
       derivable_pt_lim (fun u => total_at (strain e u (atom_x l))) 0
         (- (v 0%nat * e 0%nat 0%nat + v 1%nat * e 1%nat 1%nat + v 2%nat * e 2%nat 2%nat + 2 * (v 3%nat * e 0%nat 1%nat) + 2 * (v 4%nat * e 0%nat 2%nat) + 2 * (v 5%nat * e 1%nat 2%nat)))).
Proof. exact lemma_C93_serial. Qed.
Print Assumptions C93_kokkos_export_serial.

Example C93_serial_example : exists f km s ak, extract_mace_data ex_rank ex_inv ex_spl ex_torch [] 3 = Some f /\ kk_load_from_json (fun l => l) f = Some km /\
  kk_no_domain ex_sph (fun _ _ => 7) km px_rc [1; 0]%Z 4 px_ev kp kp_fresh px_acc (Some (s, ak)) /\
  let energy x := torch_total (ex_sph (N:=RNum)) ex_spl 3 ex_torch (fun j => j) (nd_input (N:=RNum) px_types px_rc px_owner (at_x kp x)) in
  eng_vdwl ak = eng_vdwl px_acc + energy px_x /\
  forall q, (q < 9)%nat -> derivable_pt_lim (fun u => energy (images 6 px_owner px_sh (upd px_pos q u))) (nth q px_pos 0) (- (nth q (force ak) 0 - nth q (force px_acc) 0)).
Proof.
  destruct (C93_kokkos_export_serial ex_rank ex_inv ex_spl ex_torch ex_C ex_torch_ok ex_spl_ok ex_inv_ok ex_rank_ok ex_repulsion [] 3 (NoDup_nil _) (fun a H => match H with end) (le_S _ _ (le_n 2)) ex_cut) as (f & E & H).
  destruct ex_export as (f' & E' & An & D). rewrite E in E'. injection E' as <-. rewrite An in H.
  destruct (H (ex_sph (N:=RNum)) ex_sph_ok ex_sph_gradient (fun _ _ => 7) (fun l => l) (fun l => Permutation_refl l) (fun j => j)) with (arg := ["*"; "*"; "model.json"; "O"; "H"]%string) (types := px_types) (rc := px_rc)
    as (km & mt & E1 & E2 & G).
  - intros j Hj. split; [exact Hj|reflexivity].
  - vm_compute. reflexivity.
  - cbn. lia.
  - assert (mt = [1; 0]%Z) as -> by (vm_compute in E2; congruence).
    assert (KI : input_ok f (nd_input (N:=RNum) px_types px_rc px_owner kp)).
    { change (input_ok f kp_in). rewrite kp_in_eq. constructor; rewrite ?An; try reflexivity; try (intros z Hz; cbn in Hz; cbn; lia). intros r Hr. apply D. unfold kp_r in Hr. cbn in Hr. intuition (subst; lra). }
    destruct (G kp_fresh px_owner 4%nat px_ev kp px_acc px_sh px_pos) as ((o & Ho) & G2).
    + constructor.
    + constructor; [exact kp_lok|reflexivity|exact kp_own|exact kp_acc_ok|exact KI|reflexivity|cbn; lia].
    + reflexivity.
    + reflexivity.
    + reflexivity.
    + exact kp_off.
    + apply ex_regular. change (forall r, In r (i_r kp_in) -> 0 < r <= 4). rewrite kp_in_eq. intros r Hr. unfold kp_r in Hr. cbn in Hr. intuition (subst; lra).
    + destruct (G2 o Ho) as (s & ak & -> & G3 & G4 & _). exists f, km, s, ak. split; [exact E|]. split; [exact E1|]. split; [exact Ho|]. split; [exact G3|exact G4].
Qed.

(** ** C93, the pair style in mode mpi_message_passing: any number of processes, messages through the host or on the device *)
Theorem C93_kokkos_export_mpi : forall rank inv spl t C, torch_ok t C -> spl_ok spl -> inv_ok rank inv -> (t_num_channels t <= rank (t_num_channels t) (fused t))%nat -> repulsion_smooth t ->
  forall species points, NoDup species -> incl species (t_atomic_numbers t) -> (2 <= points)%nat -> 1 / 10 ^ 12 < t_r_cut t ->
  exists f, extract_mace_data rank inv spl t species points = Some f /\
  forall sph, sph_ok (N:=RNum) sph -> sph_gradient sph -> forall junk srt, (forall l, Permutation l (srt l)) ->
  forall el, (forall j, (j < List.length (f_atomic_numbers f))%nat -> (el j < List.length (t_atomic_numbers t))%nat /\ nth (el j) (t_atomic_numbers t) 0%nat = nth j (f_atomic_numbers f) 0%nat) ->
  forall arg types, coeff_types (f_atomic_numbers f) arg = Some types -> (List.length types <= List.length (f_atomic_numbers f))%nat -> forall (rc : R) host,
  exists km mt, kk_load_from_json srt f = Some km /\ coeff_types_kk (f_atomic_numbers f) arg = Some mt /\
  forall d qs sh pos, kd_reach sph junk km f rc types mt host (map kd_st qs) -> kd_ok f rc types d qs -> eflag_global (d_fl d) = true ->
  let L := d_L d in let total_at x := torch_total sph spl points t el (nd_input (N:=RNum) types rc (d_owner d) (at_x L x)) in
  List.length pos = (3 * nlocal L)%nat -> atom_x L = images (nlocal L + nghost L) (d_owner d) sh pos -> off_cutoff L rc -> regular spl points t el (nd_input (N:=RNum) types rc (d_owner d) L) ->
  (exists o, kk_mpi_run sph junk km rc mt (d_fl d) (d_msgs d) host qs o) /\
  forall o, kk_mpi_run sph junk km rc mt (d_fl d) (d_msgs d) host qs o -> exists rs, o = Some rs /\ List.length rs = List.length qs /\
    added_energy (map kd_a qs) (map snd rs) = total_at (atom_x L) /\
    (forall i c, (i < nlocal L)%nat -> (c < 3)%nat ->
       derivable_pt_lim (fun u => total_at (images (nlocal L + nghost L) (d_owner d) sh (upd pos (3 * i + c) u))) (nth (3 * i + c) pos 0)
         (- added_force (map (fun q => atom_tag (kd_l q)) qs) (map kd_a qs) (map snd rs) (tag L i) c)) /\
    (vflag_global (d_fl d) = true -> forall e, (forall i c, e i c = e c i) -> let v := added_virial (map kd_a qs) (map snd rs) in
       derivable_pt_lim (fun u => total_at (strain e u (atom_x L))) 0
         (- (v 0%nat * e 0%nat 0%nat + v 1%nat * e 1%nat 1%nat + v 2%nat * e 2%nat 2%nat + 2 * (v 3%nat * e 0%nat 1%nat) + 2 * (v 4%nat * e 0%nat 2%nat) + 2 * (v 5%nat * e 1%nat 2%nat)))).
Proof. exact lemma_C93_mpi. Qed.
Print Assumptions C93_kokkos_export_mpi.

Example C93_mpi_example : exists f km rs, extract_mace_data ex_rank ex_inv ex_spl ex_torch [] 3 = Some f /\ kk_load_from_json (fun l => l) f = Some km /\
  let qs := [mkKD (N:=RNum) (DistExamples.lift dx_0) (dx_acc 12) 4 kpd_fresh; mkKD (DistExamples.lift dx_1) (dx_acc 9) 2 kpd_fresh] in
  kk_mpi_run ex_sph (fun _ _ => 7) km px_rc [1; 0]%Z px_ev dx_msgs false qs (Some rs) /\
  let energy x := torch_total (ex_sph (N:=RNum)) ex_spl 3 ex_torch (fun j => j) (nd_input (N:=RNum) px_types px_rc px_owner (at_x px x)) in
  added_energy [dx_acc 12; dx_acc 9] (map snd rs) = energy px_x /\
  forall i c, (i < 3)%nat -> (c < 3)%nat -> derivable_pt_lim (fun u => energy (images 6 px_owner px_sh (upd px_pos (3 * i + c) u))) (nth (3 * i + c) px_pos 0)
    (- added_force (map (fun l : lmp RNum => atom_tag l) dx_ranks) [dx_acc 12; dx_acc 9] (map snd rs) (tag px i) c).
Proof.
  destruct (C93_kokkos_export_mpi ex_rank ex_inv ex_spl ex_torch ex_C ex_torch_ok ex_spl_ok ex_inv_ok ex_rank_ok ex_repulsion [] 3 (NoDup_nil _) (fun a H => match H with end) (le_S _ _ (le_n 2)) ex_cut) as (f & E & H).
  destruct ex_export as (f' & E' & An & D). rewrite E in E'. injection E' as <-. rewrite An in H.
  destruct (H (ex_sph (N:=RNum)) ex_sph_ok ex_sph_gradient (fun _ _ => 7) (fun l => l) (fun l => Permutation_refl l) (fun j => j)) with (arg := ["*"; "*"; "model.json"; "O"; "H"]%string) (types := px_types) (rc := px_rc) (host := false)
    as (km & mt & E1 & E2 & G).
  - intros j Hj. split; [exact Hj|reflexivity].
  - vm_compute. reflexivity.
  - cbn. lia.
  - assert (mt = [1; 0]%Z) as -> by (vm_compute in E2; congruence).
    assert (T : mpi_step_ok f px_rc px_types 2 dx_step) by (destruct dx_mpi_step as [_ M1 M2]; constructor; auto; apply (dx_export _ f dx_split_mpi An D)).
    set (qs := [mkKD (N:=RNum) (DistExamples.lift dx_0) (dx_acc 12) 4 kpd_fresh; mkKD (DistExamples.lift dx_1) (dx_acc 9) 2 kpd_fresh]) in *.
    destruct (G dx_step qs px_sh px_pos (kd_new _ _ _ _ _ _ _ _ 2)) as ((o & Ho) & G2).
    + constructor; [exact T|reflexivity|reflexivity|]. intros q [<-|[<-|[]]]; cbn; lia.
    + reflexivity.
    + reflexivity.
    + reflexivity.
    + exact px_off.
    + apply px_regular.
    + destruct (G2 o Ho) as (rs & -> & _ & G3 & G4 & _). exists f, km, rs. split; [exact E|]. split; [exact E1|]. split; [exact Ho|]. split; [exact G3|exact G4].
Qed.

(** ** C93, the pair style in mode no_mpi_message_passing *)
Theorem C93_kokkos_export_no_mpi : forall rank inv spl t C, torch_ok t C -> spl_ok spl -> inv_ok rank inv -> (t_num_channels t <= rank (t_num_channels t) (fused t))%nat -> repulsion_smooth t ->
  forall species points, NoDup species -> incl species (t_atomic_numbers t) -> (2 <= points)%nat -> 1 / 10 ^ 12 < t_r_cut t ->
  exists f, extract_mace_data rank inv spl t species points = Some f /\
  forall sph, sph_ok (N:=RNum) sph -> sph_gradient sph -> forall junk srt, (forall l, Permutation l (srt l)) ->
  forall el, (forall j, (j < List.length (f_atomic_numbers f))%nat -> (el j < List.length (t_atomic_numbers t))%nat /\ nth (el j) (t_atomic_numbers t) 0%nat = nth j (f_atomic_numbers f) 0%nat) ->
  forall arg types, coeff_types (f_atomic_numbers f) arg = Some types -> (List.length types <= List.length (f_atomic_numbers f))%nat -> forall rc : R,
  exists km mt, kk_load_from_json srt f = Some km /\ coeff_types_kk (f_atomic_numbers f) arg = Some mt /\
  forall d qs sh pos, kprocs_ok sph junk km f rc types mt d qs -> eflag_global (d_fl d) = true ->
  let L := d_L d in let total_at x := torch_total sph spl points t el (nd_input (N:=RNum) types rc (d_owner d) (at_x L x)) in
  List.length pos = (3 * nlocal L)%nat -> atom_x L = images (nlocal L + nghost L) (d_owner d) sh pos -> off_cutoff L rc -> regular spl points t el (nd_input (N:=RNum) types rc (d_owner d) L) ->
  (exists os, kk_no_run sph junk km rc mt (d_fl d) qs os) /\
  forall os, kk_no_run sph junk km rc mt (d_fl d) qs os -> exists rs, os = map Some rs /\ List.length rs = List.length qs /\
    added_energy (map kq_a qs) (map snd rs) = total_at (atom_x L) /\
    (forall i c, (i < nlocal L)%nat -> (c < 3)%nat ->
       derivable_pt_lim (fun u => total_at (images (nlocal L + nghost L) (d_owner d) sh (upd pos (3 * i + c) u))) (nth (3 * i + c) pos 0)
         (- added_force (map (fun q => atom_tag (kq_l q)) qs) (map kq_a qs) (map snd rs) (tag L i) c)) /\
    (vflag_global (d_fl d) = true -> forall e, (forall i c, e i c = e c i) -> let v := added_virial (map kq_a qs) (map snd rs) in
       derivable_pt_lim (fun u => total_at (strain e u (atom_x L))) 0
         (- (v 0%nat * e 0%nat 0%nat + v 1%nat * e 1%nat 1%nat + v 2%nat * e 2%nat 2%nat + 2 * (v 3%nat * e 0%nat 1%nat) + 2 * (v 4%nat * e 0%nat 2%nat) + 2 * (v 5%nat * e 1%nat 2%nat)))).
Proof. exact lemma_C93_no_mpi. Qed.
Print Assumptions C93_kokkos_export_no_mpi.

Example C93_no_mpi_example : exists f km rs, extract_mace_data ex_rank ex_inv ex_spl ex_torch [] 3 = Some f /\ kk_load_from_json (fun l => l) f = Some km /\
  let qs := [mkKProc (DistExamples.lift dx_0) (dx_acc 12) 5 kpm_fresh; mkKProc (DistExamples.lift dx_1) (dx_acc 9) 3 kpm_fresh] in
  kk_no_run ex_sph (fun _ _ => 7) km px_rc [1; 0]%Z px_ev qs (map Some rs) /\
  let energy x := torch_total (ex_sph (N:=RNum)) ex_spl 3 ex_torch (fun j => j) (nd_input (N:=RNum) px_types px_rc px_owner (at_x px x)) in
  added_energy [dx_acc 12; dx_acc 9] (map snd rs) = energy px_x /\
  forall i c, (i < 3)%nat -> (c < 3)%nat -> derivable_pt_lim (fun u => energy (images 6 px_owner px_sh (upd px_pos (3 * i + c) u))) (nth (3 * i + c) px_pos 0)
    (- added_force (map (fun l : lmp RNum => atom_tag l) dx_ranks) [dx_acc 12; dx_acc 9] (map snd rs) (tag px i) c).
Proof.
  destruct (C93_kokkos_export_no_mpi ex_rank ex_inv ex_spl ex_torch ex_C ex_torch_ok ex_spl_ok ex_inv_ok ex_rank_ok ex_repulsion [] 3 (NoDup_nil _) (fun a H => match H with end) (le_S _ _ (le_n 2)) ex_cut) as (f & E & H).
  destruct ex_export as (f' & E' & An & D). rewrite E in E'. injection E' as <-. rewrite An in H.
  destruct (H (ex_sph (N:=RNum)) ex_sph_ok ex_sph_gradient (fun _ _ => 7) (fun l => l) (fun l => Permutation_refl l) (fun j => j)) with (arg := ["*"; "*"; "model.json"; "O"; "H"]%string) (types := px_types) (rc := px_rc)
    as (km & mt & E1 & E2 & G).
  - intros j Hj. split; [exact Hj|reflexivity].
  - vm_compute. reflexivity.
  - cbn. lia.
  - assert (mt = [1; 0]%Z) as -> by (vm_compute in E2; congruence).
    assert (T : step_ok f px_rc px_types (needed_no_mpi (N:=RNum) px_rc) 2 dx_step) by (apply (dx_export _ f dx_split_no_mpi An D)).
    set (qs := [mkKProc (DistExamples.lift dx_0) (dx_acc 12) 5 kpm_fresh; mkKProc (DistExamples.lift dx_1) (dx_acc 9) 3 kpm_fresh]) in *.
    destruct (G dx_step qs px_sh px_pos) as ((o & Ho) & G2).
    + constructor; [exact T|reflexivity|reflexivity| |].
      * intros q [<-|[<-|[]]]; cbn [kq_st]; apply kn_new.
      * intros q [<-|[<-|[]]]; cbn; lia.
    + reflexivity.
    + reflexivity.
    + reflexivity.
    + exact px_off.
    + apply px_regular.
    + destruct (G2 o Ho) as (rs & -> & _ & G3 & G4 & _). exists f, km, rs. split; [exact E|]. split; [exact E1|]. split; [exact Ho|]. split; [exact G3|exact G4].
Qed.
