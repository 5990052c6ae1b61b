(** Property C92: forces and virial of the Kokkos pair style in the distributed modes are derivatives of the energy it computes.
    Models: KkPairMpiModel.v, KkPairMpi2Model.v.  Vocabulary: KkDistGradSpec.v, DistGradSpec.v, and that of C61, C62. *)
From Coq Require Import String List Arith ZArith Permutation Reals Lra Lia.
From Verif Require Import Base BaseLemmas Instances MaceModel MaceSpec MaceSpec2 MaceExamples MaceGradSpec GradExamples AseSpec
  PairModel PairMpiModel PairKokkosModel PairSpec PairCommSpec PairExamples DistSpec DistGradSpec DistExamples.
From Verif Require Import KkSem KkModel KkSpec KkExamples KkPairModel KkPairSpec KkPairExamples KkPairMpiModel KkPairMpiSpec KkPairMpi2Model KkPairMpi2Spec KkDistGradSpec KkDistGrad.
Import ListNotations.
Local Open Scope R_scope.

(** ** C92, mode mpi_message_passing, messages through the host or on the device.  The atoms of the serial system [d_L t] are shared by the processes [qs], whose objects have
    seen any admissible calls.  Every outcome of the step succeeds; the sum of what it adds to the forces on an atom and all its ghosts, on all processes, is minus the derivative of
    the energy that every outcome of the displaced step adds in total; the same for the virial (order xx, yy, zz, xy, xz, yz) and symmetric strains *)
Theorem C92_kokkos_mpi_gradients : forall sph, sph_ok (N:=RNum) sph -> sph_gradient sph -> forall junk srt, (forall l, Permutation l (srt l)) ->
  forall f, file_ok f -> kk_file_ok f -> smooth_ok f -> forall arg types, NoDup (f_atomic_numbers f) ->
  coeff_types (f_atomic_numbers f) arg = Some types -> (List.length types <= List.length (f_atomic_numbers f))%nat ->
  forall (rc : R) t, off_cutoff (d_L t) rc -> smooth_at f (nd_input types rc (d_owner t) (d_L t)) (i_xyz (nd_input types rc (d_owner t) (d_L t))) -> eflag_global (d_fl t) = true ->
  forall host, exists km mt, kk_load_from_json srt f = Some km /\ coeff_types_kk (f_atomic_numbers f) arg = Some mt /\
  forall qs, kd_reach sph junk km f rc types mt host (map kd_st qs) -> kd_ok f rc types t qs -> (forall q, In q qs -> off_cutoff_at (needed_mpi (kd_l q)) (kd_l q) rc) ->
  (exists o, kk_mpi_run sph junk km rc mt (d_fl t) (d_msgs t) host qs o) /\
  forall o, kk_mpi_run sph junk km rc mt (d_fl t) (d_msgs t) host qs o -> exists rs, o = Some rs /\ List.length rs = List.length qs /\
  (forall i c, (i < nlocal (d_L t))%nat -> (c < 3)%nat -> exists E del, 0 < del /\
     (forall u, Rabs u < del -> let qu := map (kd_moved (displaced (tag (d_L t) i) c u)) qs in
        (exists o', kk_mpi_run sph junk km rc mt (d_fl t) (d_msgs t) host qu o') /\
        forall o', kk_mpi_run sph junk km rc mt (d_fl t) (d_msgs t) host qu o' -> exists rs', o' = Some rs' /\ List.length rs' = List.length qs /\ E u = added_energy (map kd_a qs) (map snd rs')) /\
     derivable_pt_lim E 0 (- added_force (map (fun q => atom_tag (kd_l q)) qs) (map kd_a qs) (map snd rs) (tag (d_L t) i) c)) /\
  (forall e, vflag_global (d_fl t) = true -> (forall i c, e i c = e c i) -> exists E del, 0 < del /\
     (forall u, Rabs u < del -> let qu := map (kd_moved (strained e u)) qs in
        (exists o', kk_mpi_run sph junk km rc mt (d_fl t) (d_msgs t) host qu o') /\
        forall o', kk_mpi_run sph junk km rc mt (d_fl t) (d_msgs t) host qu o' -> exists rs', o' = Some rs' /\ List.length rs' = List.length qs /\ E u = added_energy (map kd_a qs) (map snd rs')) /\
     let v := added_virial (map kd_a qs) (map snd rs) in
     derivable_pt_lim E 0 (- (v 0%nat * e 0%nat 0%nat + v 1%nat * e 1%nat 1%nat + v 2%nat * e 2%nat 2%nat
                                + 2 * (v 3%nat * e 0%nat 1%nat) + 2 * (v 4%nat * e 0%nat 2%nat) + 2 * (v 5%nat * e 1%nat 2%nat)))).
Proof. exact lemma_C92_mpi. Qed.
Print Assumptions C92_kokkos_mpi_gradients.

(** the y-component of the force on the atom with tag 12, copies on both processes: fresh objects, two processes *)
Example C92_mpi_example : exists km rs E del, kk_load_from_json (fun l => l) (ex_file (N:=RNum)) = Some km /\
  let qs := [mkKD (N:=RNum) (DistExamples.lift dx_0) (dx_acc 12) 4 kpd_fresh; mkKD (DistExamples.lift dx_1) (dx_acc 9) 2 kpd_fresh] in
  kk_mpi_run ex_sph (fun _ _ => 7) km px_rc [1; 0]%Z px_ev dx_msgs false qs (Some rs) /\ 0 < del /\
  (forall u, Rabs u < del -> exists rs', kk_mpi_run ex_sph (fun _ _ => 7) km px_rc [1; 0]%Z px_ev dx_msgs false (map (kd_moved (displaced 12 1 u)) qs) (Some rs') /\
     E u = added_energy [dx_acc 12; dx_acc 9] (map snd rs')) /\
  let f r k := nth (3 * k + 1) (force (nth r (map snd rs) DistGradSpec.no_acc)) 0 - 3 in
  derivable_pt_lim E 0 (- total (map (fun z => f (fst z) (snd z)) [(0, 1); (0, 3); (0, 4); (0, 7); (1, 0); (1, 6); (1, 7)]%nat)).
Proof.
  destruct (C92_kokkos_mpi_gradients (ex_sph (N:=RNum)) ex_sph_ok ex_sph_gradient (fun _ _ => 7) (fun l => l) (fun l => Permutation_refl l) ex_file ex_file_ok ex_kk_file_ok ex_smooth
    kp_arg px_types kp_nodup kp_types (le_n _) px_rc dx_step px_off px_smooth_at eq_refl false) as (km & mt & E1 & E2 & H).
  assert (mt = [1; 0]%Z) as -> by (vm_compute in E2; congruence).
  set (qs := [mkKD (N:=RNum) (DistExamples.lift dx_0) (dx_acc 12) 4 kpd_fresh; mkKD (DistExamples.lift dx_1) (dx_acc 9) 2 kpd_fresh]) in *.
  destruct (H qs (kd_new _ _ _ _ _ _ _ _ 2)) as ((o & Ho) & G).
  { constructor; [exact dx_mpi_step|reflexivity|reflexivity|]. intros q [<-|[<-|[]]]; cbn; lia. }
  { intros q [<-|[<-|[]]]; apply dx_off; [left|right; left]; reflexivity. }
  destruct (G o Ho) as (rs & -> & _ & G1 & _). destruct (G1 1%nat 1%nat ltac:(cbn; lia) ltac:(lia)) as (E & del & D1 & D2 & D3).
  exists km, rs, E, del. split; [exact E1|]. cbv zeta. split; [exact Ho|]. split; [exact D1|]. split.
  - intros u Hu. destruct (D2 u Hu) as ((o' & Ho') & D4). destruct (D4 o' Ho') as (rs' & -> & _ & D5). exists rs'. split; [exact Ho'|exact D5].
  - match type of D3 with derivable_pt_lim _ _ ?v => match goal with |- derivable_pt_lim _ _ ?w => replace w with v; [exact D3|] end end. f_equal.
Qed.

(** ** C92, mode no_mpi_message_passing: each process with its own earlier calls and its own scheduler *)
Theorem C92_kokkos_no_mpi_gradients : forall sph, sph_ok (N:=RNum) sph -> sph_gradient sph -> forall junk srt, (forall l, Permutation l (srt l)) ->
  forall f, file_ok f -> kk_file_ok f -> smooth_ok f -> forall arg types, NoDup (f_atomic_numbers f) ->
  coeff_types (f_atomic_numbers f) arg = Some types -> (List.length types <= List.length (f_atomic_numbers f))%nat ->
  forall (rc : R) t, off_cutoff (d_L t) rc -> smooth_at f (nd_input types rc (d_owner t) (d_L t)) (i_xyz (nd_input types rc (d_owner t) (d_L t))) -> eflag_global (d_fl t) = true ->
  exists km mt, kk_load_from_json srt f = Some km /\ coeff_types_kk (f_atomic_numbers f) arg = Some mt /\
  forall qs, kprocs_ok sph junk km f rc types mt t qs -> (forall q, In q qs -> off_cutoff_at (needed_no_mpi (N:=RNum) rc (kq_l q)) (kq_l q) rc) ->
  (exists os, kk_no_run sph junk km rc mt (d_fl t) qs os) /\
  forall os, kk_no_run sph junk km rc mt (d_fl t) qs os -> exists rs, os = map Some rs /\ List.length rs = List.length qs /\
  (forall i c, (i < nlocal (d_L t))%nat -> (c < 3)%nat -> exists E del, 0 < del /\
     (forall u, Rabs u < del -> let qu := map (kq_moved (displaced (tag (d_L t) i) c u)) qs in
        (exists os', kk_no_run sph junk km rc mt (d_fl t) qu os') /\
        forall os', kk_no_run sph junk km rc mt (d_fl t) qu os' -> exists rs', os' = map Some rs' /\ List.length rs' = List.length qs /\ E u = added_energy (map kq_a qs) (map snd rs')) /\
     derivable_pt_lim E 0 (- added_force (map (fun q => atom_tag (kq_l q)) qs) (map kq_a qs) (map snd rs) (tag (d_L t) i) c)) /\
  (forall e, vflag_global (d_fl t) = true -> (forall i c, e i c = e c i) -> exists E del, 0 < del /\
     (forall u, Rabs u < del -> let qu := map (kq_moved (strained e u)) qs in
        (exists os', kk_no_run sph junk km rc mt (d_fl t) qu os') /\
        forall os', kk_no_run sph junk km rc mt (d_fl t) qu os' -> exists rs', os' = map Some rs' /\ List.length rs' = List.length qs /\ E u = added_energy (map kq_a qs) (map snd rs')) /\
     let v := added_virial (map kq_a qs) (map snd rs) in
     derivable_pt_lim E 0 (- (v 0%nat * e 0%nat 0%nat + v 1%nat * e 1%nat 1%nat + v 2%nat * e 2%nat 2%nat
                                + 2 * (v 3%nat * e 0%nat 1%nat) + 2 * (v 4%nat * e 0%nat 2%nat) + 2 * (v 5%nat * e 1%nat 2%nat)))).
Proof. exact lemma_C92_no_mpi. Qed.
Print Assumptions C92_kokkos_no_mpi_gradients.

Example C92_no_mpi_example : exists km rs E del, kk_load_from_json (fun l => l) (ex_file (N:=RNum)) = Some km /\
  let qs := [mkKProc (DistExamples.lift dx_0) (dx_acc 12) 5 kpm_fresh; mkKProc (DistExamples.lift dx_1r) (dx_acc 9) 3 kpm_fresh] in
  kk_no_run ex_sph (fun _ _ => 7) km px_rc [1; 0]%Z px_ev qs (map Some rs) /\ 0 < del /\
  (forall u, Rabs u < del -> exists rs', kk_no_run ex_sph (fun _ _ => 7) km px_rc [1; 0]%Z px_ev (map (kq_moved (strained (fun _ _ => 1) u)) qs) (map Some rs') /\
     E u = added_energy [dx_acc 12; dx_acc 9] (map snd rs')) /\
  let v := added_virial [dx_acc 12; dx_acc 9] (map snd rs) in
  derivable_pt_lim E 0 (- (v 0%nat + v 1%nat + v 2%nat + 2 * v 3%nat + 2 * v 4%nat + 2 * v 5%nat)).
Proof.
  destruct (C92_kokkos_no_mpi_gradients (ex_sph (N:=RNum)) ex_sph_ok ex_sph_gradient (fun _ _ => 7) (fun l => l) (fun l => Permutation_refl l) ex_file ex_file_ok ex_kk_file_ok ex_smooth
    kp_arg px_types kp_nodup kp_types (le_n _) px_rc dx_step_r px_off px_smooth_at eq_refl) as (km & mt & E1 & E2 & H).
  assert (mt = [1; 0]%Z) as -> by (vm_compute in E2; congruence).
  set (qs := [mkKProc (DistExamples.lift dx_0) (dx_acc 12) 5 kpm_fresh; mkKProc (DistExamples.lift dx_1r) (dx_acc 9) 3 kpm_fresh]) in *.
  destruct (H qs) as ((o & Ho) & G).
  { constructor; [exact dx_no_step_r|reflexivity|reflexivity| |].
    - intros q [<-|[<-|[]]]; cbn [kq_st]; apply kn_new.
    - intros q [<-|[<-|[]]]; cbn; lia. }
  { intros q [<-|[<-|[]]]; apply dx_off_r; [left|right; left]; reflexivity. }
  destruct (G o Ho) as (rs & -> & _ & _ & G1). destruct (G1 (fun _ _ => 1) eq_refl (fun _ _ => eq_refl)) as (E & del & D1 & D2 & D3).
  exists km, rs, E, del. split; [exact E1|]. cbv zeta. split; [exact Ho|]. split; [exact D1|]. split.
  - intros u Hu. destruct (D2 u Hu) as ((o' & Ho') & D4). destruct (D4 o' Ho') as (rs' & -> & _ & D5). exists rs'. split; [exact Ho'|exact D5].
  - cbv zeta in D3 |- *. change (map kq_a qs) with [dx_acc 12; dx_acc 9] in D3.
    match type of D3 with derivable_pt_lim _ _ ?v => match goal with |- derivable_pt_lim _ _ ?w => replace w with v; [exact D3|ring] end end.
Qed.
