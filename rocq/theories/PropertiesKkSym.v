(** Property C94: rotations, reflections and rigid motions in the Kokkos evaluator and the Kokkos pair style.
    Models: KkModel.v, KkPairModel.v, KkPairMpiModel.v, KkPairMpi2Model.v.  Vocabulary: KkSymSpec.v, SymPairSpec.v, SymSpec.v, KkSpec.v, KkPairSpec.v, KkPairMpiSpec.v, KkPairMpi2Spec.v. *)
From Coq Require Import String List Arith ZArith Permutation Reals Lra Lia.
From Verif Require Import Base BaseLemmas Instances MaceModel MaceSpec MaceSpec2 MaceExamples MaceGradSpec GradExamples ExportPolySpec EnergySpec
  PairModel PairMpiModel PairKokkosModel PairSpec PairCommSpec PairExamples DistSpec DistGradSpec DistGradThms DistExamples SymSpec SymPairSpec SymPair SymExamples PropertiesSymPair KkSymSpec.
From Verif Require Import KkSem KkModel KkSpec KkExamples KkPairModel KkPairSpec KkPairExamples KkPairMpiModel KkPairMpiSpec KkPairMpi2Model KkPairMpi2Spec KkSym.
Import ListNotations.
Local Open Scope R_scope.

(** ** C94, the evaluator: if the tables of the file are equivariant under the orthogonal matrix g, then, after any admissible calls and with any schedulers, the evaluator computes
    the same node energies for the rotated structure, and the rotated edge forces *)
Theorem C94_kokkos_rotation : forall sph, sph_ok (N:=RNum) sph -> sph_gradient sph -> forall junk srt, (forall l, Permutation l (srt l)) ->
  forall f, file_ok f -> kk_file_ok f -> smooth_ok f -> monomials_once f -> forall g D, orthogonal g -> equivariant sph f g D ->
  exists km, kk_load_from_json srt f = Some km /\
  forall hist hist' x xs, List.Forall (input_ok f) hist -> List.Forall (input_ok f) hist' -> smooth_at f x xs ->
  (exists mem, kk_calls sph junk km kk_fresh (hist ++ [with_xyz x xs]) (Some mem)) /\ (exists mem, kk_calls sph junk km kk_fresh (hist' ++ [with_xyz x (rotate g xs)]) (Some mem)) /\
  forall o o', kk_calls sph junk km kk_fresh (hist ++ [with_xyz x xs]) o -> kk_calls sph junk km kk_fresh (hist' ++ [with_xyz x (rotate g xs)]) o' ->
  exists mem mem', o = Some mem /\ o' = Some mem' /\
    firstn (i_num_nodes x) (kk_node_energies mem') = firstn (i_num_nodes x) (kk_node_energies mem) /\
    firstn (List.length xs) (kk_node_forces mem') = rotate g (firstn (List.length xs) (kk_node_forces mem)).
Proof. exact lemma_C94_eval. Qed.
Print Assumptions C94_kokkos_rotation.

Lemma sym_kk_file_ok : kk_file_ok (sym_file (N:=RNum)).
Proof.
  constructor; cbn -[nofZ nlit].
  - intros v row Hv Hr. destruct Hv as [<-|[<-|[<-|[]]]]; destruct Hr as [<-|[<-|[<-|[<-|[]]]]]; reflexivity.
  - intros v row Hv Hr. destruct Hv as [<-|[<-|[<-|[]]]]; repeat (destruct Hr as [<-|Hr]; [reflexivity|]); destruct Hr.
  - reflexivity.
  - intros _. split; [reflexivity|]. intros row [<-|[<-|[<-|[]]]]; reflexivity.
  - intros _. split; [reflexivity|]. intros row [<-|[<-|[<-|[]]]]; reflexivity.
  - intros lm Hlm mo Hmo. destruct lm as [|[|[|[|lm]]]]; cbn in Hmo; intuition (subst; cbn; lia).
  - intros mo Hmo. cbn in Hmo. intuition (subst; cbn; lia).
Qed.

Example C94_evaluator_example : exists km mem mem', kk_load_from_json (fun l => l) (sym_file (N:=RNum)) = Some km /\
  kk_calls ex_sph (fun _ _ => 7) km kk_fresh [with_xyz kp_in (i_xyz kp_in)] (Some mem) /\
  kk_calls ex_sph (fun _ _ => 7) km kk_fresh [kp_in; with_xyz kp_in (rotate sym_g (i_xyz kp_in))] (Some mem') /\
  firstn 3 (kk_node_energies mem') = firstn 3 (kk_node_energies mem) /\ firstn 24 (kk_node_forces mem') = rotate sym_g (firstn 24 (kk_node_forces mem)).
Proof.
  destruct (C94_kokkos_rotation (ex_sph (N:=RNum)) ex_sph_ok ex_sph_gradient (fun _ _ => 7) (fun l => l) (fun l => Permutation_refl l) sym_file sym_file_ok sym_kk_file_ok sym_smooth sym_once
    sym_g sym_D sym_orthogonal sym_equivariant) as (km & E1 & H).
  destruct (H [] [kp_in] kp_in (i_xyz kp_in) (Forall_nil _) (Forall_cons _ (sym_input _ kp_in_ok) (Forall_nil _)) (sym_smooth_at _ _ kp_smooth_at)) as ((mem & A) & (mem' & B) & G).
  destruct (G _ _ A B) as (q & q' & Q & Q' & G1 & G2). injection Q as <-. injection Q' as <-. exists km, mem, mem'. split; [exact E1|]. split; [exact A|]. split; [exact B|].
  rewrite kp_in_eq in G1 at 1 2. assert (L : List.length (i_xyz kp_in) = 24%nat) by (rewrite kp_in_eq; reflexivity). split; [exact G1|]. rewrite <- L. exact G2.
Qed.

(** ** C94, the pair style in mode no_domain_decomposition: moving every atom from x to g x + d leaves the energy unchanged and rotates the forces and the virial *)
Theorem C94_kokkos_rigid_motion : forall sph, sph_ok (N:=RNum) sph -> sph_gradient sph -> forall junk srt, (forall l, Permutation l (srt l)) ->
  forall f, file_ok f -> kk_file_ok f -> smooth_ok f -> monomials_once f -> forall g D, orthogonal g -> equivariant sph f g D ->
  forall arg types, NoDup (f_atomic_numbers f) -> coeff_types (f_atomic_numbers f) arg = Some types -> (List.length types <= List.length (f_atomic_numbers f))%nat -> forall d : nat -> R,
  forall (rc : R), exists km mt, kk_load_from_json srt f = Some km /\ coeff_types_kk (f_atomic_numbers f) arg = Some mt /\
  forall s s' owner maxeatom maxeatom' fl l a, kp_reach sph junk km f rc types mt s -> kp_reach sph junk km f rc types mt s' -> nd_call_ok f types rc owner maxeatom fl l a -> (nlocal l <= maxeatom')%nat ->
  smooth_at f (nd_input (N:=RNum) types rc owner l) (i_xyz (nd_input (N:=RNum) types rc owner l)) ->
  (exists o, kk_no_domain sph junk km rc mt maxeatom fl l s a o) /\ (exists o, kk_no_domain sph junk km rc mt maxeatom' fl (carried g d l) s' a o) /\
  forall o o', kk_no_domain sph junk km rc mt maxeatom fl l s a o -> kk_no_domain sph junk km rc mt maxeatom' fl (carried g d l) s' a o' ->
  exists s1 a1 s2 a2, o = Some (s1, a1) /\ o' = Some (s2, a2) /\ eng_vdwl a2 = eng_vdwl a1 /\
    (forall i c, (i < nlocal l + nghost l)%nat -> (c < 3)%nat ->
       nth (3 * i + c) (force a2) 0 - nth (3 * i + c) (force a) 0 = sum 3 (fun c' => g c c' * (nth (3 * i + c') (force a1) 0 - nth (3 * i + c') (force a) 0))) /\
    (forall r c, (r < 3)%nat -> (c < 3)%nat -> lammps_tensor (fun k => nth k (virial a2) 0 - nth k (virial a) 0) r c =
       rotated_tensor g (lammps_tensor (fun k => nth k (virial a1) 0 - nth k (virial a) 0)) r c).
Proof. exact lemma_C94_serial. Qed.
Print Assumptions C94_kokkos_rigid_motion.

Lemma sym_types : coeff_types (f_atomic_numbers (sym_file (N:=RNum))) kp_arg = Some px_types.
Proof. exact kp_types. Qed.
Lemma sym_call : nd_call_ok sym_file px_types px_rc px_owner 4 px_ev kp px_acc.
Proof. destruct kp_call. constructor; try assumption. apply sym_input. assumption. Qed.
Example C94_serial_example : exists km s1 a1 s2 a2, kk_load_from_json (fun l => l) (sym_file (N:=RNum)) = Some km /\
  kk_no_domain ex_sph (fun _ _ => 7) km px_rc [1; 0]%Z 4 px_ev kp kp_fresh px_acc (Some (s1, a1)) /\
  kk_no_domain ex_sph (fun _ _ => 7) km px_rc [1; 0]%Z 5 px_ev (carried sym_g PropertiesSymPair.px_d kp) kp_fresh px_acc (Some (s2, a2)) /\
  eng_vdwl a2 = eng_vdwl a1 /\ nth 0 (force a2) 0 - 3 = 2 / 3 * (nth 0 (force a1) 0 - 3) - 1 / 3 * (nth 1 (force a1) 0 - 3) + 2 / 3 * (nth 2 (force a1) 0 - 3).
Proof.
  destruct (C94_kokkos_rigid_motion (ex_sph (N:=RNum)) ex_sph_ok ex_sph_gradient (fun _ _ => 7) (fun l => l) (fun l => Permutation_refl l) sym_file sym_file_ok sym_kk_file_ok sym_smooth sym_once
    sym_g sym_D sym_orthogonal sym_equivariant kp_arg px_types kp_nodup sym_types (le_n _) PropertiesSymPair.px_d px_rc) as (km & mt & E1 & E2 & H).
  assert (mt = [1; 0]%Z) as -> by (vm_compute in E2; congruence).
  destruct (H kp_fresh kp_fresh px_owner 4%nat 5%nat px_ev kp px_acc (kr_new _ _ _ _ _ _ _) (kr_new _ _ _ _ _ _ _) sym_call ltac:(cbn; lia) (sym_smooth_at _ _ kp_smooth_at)) as ((o & A) & (o' & B) & G).
  destruct (G o o' A B) as (s1 & a1 & s2 & a2 & -> & -> & G1 & G2 & _). exists km, s1, a1, s2, a2. split; [exact E1|]. split; [exact A|]. split; [exact B|]. split; [exact G1|].
  pose proof (G2 0%nat 0%nat ltac:(cbn; lia) ltac:(lia)) as X. unfold sum, sym_g in X. cbn [Nat.mul Nat.add seq map fold_right px_acc force repeat nth] in X. rewrite X. ring.
Qed.

(** ** C94, the pair style in mode mpi_message_passing: the atoms before and after the motion may be distributed in different ways, over objects with different histories *)
Theorem C94_kokkos_mpi_rigid_motion : forall sph, sph_ok (N:=RNum) sph -> sph_gradient sph -> forall junk srt, (forall l, Permutation l (srt l)) ->
  forall f, file_ok f -> kk_file_ok f -> smooth_ok f -> monomials_once f -> forall g D, orthogonal g -> equivariant sph f g D ->
  forall arg types, NoDup (f_atomic_numbers f) -> coeff_types (f_atomic_numbers f) arg = Some types -> (List.length types <= List.length (f_atomic_numbers f))%nat -> forall d : nat -> R,
  forall (rc : R) host, exists km mt, kk_load_from_json srt f = Some km /\ coeff_types_kk (f_atomic_numbers f) arg = Some mt /\
  forall t qs t' qs', kd_reach sph junk km f rc types mt host (map kd_st qs) -> kd_ok f rc types t qs -> kd_reach sph junk km f rc types mt host (map kd_st qs') -> kd_ok f rc types t' qs' ->
  d_L t' = carried g d (d_L t) -> d_fl t' = d_fl t ->
  smooth_at f (nd_input (N:=RNum) types rc (d_owner t) (d_L t)) (i_xyz (nd_input (N:=RNum) types rc (d_owner t) (d_L t))) ->
  (exists o, kk_mpi_run sph junk km rc mt (d_fl t) (d_msgs t) host qs o) /\ (exists o, kk_mpi_run sph junk km rc mt (d_fl t') (d_msgs t') host qs' o) /\
  forall o o', kk_mpi_run sph junk km rc mt (d_fl t) (d_msgs t) host qs o -> kk_mpi_run sph junk km rc mt (d_fl t') (d_msgs t') host qs' o' ->
  exists rs rs', o = Some rs /\ o' = Some rs' /\ List.length rs = List.length qs /\ List.length rs' = List.length qs' /\
    carried_sums g (d_L t) (map (fun q => atom_tag (kd_l q)) qs) (map (fun q => atom_tag (kd_l q)) qs') (map kd_a qs) (map kd_a qs') (map snd rs) (map snd rs').
Proof. exact lemma_C94_mpi. Qed.
Print Assumptions C94_kokkos_mpi_rigid_motion.

Example C94_mpi_example : exists km rs rs', kk_load_from_json (fun l => l) (sym_file (N:=RNum)) = Some km /\
  let mv := carried sym_g PropertiesSymPair.px_d in
  let qs := [mkKD (N:=RNum) (DistExamples.lift dx_0) (dx_acc 12) 4 kpd_fresh; mkKD (DistExamples.lift dx_1) (dx_acc 9) 2 kpd_fresh] in
  let qs' := [mkKD (N:=RNum) (mv (DistExamples.lift dx_0)) (dx_acc 12) 4 kpd_fresh; mkKD (mv (DistExamples.lift dx_1)) (dx_acc 9) 2 kpd_fresh] in
  kk_mpi_run ex_sph (fun _ _ => 7) km px_rc [1; 0]%Z px_ev dx_msgs true qs (Some rs) /\ kk_mpi_run ex_sph (fun _ _ => 7) km px_rc [1; 0]%Z px_ev dx_msgs true qs' (Some rs') /\
  added_energy [dx_acc 12; dx_acc 9] (map snd rs') = added_energy [dx_acc 12; dx_acc 9] (map snd rs).
Proof.
  destruct (C94_kokkos_mpi_rigid_motion (ex_sph (N:=RNum)) ex_sph_ok ex_sph_gradient (fun _ _ => 7) (fun l => l) (fun l => Permutation_refl l) sym_file sym_file_ok sym_kk_file_ok sym_smooth sym_once
    sym_g sym_D sym_orthogonal sym_equivariant kp_arg px_types kp_nodup sym_types (le_n _) PropertiesSymPair.px_d px_rc true) as (km & mt & E1 & E2 & H).
  assert (mt = [1; 0]%Z) as -> by (vm_compute in E2; congruence). set (mv := carried sym_g PropertiesSymPair.px_d) in *. cbv zeta.
  set (qs := [mkKD (N:=RNum) (DistExamples.lift dx_0) (dx_acc 12) 4 kpd_fresh; mkKD (DistExamples.lift dx_1) (dx_acc 9) 2 kpd_fresh]) in *.
  set (qs' := [mkKD (N:=RNum) (mv (DistExamples.lift dx_0)) (dx_acc 12) 4 kpd_fresh; mkKD (mv (DistExamples.lift dx_1)) (dx_acc 9) 2 kpd_fresh]) in *.
  destruct (H dx_step qs (moved mv dx_step) qs' (kd_new _ _ _ _ _ _ _ _ 2)) as ((o & A) & (o' & B) & G).
  - constructor; [exact (sym_mpi_step _ _ _ _ dx_mpi_step)|reflexivity|reflexivity|]. intros q [<-|[<-|[]]]; cbn; lia.
  - exact (kd_new _ _ _ _ _ _ _ _ 2).
  - constructor; [|reflexivity|reflexivity|].
    + apply (moved_mpi sym_file px_types px_rc 2 dx_step (fun l => rigid sym_g PropertiesSymPair.px_d (atom_x l)) (sym_mpi_step _ _ _ _ dx_mpi_step)).
      apply (carried_step sym_g PropertiesSymPair.px_d sym_orthogonal); [intros; reflexivity|exact (mo_step _ _ _ _ _ (sym_mpi_step _ _ _ _ dx_mpi_step))|exact sym_carried_input].
    + intros q [<-|[<-|[]]]; cbn; lia.
  - reflexivity.
  - reflexivity.
  - exact (sym_smooth_at _ _ px_smooth_at).
  - destruct (G o o' A B) as (rs & rs' & -> & -> & _ & _ & [G1 _ _]). exists km, rs, rs'. split; [exact E1|]. split; [exact A|]. split; [exact B|exact G1].
Qed.

(** ** C94, the pair style in mode no_mpi_message_passing *)
Theorem C94_kokkos_no_mpi_rigid_motion : forall sph, sph_ok (N:=RNum) sph -> sph_gradient sph -> forall junk srt, (forall l, Permutation l (srt l)) ->
  forall f, file_ok f -> kk_file_ok f -> smooth_ok f -> monomials_once f -> forall g D, orthogonal g -> equivariant sph f g D ->
  forall arg types, NoDup (f_atomic_numbers f) -> coeff_types (f_atomic_numbers f) arg = Some types -> (List.length types <= List.length (f_atomic_numbers f))%nat -> forall d : nat -> R,
  forall (rc : R), exists km mt, kk_load_from_json srt f = Some km /\ coeff_types_kk (f_atomic_numbers f) arg = Some mt /\
  forall t qs t' qs', kprocs_ok sph junk km f rc types mt t qs -> kprocs_ok sph junk km f rc types mt t' qs' -> d_L t' = carried g d (d_L t) -> d_fl t' = d_fl t ->
  smooth_at f (nd_input (N:=RNum) types rc (d_owner t) (d_L t)) (i_xyz (nd_input (N:=RNum) types rc (d_owner t) (d_L t))) ->
  (exists os, kk_no_run sph junk km rc mt (d_fl t) qs os) /\ (exists os, kk_no_run sph junk km rc mt (d_fl t') qs' os) /\
  forall os os', kk_no_run sph junk km rc mt (d_fl t) qs os -> kk_no_run sph junk km rc mt (d_fl t') qs' os' ->
  exists rs rs', os = map Some rs /\ os' = map Some rs' /\ List.length rs = List.length qs /\ List.length rs' = List.length qs' /\
    carried_sums g (d_L t) (map (fun q => atom_tag (kq_l q)) qs) (map (fun q => atom_tag (kq_l q)) qs') (map kq_a qs) (map kq_a qs') (map snd rs) (map snd rs').
Proof. exact lemma_C94_no_mpi. Qed.
Print Assumptions C94_kokkos_no_mpi_rigid_motion.

(** another order of the atoms of process 1 before the motion *)
Example C94_no_mpi_example : exists km rs rs', kk_load_from_json (fun l => l) (sym_file (N:=RNum)) = Some km /\
  let mv := carried sym_g PropertiesSymPair.px_d in
  let qs := [mkKProc (DistExamples.lift dx_0) (dx_acc 12) 5 kpm_fresh; mkKProc (DistExamples.lift dx_1r) (dx_acc 9) 3 kpm_fresh] in
  let qs' := [mkKProc (mv (DistExamples.lift dx_0)) (dx_acc 12) 5 kpm_fresh; mkKProc (mv (DistExamples.lift dx_1)) (dx_acc 9) 3 kpm_fresh] in
  kk_no_run ex_sph (fun _ _ => 7) km px_rc [1; 0]%Z px_ev qs (map Some rs) /\ kk_no_run ex_sph (fun _ _ => 7) km px_rc [1; 0]%Z px_ev qs' (map Some rs') /\
  added_energy [dx_acc 12; dx_acc 9] (map snd rs') = added_energy [dx_acc 12; dx_acc 9] (map snd rs).
Proof.
  destruct (C94_kokkos_no_mpi_rigid_motion (ex_sph (N:=RNum)) ex_sph_ok ex_sph_gradient (fun _ _ => 7) (fun l => l) (fun l => Permutation_refl l) sym_file sym_file_ok sym_kk_file_ok sym_smooth sym_once
    sym_g sym_D sym_orthogonal sym_equivariant kp_arg px_types kp_nodup sym_types (le_n _) PropertiesSymPair.px_d px_rc) as (km & mt & E1 & E2 & H).
  assert (mt = [1; 0]%Z) as -> by (vm_compute in E2; congruence). set (mv := carried sym_g PropertiesSymPair.px_d) in *. cbv zeta.
  set (qs := [mkKProc (DistExamples.lift dx_0) (dx_acc 12) 5 kpm_fresh; mkKProc (DistExamples.lift dx_1r) (dx_acc 9) 3 kpm_fresh]) in *.
  set (qs' := [mkKProc (mv (DistExamples.lift dx_0)) (dx_acc 12) 5 kpm_fresh; mkKProc (mv (DistExamples.lift dx_1)) (dx_acc 9) 3 kpm_fresh]) in *.
  destruct (H dx_step_r qs (moved mv dx_step) qs') as ((o & A) & (o' & B) & G).
  - constructor; [exact (sym_step _ _ _ _ _ dx_no_step_r)|reflexivity|reflexivity| |].
    + intros q [<-|[<-|[]]]; cbn [kq_st]; apply kn_new.
    + intros q [<-|[<-|[]]]; cbn; lia.
  - constructor; [|reflexivity|reflexivity| |].
    + apply (carried_step sym_g PropertiesSymPair.px_d sym_orthogonal); [exact (need_no_mpi px_rc)|exact (sym_step _ _ _ _ _ dx_no_step)|exact sym_carried_input].
    + intros q [<-|[<-|[]]]; cbn [kq_st]; apply kn_new.
    + intros q [<-|[<-|[]]]; cbn; lia.
  - reflexivity.
  - reflexivity.
  - exact (sym_smooth_at _ _ px_smooth_at).
  - destruct (G o o' A B) as (rs & rs' & -> & -> & _ & _ & [G1 _ _]). exists km, rs, rs'. split; [exact E1|]. split; [exact A|]. split; [exact B|exact G1].
Qed.
