(** Property C91: the ASE calculator and the Kokkos pair style compute the same energies, forces and stress for the same structure.
    Models: AseModel.v, KkPairModel.v, KkPairMpiModel.v, KkPairMpi2Model.v.  Vocabulary: KkAgreeSpec.v, AgreeSpec.v, and that of C59, C61, C62. *)
From Coq Require Import String List Arith ZArith Permutation Reals Lra Lia.
From Verif Require Import Base BaseLemmas Instances MaceModel MaceSpec MaceSpec2 MaceExamples MaceGradSpec GradExamples EnergySpec AseModel AseSpec AseExamples
  PairModel PairMpiModel PairKokkosModel PairSpec PairCommSpec PairExamples DistSpec DistGradSpec DistGradThms DistExamples SymPairSpec AgreeSpec AgreeExamples PropertiesCover.
From Verif Require Import KkSem KkModel KkSpec KkExamples KkPairModel KkPairSpec KkPairExamples KkPairMpiModel KkPairMpiSpec KkPairMpi2Model KkPairMpi2Spec KkAgreeSpec KkAgree.
Import ListNotations.
Local Open Scope R_scope.

(** C91, mode no_domain_decomposition, with the neighbour list in the order of the atoms (see C59): every outcome of the Kokkos pair style, whatever it computed before.
    [eatom_before]: what the array of atomic energies contains at the start (C43, C59). *)
Theorem C91_ase_kokkos_lammps : forall sph, sph_ok (N:=RNum) sph -> sph_gradient sph -> forall junk srt, (forall l, Permutation l (srt l)) ->
  forall f, file_ok f -> kk_file_ok f -> smooth_ok f -> monomials_once f -> forall arg ltypes, NoDup (f_atomic_numbers f) ->
  coeff_types (f_atomic_numbers f) arg = Some ltypes -> (List.length ltypes <= List.length (f_atomic_numbers f))%nat ->
  forall numbers types il jl, species_map (f_atomic_numbers f) numbers types -> nl_ok (List.length numbers) il jl -> il <> [] -> Datatypes.S (list_max il) = List.length numbers ->
  forall D : list R, List.length D = (3 * List.length il)%nat -> smooth_at f (nl_input (N:=RNum) (Datatypes.S (list_max il)) types il jl [] []) D ->
  forall V, V <> 0 -> forall rc sg hist, List.Forall (input_ok f) hist ->
  forall owner maxeatom fl l a, nd_call_ok f ltypes rc owner maxeatom fl l a -> same_structure (f_atomic_numbers f) numbers il jl D ltypes rc owner l sg ->
  exists km mt m b0 bh b res, kk_load_from_json srt f = Some km /\ coeff_types_kk (f_atomic_numbers f) arg = Some mt /\
    load_from_json srt f = Some (m, b0) /\ calls sph m b0 hist = Some bh /\ calculate sph m bh numbers (Some V) il jl (lengths3 D) D = Some (b, res) /\
    forall s, kp_reach sph junk km f rc ltypes mt s -> (exists o, kk_no_domain sph junk km rc mt maxeatom fl l s a o) /\
    forall o, kk_no_domain sph junk km rc mt maxeatom fl l s a o -> exists s' ak, o = Some (s', ak) /\
      (eflag_global fl = true -> eng_vdwl ak = eng_vdwl a + res_energy res) /\
      (eflag_atom fl = true -> forall i, (i < nlocal l)%nat -> nth i (eatom ak) 0 = nth i (eatom_before maxeatom s) 0 + nth (sg i) (res_energies res) 0) /\
      (forall i c, (i < nlocal l)%nat -> (c < 3)%nat -> nth (3 * i + c) (force ak) 0 = nth (3 * i + c) (force a) 0 + nth (3 * sg i + c) (res_forces res) 0) /\
      (vflag_global fl = true -> forall r c, (r < 3)%nat -> (c < 3)%nat ->
         lammps_tensor (fun k => nth k (virial ak) 0 - nth k (virial a) 0) r c = - V * voigt_tensor (res_stress res) r c).
Proof. exact lemma_C91. Qed.
Print Assumptions C91_ase_kokkos_lammps.

(** a periodic system of three atoms, fresh objects *)
Example C91_example : exists km m b0 b res s' ak, kk_load_from_json (fun l => l) ex_file = Some km /\ load_from_json (fun l => l) ex_file = Some (m, b0) /\
  calculate (ex_sph (N:=RNum)) m b0 ax_numbers (Some 5) ax_il ax_jl (lengths3 ax_D) ax_D = Some (b, res) /\
  kk_no_domain ex_sph (fun _ _ => 7) km px_rc [1; 0]%Z 4 px_ev kp kp_fresh px_acc (Some (s', ak)) /\
  eng_vdwl ak = 7 + res_energy res /\ nth 4 (force ak) 0 = 3 + nth 4 (res_forces res) 0.
Proof.
  assert (same_kp : same_structure [1; 2]%nat ax_numbers ax_il ax_jl ax_D px_types px_rc px_owner kp same) by (pose proof same_px as [H1 H2 H3]; constructor; [exact H1|exact H2|exact H3]).
  destruct (C91_ase_kokkos_lammps (ex_sph (N:=RNum)) ex_sph_ok ex_sph_gradient (fun _ _ => 7) (fun l => l) (fun l => Permutation_refl l) ex_file ex_file_ok ex_kk_file_ok ex_smooth ex_once
    kp_arg px_types kp_nodup kp_types (le_n _) ax_numbers ax_types ax_il ax_jl ax_species ax_nl ltac:(discriminate) eq_refl ax_D eq_refl ax_smooth_at
    5 ltac:(lra) px_rc same [] (Forall_nil _) px_owner 4%nat px_ev kp px_acc kp_call same_kp)
    as (km & mt & m & b0 & bh & b & res & E1 & E2 & E3 & E4 & E5 & H).
  injection E4 as <-. assert (mt = [1; 0]%Z) as -> by (vm_compute in E2; congruence). destruct (H _ (kr_new _ _ _ _ _ _ _)) as ((o & Ho) & G).
  destruct (G o Ho) as (s' & ak & -> & G1 & _ & G3 & _). exists km, m, b0, b, res, s', ak. split; [exact E1|]. split; [exact E3|]. split; [exact E5|]. split; [exact Ho|].
  split; [exact (G1 eq_refl)|]. exact (G3 1%nat 1%nat ltac:(cbn; lia) ltac:(lia)).
Qed.

(** C91, mode no_mpi_message_passing: any distribution of the atoms over processes, each with its own earlier calls and its own scheduler *)
Theorem C91_ase_kokkos_no_mpi : forall sph, sph_ok (N:=RNum) sph -> sph_gradient sph -> forall junk srt, (forall l, Permutation l (srt l)) ->
  forall f, file_ok f -> kk_file_ok f -> smooth_ok f -> monomials_once f -> forall arg ltypes, NoDup (f_atomic_numbers f) ->
  coeff_types (f_atomic_numbers f) arg = Some ltypes -> (List.length ltypes <= List.length (f_atomic_numbers f))%nat ->
  forall numbers types il jl, species_map (f_atomic_numbers f) numbers types -> nl_ok (List.length numbers) il jl -> il <> [] -> Datatypes.S (list_max il) = List.length numbers ->
  forall D : list R, List.length D = (3 * List.length il)%nat -> smooth_at f (nl_input (N:=RNum) (Datatypes.S (list_max il)) types il jl [] []) D ->
  forall V, V <> 0 -> forall rc sg hist, List.Forall (input_ok f) hist ->
  forall t, same_structure (f_atomic_numbers f) numbers il jl D ltypes rc (d_owner t) (d_L t) sg ->
  exists km mt m b0 bh, kk_load_from_json srt f = Some km /\ coeff_types_kk (f_atomic_numbers f) arg = Some mt /\
    load_from_json srt f = Some (m, b0) /\ calls sph m b0 hist = Some bh /\
    forall qs, kprocs_ok sph junk km f rc ltypes mt t qs ->
    exists b res, calculate sph m bh numbers (Some V) il jl (lengths3 D) D = Some (b, res) /\
    (exists os, kk_no_run sph junk km rc mt (d_fl t) qs os) /\
    forall os, kk_no_run sph junk km rc mt (d_fl t) qs os -> exists rs, os = map Some rs /\
      kk_agrees sg V res (d_fl t) (d_L t) (fun l => ilist l = seq 0 (nlocal l)) (map kq_l qs) (map kq_a qs) (map snd rs) (map (fun q => eatom_before_no (kq_max q) (kq_st q)) qs).
Proof. exact lemma_C91_no_mpi. Qed.
Print Assumptions C91_ase_kokkos_no_mpi.

Example C91_no_mpi_example : exists km m b0 b res rs, kk_load_from_json (fun l => l) ex_file = Some km /\ load_from_json (fun l => l) ex_file = Some (m, b0) /\
  calculate (ex_sph (N:=RNum)) m b0 ax_numbers (Some 5) ax_il ax_jl (lengths3 ax_D) ax_D = Some (b, res) /\
  kk_no_run ex_sph (fun _ _ => 7) km px_rc [1; 0]%Z px_ev [mkKProc (DistExamples.lift dx_0) (dx_acc 12) 5 kpm_fresh; mkKProc (DistExamples.lift dx_1r) (dx_acc 9) 3 kpm_fresh] (map Some rs) /\
  added_energy [dx_acc 12; dx_acc 9] (map snd rs) = res_energy res.
Proof.
  destruct (C91_ase_kokkos_no_mpi (ex_sph (N:=RNum)) ex_sph_ok ex_sph_gradient (fun _ _ => 7) (fun l => l) (fun l => Permutation_refl l) ex_file ex_file_ok ex_kk_file_ok ex_smooth ex_once
    kp_arg px_types kp_nodup kp_types (le_n _) ax_numbers ax_types ax_il ax_jl ax_species ax_nl ltac:(discriminate) eq_refl ax_D eq_refl ax_smooth_at
    5 ltac:(lra) px_rc same [] (Forall_nil _) dx_step_r same_px)
    as (km & mt & m & b0 & bh & E1 & E2 & E3 & E4 & H).
  injection E4 as <-. assert (mt = [1; 0]%Z) as -> by (vm_compute in E2; congruence).
  destruct (H [mkKProc (DistExamples.lift dx_0) (dx_acc 12) 5 kpm_fresh; mkKProc (DistExamples.lift dx_1r) (dx_acc 9) 3 kpm_fresh]) as (b & res & E5 & (os & Ho) & G).
  { constructor; [exact dx_no_step_r|reflexivity|reflexivity| |].
    - intros q [<-|[<-|[]]]; cbn [kq_st]; apply kn_new.
    - intros q [<-|[<-|[]]]; cbn; lia. }
  destruct (G os Ho) as (rs & -> & A). exists km, m, b0, b, res, rs. split; [exact E1|]. split; [exact E3|]. split; [exact E5|]. split; [exact Ho|]. exact (ka_energy _ _ _ _ _ _ _ _ _ _ A eq_refl).
Qed.

(** C91, mode mpi_message_passing: messages through the host or on the device *)
Theorem C91_ase_kokkos_mpi : forall sph, sph_ok (N:=RNum) sph -> sph_gradient sph -> forall junk srt, (forall l, Permutation l (srt l)) ->
  forall f, file_ok f -> kk_file_ok f -> smooth_ok f -> monomials_once f -> forall arg ltypes, NoDup (f_atomic_numbers f) ->
  coeff_types (f_atomic_numbers f) arg = Some ltypes -> (List.length ltypes <= List.length (f_atomic_numbers f))%nat ->
  forall numbers types il jl, species_map (f_atomic_numbers f) numbers types -> nl_ok (List.length numbers) il jl -> il <> [] -> Datatypes.S (list_max il) = List.length numbers ->
  forall D : list R, List.length D = (3 * List.length il)%nat -> smooth_at f (nl_input (N:=RNum) (Datatypes.S (list_max il)) types il jl [] []) D ->
  forall V, V <> 0 -> forall rc sg hist, List.Forall (input_ok f) hist ->
  forall host t, same_structure (f_atomic_numbers f) numbers il jl D ltypes rc (d_owner t) (d_L t) sg ->
  exists km mt m b0 bh, kk_load_from_json srt f = Some km /\ coeff_types_kk (f_atomic_numbers f) arg = Some mt /\
    load_from_json srt f = Some (m, b0) /\ calls sph m b0 hist = Some bh /\
    forall qs, kd_reach sph junk km f rc ltypes mt host (map kd_st qs) -> kd_ok f rc ltypes t qs ->
    exists b res, calculate sph m bh numbers (Some V) il jl (lengths3 D) D = Some (b, res) /\
    (exists o, kk_mpi_run sph junk km rc mt (d_fl t) (d_msgs t) host qs o) /\
    forall o, kk_mpi_run sph junk km rc mt (d_fl t) (d_msgs t) host qs o -> exists rs, o = Some rs /\
      kk_agrees sg V res (d_fl t) (d_L t) (fun _ => True) (map kd_l qs) (map kd_a qs) (map snd rs) (map (fun q => eatom_before_mpi (kd_max q) (kd_st q)) qs).
Proof. exact lemma_C91_mpi. Qed.
Print Assumptions C91_ase_kokkos_mpi.

Example C91_mpi_example : exists km m b0 b res rs, kk_load_from_json (fun l => l) ex_file = Some km /\ load_from_json (fun l => l) ex_file = Some (m, b0) /\
  calculate (ex_sph (N:=RNum)) m b0 ax_numbers (Some 5) ax_il ax_jl (lengths3 ax_D) ax_D = Some (b, res) /\
  kk_mpi_run ex_sph (fun _ _ => 7) km px_rc [1; 0]%Z px_ev dx_msgs true
    [mkKD (DistExamples.lift dx_0) (dx_acc 12) 4 kpd_fresh; mkKD (DistExamples.lift dx_1) (dx_acc 9) 2 kpd_fresh] (Some rs) /\
  added_energy [dx_acc 12; dx_acc 9] (map snd rs) = res_energy res.
Proof.
  destruct (C91_ase_kokkos_mpi (ex_sph (N:=RNum)) ex_sph_ok ex_sph_gradient (fun _ _ => 7) (fun l => l) (fun l => Permutation_refl l) ex_file ex_file_ok ex_kk_file_ok ex_smooth ex_once
    kp_arg px_types kp_nodup kp_types (le_n _) ax_numbers ax_types ax_il ax_jl ax_species ax_nl ltac:(discriminate) eq_refl ax_D eq_refl ax_smooth_at
    5 ltac:(lra) px_rc same [] (Forall_nil _) true dx_step same_px)
    as (km & mt & m & b0 & bh & E1 & E2 & E3 & E4 & H).
  injection E4 as <-. assert (mt = [1; 0]%Z) as -> by (vm_compute in E2; congruence).
  set (qs := [mkKD (N:=RNum) (DistExamples.lift dx_0) (dx_acc 12) 4 kpd_fresh; mkKD (DistExamples.lift dx_1) (dx_acc 9) 2 kpd_fresh]) in *.
  destruct (H qs (kd_new _ _ _ _ _ _ _ _ 2)) as (b & res & E5 & (o & Ho) & G).
  { constructor; [exact dx_mpi_step|reflexivity|reflexivity|]. intros q [<-|[<-|[]]]; cbn; lia. }
  destruct (G o Ho) as (rs & -> & A). exists km, m, b0, b, res, rs. split; [exact E1|]. split; [exact E3|]. split; [exact E5|]. split; [exact Ho|]. exact (ka_energy _ _ _ _ _ _ _ _ _ _ A eq_refl).
Qed.
