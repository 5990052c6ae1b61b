(** Property C89: the ASE calculator and the LAMMPS pair style compute the same energies, forces and stress for the same structure.
    Models: AseModel.v, PairModel.v, PairMpiModel.v.  Vocabulary: AgreeSpec.v, AseSpec.v, PairSpec.v, DistSpec.v, DistGradSpec.v, SymPairSpec.v, MaceSpec.v, MaceGradSpec.v. *)
From Coq Require Import List Arith ZArith Permutation Reals Lra Lia.
From Verif Require Import Base BaseLemmas Instances MaceModel MaceSpec MaceSpec2 MaceExamples MaceGradSpec GradExamples EnergySpec AseModel AseSpec AseExamples
  PairModel PairMpiModel PairSpec PairCommSpec PairExamples DistSpec DistGradSpec DistGradThms DistExamples SymPairSpec SymPair AgreeSpec Agree2 AgreeExamples PropertiesCover.
Import ListNotations.
Local Open Scope R_scope.

(** C89, mode no_domain_decomposition.  [S (list_max il) = length numbers]: the last atom has a neighbour; what happens otherwise is C44 and C87. *)
Theorem C89_ase_lammps : forall sph, sph_ok (N:=RNum) sph -> sph_gradient sph -> forall srt, (forall l, Permutation l (srt l)) ->
  forall f : mace_file RNum, file_ok f -> smooth_ok f -> monomials_once f ->
  forall numbers types il jl, species_map (f_atomic_numbers f) numbers types -> nl_ok (length numbers) il jl -> il <> [] -> Datatypes.S (list_max il) = length numbers ->
  forall D : list R, length D = (3 * length il)%nat -> smooth_at f (nl_input (N:=RNum) (Datatypes.S (list_max il)) types il jl [] []) D ->
  forall (l : lmp RNum) rc ltypes, lmp_ok (length ltypes) (ilist l) l -> forall owner, owner_ok owner l ->
  forall sg, same_structure (f_atomic_numbers f) numbers il jl D ltypes rc owner l sg ->
  forall hist hist' V fl p (a : accum RNum), List.Forall (input_ok f) hist -> List.Forall (input_ok f) hist' -> V <> 0 -> vflag_atom fl = false -> acc_ok l a ->
  exists m b0 bh bh' b res b1 p1 a1, load_from_json srt f = Some (m, b0) /\ calls sph m b0 hist = Some bh /\ calls sph m b0 hist' = Some bh' /\
    calculate sph m bh numbers (Some V) il jl (lengths3 D) D = Some (b, res) /\
    compute_no_domain_decomposition sph m rc ltypes fl l bh' p a = Some (b1, p1, a1) /\
    (eflag_global fl = true -> eng_vdwl a1 = eng_vdwl a + res_energy res) /\
    (forall i, (i < nlocal l)%nat -> nth (position i (ilist l)) (b_node_energies b1) 0 = nth (sg i) (res_energies res) 0) /\
    (forall i c, (i < nlocal l)%nat -> (c < 3)%nat -> nth (3 * i + c) (force a1) 0 = nth (3 * i + c) (force a) 0 + nth (3 * sg i + c) (res_forces res) 0) /\
    (vflag_global fl = true -> forall r c, (r < 3)%nat -> (c < 3)%nat ->
       lammps_tensor (fun k => nth k (virial a1) 0 - nth k (virial a) 0) r c = - V * voigt_tensor (res_stress res) r c).
Proof. exact lemma_agree. Qed.
Print Assumptions C89_ase_lammps.

(** a periodic system of three atoms: the shifts of the ASE pairs are the displacements of the LAMMPS ghosts *)
Example C89_example : exists m b0 b res b1 p1 a1, load_from_json (fun l => l) ex_file = Some (m, b0) /\
  calculate (ex_sph (N:=RNum)) m b0 ax_numbers (Some 5) ax_il ax_jl (lengths3 ax_D) ax_D = Some (b, res) /\
  compute_no_domain_decomposition (ex_sph (N:=RNum)) m px_rc px_types px_ev px b0 L0p px_acc = Some (b1, p1, a1) /\
  eng_vdwl a1 = 7 + res_energy res /\ nth 4 (force a1) 0 = 3 + nth 4 (res_forces res) 0 /\
  nth 0 (virial a1) 0 - nth 0 (virial px_acc) 0 = - 5 * nth 0 (res_stress res) 0.
Proof.
  destruct (C89_ase_lammps (ex_sph (N:=RNum)) ex_sph_ok ex_sph_gradient (fun l => l) (fun l => Permutation_refl l) ex_file ex_file_ok ex_smooth ex_once
    ax_numbers ax_types ax_il ax_jl ax_species ax_nl ltac:(discriminate) eq_refl ax_D eq_refl ax_smooth_at
    px px_rc px_types px_lok px_owner px_own same same_px [] [] 5 px_ev L0p px_acc (Forall_nil _) (Forall_nil _) ltac:(lra) eq_refl px_acc_ok)
    as (m & b0 & bh & bh' & b & res & b1 & p1 & a1 & E1 & E2 & E3 & E4 & E5 & E6 & E7 & E8 & E9).
  injection E2 as <-. injection E3 as <-. exists m, b0, b, res, b1, p1, a1. split; [exact E1|]. split; [exact E4|]. split; [exact E5|].
  split; [exact (E6 eq_refl)|]. split; [exact (E8 1%nat 1%nat ltac:(cbn; lia) ltac:(lia))|]. exact (E9 eq_refl 0%nat 0%nat ltac:(lia) ltac:(lia)).
Qed.

(** C89, mode mpi_message_passing: any distribution of the atoms over processes, any earlier steps. *)
Theorem C89_ase_lammps_mpi : forall sph, sph_ok (N:=RNum) sph -> sph_gradient sph -> forall srt, (forall l, Permutation l (srt l)) ->
  forall f : mace_file RNum, file_ok f -> smooth_ok f -> monomials_once f ->
  forall numbers types il jl, species_map (f_atomic_numbers f) numbers types -> nl_ok (length numbers) il jl -> il <> [] -> Datatypes.S (list_max il) = length numbers ->
  forall D : list R, length D = (3 * length il)%nat -> smooth_at f (nl_input (N:=RNum) (Datatypes.S (list_max il)) types il jl [] []) D ->
  forall V, V <> 0 ->
  forall rc ltypes sg P ts t pbs hist, List.Forall (mpi_step_ok f rc ltypes P) ts -> mpi_step_ok f rc ltypes P t -> length pbs = P -> List.Forall (input_ok f) hist ->
  same_structure (f_atomic_numbers f) numbers il jl D ltypes rc (d_owner t) (d_L t) sg ->
  exists m b0 bh b res st qs, load_from_json srt f = Some (m, b0) /\ calls sph m b0 hist = Some bh /\ calculate sph m bh numbers (Some V) il jl (lengths3 D) D = Some (b, res) /\
    mpi_steps sph m rc ltypes ts (map (fun pb => (b0, pb)) pbs) = Some st /\ mpi_run (N:=RNum) sph m rc ltypes (d_fl t) (d_msgs t) (procs t st) = Some qs /\
    agrees sg V res (d_fl t) (d_L t) (d_ranks t) (d_acc t) qs.
Proof. exact lemma_agree_mpi. Qed.
Print Assumptions C89_ase_lammps_mpi.

Example C89_mpi_example : exists m b0 b res qs, load_from_json (fun l => l) ex_file = Some (m, b0) /\
  calculate (ex_sph (N:=RNum)) m b0 ax_numbers (Some 5) ax_il ax_jl (lengths3 ax_D) ax_D = Some (b, res) /\
  mpi_run (N:=RNum) (ex_sph (N:=RNum)) m px_rc px_types px_ev dx_msgs (procs dx_step [(b0, L0p); (b0, L0p)]) = Some qs /\
  agrees same 5 res px_ev px (d_ranks dx_step) [dx_acc 12; dx_acc 9] qs.
Proof.
  destruct (C89_ase_lammps_mpi (ex_sph (N:=RNum)) ex_sph_ok ex_sph_gradient (fun l => l) (fun l => Permutation_refl l) ex_file ex_file_ok ex_smooth ex_once
    ax_numbers ax_types ax_il ax_jl ax_species ax_nl ltac:(discriminate) eq_refl ax_D eq_refl ax_smooth_at
    5 ltac:(lra) px_rc px_types same 2%nat [] dx_step [L0p; L0p] [] (Forall_nil _) dx_mpi_step eq_refl (Forall_nil _) same_px)
    as (m & b0 & bh & b & res & st & qs & E1 & E2 & E3 & E4 & E5 & E6).
  injection E2 as <-. injection E4 as <-. exists m, b0, b, res, qs. auto.
Qed.

(** C89, mode no_mpi_message_passing *)
Theorem C89_ase_lammps_no_mpi : forall sph, sph_ok (N:=RNum) sph -> sph_gradient sph -> forall srt, (forall l, Permutation l (srt l)) ->
  forall f : mace_file RNum, file_ok f -> smooth_ok f -> monomials_once f ->
  forall numbers types il jl, species_map (f_atomic_numbers f) numbers types -> nl_ok (length numbers) il jl -> il <> [] -> Datatypes.S (list_max il) = length numbers ->
  forall D : list R, length D = (3 * length il)%nat -> smooth_at f (nl_input (N:=RNum) (Datatypes.S (list_max il)) types il jl [] []) D ->
  forall V, V <> 0 ->
  forall rc ltypes sg P ts t pbs hist, List.Forall (step_ok f rc ltypes (needed_no_mpi (N:=RNum) rc) P) ts -> step_ok f rc ltypes (needed_no_mpi (N:=RNum) rc) P t -> length pbs = P -> List.Forall (input_ok f) hist ->
  same_structure (f_atomic_numbers f) numbers il jl D ltypes rc (d_owner t) (d_L t) sg ->
  exists m b0 bh b res st qs, load_from_json srt f = Some (m, b0) /\ calls sph m b0 hist = Some bh /\ calculate sph m bh numbers (Some V) il jl (lengths3 D) D = Some (b, res) /\
    no_mpi_steps sph m rc ltypes ts (map (fun pb => (b0, pb)) pbs) = Some st /\ no_mpi_run sph m rc ltypes (d_fl t) (procs t st) = Some qs /\
    agrees sg V res (d_fl t) (d_L t) (d_ranks t) (d_acc t) qs.
Proof. exact lemma_agree_no_mpi. Qed.
Print Assumptions C89_ase_lammps_no_mpi.

Example C89_no_mpi_example : exists m b0 b res qs, load_from_json (fun l => l) ex_file = Some (m, b0) /\
  calculate (ex_sph (N:=RNum)) m b0 ax_numbers (Some 5) ax_il ax_jl (lengths3 ax_D) ax_D = Some (b, res) /\
  no_mpi_run (ex_sph (N:=RNum)) m px_rc px_types px_ev (procs dx_step_r [(b0, L0p); (b0, L0p)]) = Some qs /\
  agrees same 5 res px_ev px (d_ranks dx_step_r) [dx_acc 12; dx_acc 9] qs.
Proof.
  destruct (C89_ase_lammps_no_mpi (ex_sph (N:=RNum)) ex_sph_ok ex_sph_gradient (fun l => l) (fun l => Permutation_refl l) ex_file ex_file_ok ex_smooth ex_once
    ax_numbers ax_types ax_il ax_jl ax_species ax_nl ltac:(discriminate) eq_refl ax_D eq_refl ax_smooth_at
    5 ltac:(lra) px_rc px_types same 2%nat [] dx_step_r [L0p; L0p] [] (Forall_nil _) dx_no_step_r eq_refl (Forall_nil _) same_px)
    as (m & b0 & bh & b & res & st & qs & E1 & E2 & E3 & E4 & E5 & E6).
  injection E2 as <-. injection E4 as <-. exists m, b0, b, res, qs. auto.
Qed.
