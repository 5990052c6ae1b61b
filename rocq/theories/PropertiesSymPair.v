(** Properties C78 and C79: rigid motions of all atoms in the LAMMPS pair style.
    Models: PairModel.v, PairMpiModel.v.  Vocabulary: SymPairSpec.v, SymSpec.v, PairSpec.v, DistSpec.v, DistGradSpec.v, MaceSpec.v, MaceGradSpec.v. *)
From Coq Require Import List Arith ZArith Permutation Reals Lra Lia.
From Verif Require Import Base BaseLemmas Instances MaceModel MaceSpec MaceSpec2 MaceExamples MaceGradSpec GradExamples ExportPolySpec EnergySpec
  PairModel PairMpiModel PairSpec PairCommSpec PairExamples DistSpec DistGradSpec DistGradThms DistExamples SymSpec SymPairSpec SymPair SymExamples.
Import ListNotations.
Local Open Scope R_scope.

(** C78: if the tables of a file are equivariant under the orthogonal matrix g, moving every atom from x to g x + d leaves the energy and the energies of the atoms
    unchanged, and rotates the forces and the virial that the pair style adds. *)
Theorem C78_pair_rigid_motion : forall sph, sph_ok (N:=RNum) sph -> sph_gradient sph -> forall srt, (forall l, Permutation l (srt l)) ->
  forall f : mace_file RNum, file_ok f -> smooth_ok f -> monomials_once f -> forall g D, orthogonal g -> equivariant sph f g D ->
  forall d hist (l : lmp RNum) rc types owner fl p p' (a : accum RNum), List.Forall (input_ok f) hist -> lmp_ok (length types) (ilist l) l -> owner_ok owner l ->
  vflag_atom fl = false -> acc_ok l a -> smooth_at f (nd_input (N:=RNum) types rc owner l) (i_xyz (nd_input (N:=RNum) types rc owner l)) ->
  exists m b0 bh b1 p1 a1 b2 p2 a2, load_from_json srt f = Some (m, b0) /\ calls sph m b0 hist = Some bh /\
    compute_no_domain_decomposition sph m rc types fl l bh p a = Some (b1, p1, a1) /\
    compute_no_domain_decomposition sph m rc types fl (carried g d l) bh p' a = Some (b2, p2, a2) /\
    b_node_energies b2 = b_node_energies b1 /\ eng_vdwl a2 = eng_vdwl a1 /\ eatom a2 = eatom a1 /\
    (forall i c, (i < nlocal l + nghost l)%nat -> (c < 3)%nat ->
       nth (3 * i + c) (force a2) 0 - nth (3 * i + c) (force a) 0 = sum 3 (fun c' => g c c' * (nth (3 * i + c') (force a1) 0 - nth (3 * i + c') (force a) 0))) /\
    (forall r c, (r < 3)%nat -> (c < 3)%nat -> lammps_tensor (fun k => nth k (virial a2) 0 - nth k (virial a) 0) r c =
       rotated_tensor g (lammps_tensor (fun k => nth k (virial a1) 0 - nth k (virial a) 0)) r c).
Proof. exact lemma_C78. Qed.
Print Assumptions C78_pair_rigid_motion.

(** a periodic system of local atoms and ghosts; a rotation by 60 degrees and a shift *)
Definition px_d (c : nat) : R := nth c [1; - 2; 3] 0.
Example C78_example : exists m b0 b1 p1 a1 b2 p2 a2, load_from_json (fun l => l) sym_file = Some (m, b0) /\
  compute_no_domain_decomposition (ex_sph (N:=RNum)) m px_rc px_types px_ev px b0 L0p px_acc = Some (b1, p1, a1) /\
  compute_no_domain_decomposition (ex_sph (N:=RNum)) m px_rc px_types px_ev (carried sym_g px_d px) b0 L0p px_acc = Some (b2, p2, a2) /\
  eng_vdwl a2 = eng_vdwl a1 /\ nth 0 (force a2) 0 - 3 = 2 / 3 * (nth 0 (force a1) 0 - 3) - 1 / 3 * (nth 1 (force a1) 0 - 3) + 2 / 3 * (nth 2 (force a1) 0 - 3).
Proof.
  destruct (C78_pair_rigid_motion (ex_sph (N:=RNum)) ex_sph_ok ex_sph_gradient (fun l => l) (fun l => Permutation_refl l) sym_file sym_file_ok sym_smooth sym_once sym_g sym_D sym_orthogonal sym_equivariant
    px_d [] px px_rc px_types px_owner px_ev L0p L0p px_acc (Forall_nil _) px_lok px_own eq_refl px_acc_ok (sym_smooth_at _ _ px_smooth_at))
    as (m & b0 & bh & b1 & p1 & a1 & b2 & p2 & a2 & E1 & E2 & E3 & E4 & E5 & E6 & E7 & E8 & _).
  injection E2 as <-. exists m, b0, b1, p1, a1, b2, p2, a2. split; [exact E1|]. split; [exact E3|]. split; [exact E4|]. split; [exact E6|].
  pose proof (E8 0%nat 0%nat ltac:(cbn; lia) ltac:(lia)) as H. unfold sum, sym_g in H. cbn [Nat.mul Nat.add seq map fold_right px_acc force repeat nth] in H. rewrite H. ring.
Qed.

(** C78 for the mode mpi_message_passing: the atoms before and after the motion may be distributed over processes in different ways, after different histories. *)
Theorem C78_mpi_rigid_motion : forall sph, sph_ok (N:=RNum) sph -> sph_gradient sph -> forall srt, (forall l, Permutation l (srt l)) ->
  forall f : mace_file RNum, file_ok f -> smooth_ok f -> monomials_once f -> forall g D, orthogonal g -> equivariant sph f g D ->
  forall d rc types P ts t pbs P' ts' t' pbs', List.Forall (mpi_step_ok f rc types P) ts -> mpi_step_ok f rc types P t -> length pbs = P ->
  List.Forall (mpi_step_ok f rc types P') ts' -> mpi_step_ok f rc types P' t' -> length pbs' = P' -> d_L t' = carried g d (d_L t) -> d_fl t' = d_fl t ->
  smooth_at f (nd_input (N:=RNum) types rc (d_owner t) (d_L t)) (i_xyz (nd_input (N:=RNum) types rc (d_owner t) (d_L t))) ->
  exists m b0 st qs st' qs', load_from_json srt f = Some (m, b0) /\
    mpi_steps sph m rc types ts (map (fun pb => (b0, pb)) pbs) = Some st /\ mpi_run (N:=RNum) sph m rc types (d_fl t) (d_msgs t) (procs t st) = Some qs /\
    mpi_steps sph m rc types ts' (map (fun pb => (b0, pb)) pbs') = Some st' /\ mpi_run (N:=RNum) sph m rc types (d_fl t') (d_msgs t') (procs t' st') = Some qs' /\
    carried_results g (d_L t) (d_ranks t) (d_ranks t') (d_acc t) (d_acc t') qs qs'.
Proof. exact lemma_C78_mpi. Qed.
Print Assumptions C78_mpi_rigid_motion.

Lemma sym_step rc types needed P t : step_ok ex_file rc types needed P t -> step_ok sym_file rc types needed P t.
Proof. intros []. constructor; try assumption. apply sym_input. assumption. Qed.
Lemma sym_mpi_step rc types P t : mpi_step_ok ex_file rc types P t -> mpi_step_ok sym_file rc types P t.
Proof. intros []. constructor; try assumption. apply sym_step. assumption. Qed.
Lemma sym_carried_input : input_ok sym_file (nd_input (N:=RNum) px_types px_rc px_owner (carried sym_g px_d px)).
Proof. apply (carried_input sym_g px_d sym_orthogonal); [exact px_lok|]. exact (sym_smooth_at _ _ px_smooth_at). Qed.
(** two processes before and after the motion *)
Example C78_mpi_example : exists m b0 qs qs', load_from_json (fun l => l) sym_file = Some (m, b0) /\
  mpi_run (N:=RNum) (ex_sph (N:=RNum)) m px_rc px_types px_ev dx_msgs (procs dx_step [(b0, L0p); (b0, L0p)]) = Some qs /\
  mpi_run (N:=RNum) (ex_sph (N:=RNum)) m px_rc px_types px_ev dx_msgs (procs (moved (carried sym_g px_d) dx_step) [(b0, L0p); (b0, L0p)]) = Some qs' /\
  carried_results sym_g px (d_ranks dx_step) (map (carried sym_g px_d) (d_ranks dx_step)) [dx_acc 12; dx_acc 9] [dx_acc 12; dx_acc 9] qs qs'.
Proof.
  destruct (C78_mpi_rigid_motion (ex_sph (N:=RNum)) ex_sph_ok ex_sph_gradient (fun l => l) (fun l => Permutation_refl l) sym_file sym_file_ok sym_smooth sym_once sym_g sym_D sym_orthogonal sym_equivariant
    px_d px_rc px_types 2%nat [] dx_step [L0p; L0p] 2%nat [] (moved (carried sym_g px_d) dx_step) [L0p; L0p]) as (m & b0 & st & qs & st' & qs' & E1 & E2 & E3 & E4 & E5 & E6).
  - constructor.
  - exact (sym_mpi_step _ _ _ _ dx_mpi_step).
  - reflexivity.
  - constructor.
  - apply (moved_mpi sym_file px_types px_rc 2 dx_step (fun l => rigid sym_g px_d (atom_x l)) (sym_mpi_step _ _ _ _ dx_mpi_step)).
    apply (carried_step sym_g px_d sym_orthogonal); [intros; reflexivity|exact (mo_step _ _ _ _ _ (sym_mpi_step _ _ _ _ dx_mpi_step))|exact sym_carried_input].
  - reflexivity.
  - reflexivity.
  - reflexivity.
  - exact (sym_smooth_at _ _ px_smooth_at).
  - injection E2 as <-. injection E4 as <-. exists m, b0, qs, qs'. auto.
Qed.

(** C78 for the mode no_mpi_message_passing *)
Theorem C78_no_mpi_rigid_motion : forall sph, sph_ok (N:=RNum) sph -> sph_gradient sph -> forall srt, (forall l, Permutation l (srt l)) ->
  forall f : mace_file RNum, file_ok f -> smooth_ok f -> monomials_once f -> forall g D, orthogonal g -> equivariant sph f g D ->
  forall d rc types P ts t pbs P' ts' t' pbs', List.Forall (step_ok f rc types (needed_no_mpi (N:=RNum) rc) P) ts -> step_ok f rc types (needed_no_mpi (N:=RNum) rc) P t -> length pbs = P ->
  List.Forall (step_ok f rc types (needed_no_mpi (N:=RNum) rc) P') ts' -> step_ok f rc types (needed_no_mpi (N:=RNum) rc) P' t' -> length pbs' = P' -> d_L t' = carried g d (d_L t) -> d_fl t' = d_fl t ->
  smooth_at f (nd_input (N:=RNum) types rc (d_owner t) (d_L t)) (i_xyz (nd_input (N:=RNum) types rc (d_owner t) (d_L t))) ->
  exists m b0 st qs st' qs', load_from_json srt f = Some (m, b0) /\
    no_mpi_steps sph m rc types ts (map (fun pb => (b0, pb)) pbs) = Some st /\ no_mpi_run sph m rc types (d_fl t) (procs t st) = Some qs /\
    no_mpi_steps sph m rc types ts' (map (fun pb => (b0, pb)) pbs') = Some st' /\ no_mpi_run sph m rc types (d_fl t') (procs t' st') = Some qs' /\
    carried_results g (d_L t) (d_ranks t) (d_ranks t') (d_acc t) (d_acc t') qs qs'.
Proof. exact lemma_C78_no_mpi. Qed.
Print Assumptions C78_no_mpi_rigid_motion.

(** another order of the atoms of process 1 before the motion *)
Example C78_no_mpi_example : exists m b0 qs qs', load_from_json (fun l => l) sym_file = Some (m, b0) /\
  no_mpi_run (ex_sph (N:=RNum)) m px_rc px_types px_ev (procs dx_step_r [(b0, L0p); (b0, L0p)]) = Some qs /\
  no_mpi_run (ex_sph (N:=RNum)) m px_rc px_types px_ev (procs (moved (carried sym_g px_d) dx_step) [(b0, L0p); (b0, L0p)]) = Some qs' /\
  carried_results sym_g px (d_ranks dx_step_r) (map (carried sym_g px_d) (d_ranks dx_step)) [dx_acc 12; dx_acc 9] [dx_acc 12; dx_acc 9] qs qs'.
Proof.
  destruct (C78_no_mpi_rigid_motion (ex_sph (N:=RNum)) ex_sph_ok ex_sph_gradient (fun l => l) (fun l => Permutation_refl l) sym_file sym_file_ok sym_smooth sym_once sym_g sym_D sym_orthogonal sym_equivariant
    px_d px_rc px_types 2%nat [] dx_step_r [L0p; L0p] 2%nat [] (moved (carried sym_g px_d) dx_step) [L0p; L0p]) as (m & b0 & st & qs & st' & qs' & E1 & E2 & E3 & E4 & E5 & E6).
  - constructor.
  - exact (sym_step _ _ _ _ _ dx_no_step_r).
  - reflexivity.
  - constructor.
  - apply (carried_step sym_g px_d sym_orthogonal); [exact (need_no_mpi px_rc)|exact (sym_step _ _ _ _ _ dx_no_step)|exact sym_carried_input].
  - reflexivity.
  - reflexivity.
  - reflexivity.
  - exact (sym_smooth_at _ _ px_smooth_at).
  - injection E2 as <-. injection E4 as <-. exists m, b0, qs, qs'. auto.
Qed.

(** C79: for every model, in exact arithmetic, shifting all atoms by the same vector changes nothing at all: the call does the same, down to the buffers. *)
Theorem C79_translation : forall (d : nat -> R) sph (m : mace_model RNum) (rc : R) types fl (l : lmp RNum) owner b p a, lmp_ok (length types) (ilist l) l -> owner_ok owner l ->
  compute_no_domain_decomposition sph m rc types fl (at_x l (map (fun k => nth k (atom_x l) 0 + d (k mod 3)%nat) (seq 0 (length (atom_x l))))) b p a =
  compute_no_domain_decomposition sph m rc types fl l b p a.
Proof. exact lemma_C79. Qed.
Print Assumptions C79_translation.

Example C79_example : exists m b0 r, load_from_json (fun l => l) sym_file = Some (m, b0) /\
  compute_no_domain_decomposition (ex_sph (N:=RNum)) m px_rc px_types px_ev px b0 L0p px_acc = Some r /\
  compute_no_domain_decomposition (ex_sph (N:=RNum)) m px_rc px_types px_ev (at_x px (map (fun k => nth k (atom_x px) 0 + px_d (k mod 3)%nat) (seq 0 (length (atom_x px))))) b0 L0p px_acc = Some r.
Proof.
  destruct C78_example as (m & b0 & b1 & p1 & a1 & b2 & p2 & a2 & E1 & E2 & _). exists m, b0, (b1, p1, a1). split; [exact E1|]. split; [exact E2|].
  rewrite <- E2. apply (C79_translation px_d) with (owner := px_owner); [exact px_lok|exact px_own].
Qed.
