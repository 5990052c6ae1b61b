(** Property theorems about the derivatives of the energy of distributed runs: C53, and C38 for the modes mpi_message_passing
    and no_mpi_message_passing of the LAMMPS pair style.
    Models: PairModel.v, PairMpiModel.v.  Vocabulary: PairSpec.v, DistSpec.v, DistGradSpec.v, MaceSpec.v, MaceGradSpec.v. *)
From Coq Require Import List Arith ZArith Reals Permutation Lia Lra.
From Verif Require Import Base Instances MaceModel MaceSpec MaceSpec2 MaceGradSpec MaceExamples GradExamples AseSpec PairModel PairMpiModel PairSpec PairCommSpec
  PairExamples DistSpec DistGradSpec DistGradThms DistExamples.
Import ListNotations.
Local Open Scope R_scope.

(** ** C53, mode mpi_message_passing: after any number of steps, the sum of what is added to the forces on an atom and all its
    ghosts, on all processes, is minus the derivative of the sum over the processes of what is added to the energy, with respect
    to the position of the atom, all its copies moving along, for fixed neighbour lists *)
Theorem C53_mpi_forces : forall sph, sph_ok (N:=RNum) sph -> sph_gradient sph -> forall srt, (forall l, Permutation l (srt l)) ->
  forall f, file_ok f -> smooth_ok f -> forall types (rc : R) P ts t pbs, length pbs = P -> off_cutoff (d_L t) rc ->
  smooth_at f (nd_input types rc (d_owner t) (d_L t)) (i_xyz (nd_input types rc (d_owner t) (d_L t))) -> eflag_global (d_fl t) = true ->
  Forall (mpi_step_ok f rc types P) ts -> mpi_step_ok f rc types P t -> (forall l, In l (d_ranks t) -> off_cutoff_at (needed_mpi l) l rc) ->
  exists m b0 st qs, load_from_json srt f = Some (m, b0) /\
    mpi_steps sph m rc types ts (map (fun pb => (b0, pb)) pbs) = Some st /\
    mpi_run (N:=RNum) sph m rc types (d_fl t) (d_msgs t) (procs t st) = Some qs /\ length qs = P /\
    forall i c, (i < nlocal (d_L t))%nat -> (c < 3)%nat -> exists E del, 0 < del /\
      (forall u, Rabs u < del -> exists qs', mpi_run (N:=RNum) sph m rc types (d_fl t) (d_msgs t) (procs (moved (displaced (tag (d_L t) i) c u) t) st) = Some qs' /\
         E u = added_energy (d_acc t) (map (fun q => pr_a q) qs')) /\
      derivable_pt_lim E 0 (- added_force (map (fun l : lmp RNum => atom_tag l) (d_ranks t)) (d_acc t) (map (fun q => pr_a q) qs) (tag (d_L t) i) c).
Proof. exact mpi_forces. Qed.
Print Assumptions C53_mpi_forces.

(** ** C53, mode no_mpi_message_passing *)
Theorem C53_no_mpi_forces : forall sph, sph_ok (N:=RNum) sph -> sph_gradient sph -> forall srt, (forall l, Permutation l (srt l)) ->
  forall f, file_ok f -> smooth_ok f -> forall types (rc : R) P ts t pbs, length pbs = P -> off_cutoff (d_L t) rc ->
  smooth_at f (nd_input types rc (d_owner t) (d_L t)) (i_xyz (nd_input types rc (d_owner t) (d_L t))) -> eflag_global (d_fl t) = true ->
  Forall (step_ok f rc types (needed_no_mpi (N:=RNum) rc) P) ts -> step_ok f rc types (needed_no_mpi (N:=RNum) rc) P t ->
  (forall l, In l (d_ranks t) -> off_cutoff_at (needed_no_mpi (N:=RNum) rc l) l rc) ->
  exists m b0 st qs, load_from_json srt f = Some (m, b0) /\
    no_mpi_steps sph m rc types ts (map (fun pb => (b0, pb)) pbs) = Some st /\
    no_mpi_run sph m rc types (d_fl t) (procs t st) = Some qs /\ length qs = P /\
    forall i c, (i < nlocal (d_L t))%nat -> (c < 3)%nat -> exists E del, 0 < del /\
      (forall u, Rabs u < del -> exists qs', no_mpi_run sph m rc types (d_fl t) (procs (moved (displaced (tag (d_L t) i) c u) t) st) = Some qs' /\
         E u = added_energy (d_acc t) (map (fun q => pr_a q) qs')) /\
      derivable_pt_lim E 0 (- added_force (map (fun l : lmp RNum => atom_tag l) (d_ranks t)) (d_acc t) (map (fun q => pr_a q) qs) (tag (d_L t) i) c).
Proof. exact no_forces. Qed.
Print Assumptions C53_no_mpi_forces.

(** the y-component of the force on the atom with tag 12: copies on both processes *)
Example C53_dist_example : forall pb0 pb1,
  (exists m b0 st qs E del, load_from_json (fun l => l) ex_file = Some (m, b0) /\ mpi_steps ex_sph m px_rc px_types [dx_step] [(b0, pb0); (b0, pb1)] = Some st /\
     mpi_run (N:=RNum) ex_sph m px_rc px_types px_ev dx_msgs (procs dx_step st) = Some qs /\ 0 < del /\
     (forall u, Rabs u < del -> exists qs', mpi_run (N:=RNum) ex_sph m px_rc px_types px_ev dx_msgs (procs (moved (displaced 12 1 u) dx_step) st) = Some qs' /\
        E u = added_energy [dx_acc 12; dx_acc 9] (map (fun q => pr_a q) qs')) /\
     let f r k := nth (3 * k + 1) (force (nth r (map (fun q => pr_a q) qs) no_acc)) 0 - 3 in
     derivable_pt_lim E 0 (- total (map (fun z => f (fst z) (snd z)) [(0, 1); (0, 3); (0, 4); (0, 7); (1, 0); (1, 6); (1, 7)]%nat))) /\
  (exists m b0 st qs E del, load_from_json (fun l => l) ex_file = Some (m, b0) /\ no_mpi_steps ex_sph m px_rc px_types [dx_step] [(b0, pb0); (b0, pb1)] = Some st /\
     no_mpi_run ex_sph m px_rc px_types px_ev (procs dx_step_r st) = Some qs /\ 0 < del /\
     (forall u, Rabs u < del -> exists qs', no_mpi_run ex_sph m px_rc px_types px_ev (procs (moved (displaced 12 1 u) dx_step_r) st) = Some qs' /\
        E u = added_energy [dx_acc 12; dx_acc 9] (map (fun q => pr_a q) qs')) /\
     let f r k := nth (3 * k + 1) (force (nth r (map (fun q => pr_a q) qs) no_acc)) 0 - 3 in
     derivable_pt_lim E 0 (- total (map (fun z => f (fst z) (snd z)) [(0, 1); (0, 3); (0, 4); (0, 7); (1, 0); (1, 6); (1, 7)]%nat))).
Proof.
  intros pb0 pb1. split.
  - destruct (C53_mpi_forces ex_sph ex_sph_ok ex_sph_gradient (fun l => l) (fun l => Permutation_refl l) ex_file ex_file_ok ex_smooth px_types px_rc 2 [dx_step] dx_step [pb0; pb1]
      eq_refl px_off px_smooth_at eq_refl (Forall_cons _ dx_mpi_step (Forall_nil _)) dx_mpi_step dx_off) as (m & b0 & st & qs & H1 & H2 & H3 & H4 & H5).
    destruct (H5 1%nat 1%nat ltac:(cbn; lia) ltac:(lia)) as (E & del & D1 & D2 & D3). exists m, b0, st, qs, E, del. do 5 (split; [assumption|]). cbv zeta.
    match type of D3 with derivable_pt_lim _ _ ?v => match goal with |- derivable_pt_lim _ _ ?w => replace w with v; [exact D3|] end end. f_equal.
  - destruct (C53_no_mpi_forces ex_sph ex_sph_ok ex_sph_gradient (fun l => l) (fun l => Permutation_refl l) ex_file ex_file_ok ex_smooth px_types px_rc 2 [dx_step] dx_step_r [pb0; pb1]
      eq_refl px_off px_smooth_at eq_refl (Forall_cons _ dx_no_step (Forall_nil _)) dx_no_step_r dx_off_r) as (m & b0 & st & qs & H1 & H2 & H3 & H4 & H5).
    destruct (H5 1%nat 1%nat ltac:(cbn; lia) ltac:(lia)) as (E & del & D1 & D2 & D3). exists m, b0, st, qs, E, del. do 5 (split; [assumption|]). cbv zeta.
    match type of D3 with derivable_pt_lim _ _ ?v => match goal with |- derivable_pt_lim _ _ ?w => replace w with v; [exact D3|] end end. f_equal.
Qed.

(** ** C38, mode mpi_message_passing: for every symmetric strain [e] of the positions on all processes, the derivative of the sum
    over the processes of what is added to the energy is minus the contraction of [e] with the sum of what is added to the
    virials (order xx, yy, zz, xy, xz, yz) *)
Theorem C38_mpi_virial : forall sph, sph_ok (N:=RNum) sph -> sph_gradient sph -> forall srt, (forall l, Permutation l (srt l)) ->
  forall f, file_ok f -> smooth_ok f -> forall types (rc : R) P ts t pbs, length pbs = P -> off_cutoff (d_L t) rc ->
  smooth_at f (nd_input types rc (d_owner t) (d_L t)) (i_xyz (nd_input types rc (d_owner t) (d_L t))) -> eflag_global (d_fl t) = true ->
  forall e, Forall (mpi_step_ok f rc types P) ts -> mpi_step_ok f rc types P t -> (forall l, In l (d_ranks t) -> off_cutoff_at (needed_mpi l) l rc) ->
  vflag_global (d_fl t) = true -> (forall i c, e i c = e c i) ->
  exists m b0 st qs E del, load_from_json srt f = Some (m, b0) /\
    mpi_steps sph m rc types ts (map (fun pb => (b0, pb)) pbs) = Some st /\
    mpi_run (N:=RNum) sph m rc types (d_fl t) (d_msgs t) (procs t st) = Some qs /\ length qs = P /\ 0 < del /\
    (forall u, Rabs u < del -> exists qs', mpi_run (N:=RNum) sph m rc types (d_fl t) (d_msgs t) (procs (moved (strained e u) t) st) = Some qs' /\
       E u = added_energy (d_acc t) (map (fun q => pr_a q) qs')) /\
    let v := added_virial (d_acc t) (map (fun q => pr_a q) qs) in
    derivable_pt_lim E 0 (- (v 0%nat * e 0%nat 0%nat + v 1%nat * e 1%nat 1%nat + v 2%nat * e 2%nat 2%nat
                               + 2 * (v 3%nat * e 0%nat 1%nat) + 2 * (v 4%nat * e 0%nat 2%nat) + 2 * (v 5%nat * e 1%nat 2%nat))).
Proof. exact mpi_strain. Qed.
Print Assumptions C38_mpi_virial.

(** ** C38, mode no_mpi_message_passing *)
Theorem C38_no_mpi_virial : forall sph, sph_ok (N:=RNum) sph -> sph_gradient sph -> forall srt, (forall l, Permutation l (srt l)) ->
  forall f, file_ok f -> smooth_ok f -> forall types (rc : R) P ts t pbs, length pbs = P -> off_cutoff (d_L t) rc ->
  smooth_at f (nd_input types rc (d_owner t) (d_L t)) (i_xyz (nd_input types rc (d_owner t) (d_L t))) -> eflag_global (d_fl t) = true ->
  forall e, Forall (step_ok f rc types (needed_no_mpi (N:=RNum) rc) P) ts -> step_ok f rc types (needed_no_mpi (N:=RNum) rc) P t ->
  (forall l, In l (d_ranks t) -> off_cutoff_at (needed_no_mpi (N:=RNum) rc l) l rc) ->
  vflag_global (d_fl t) = true -> (forall i c, e i c = e c i) ->
  exists m b0 st qs E del, load_from_json srt f = Some (m, b0) /\
    no_mpi_steps sph m rc types ts (map (fun pb => (b0, pb)) pbs) = Some st /\
    no_mpi_run sph m rc types (d_fl t) (procs t st) = Some qs /\ length qs = P /\ 0 < del /\
    (forall u, Rabs u < del -> exists qs', no_mpi_run sph m rc types (d_fl t) (procs (moved (strained e u) t) st) = Some qs' /\
       E u = added_energy (d_acc t) (map (fun q => pr_a q) qs')) /\
    let v := added_virial (d_acc t) (map (fun q => pr_a q) qs) in
    derivable_pt_lim E 0 (- (v 0%nat * e 0%nat 0%nat + v 1%nat * e 1%nat 1%nat + v 2%nat * e 2%nat 2%nat
                               + 2 * (v 3%nat * e 0%nat 1%nat) + 2 * (v 4%nat * e 0%nat 2%nat) + 2 * (v 5%nat * e 1%nat 2%nat))).
Proof. exact no_strain. Qed.
Print Assumptions C38_no_mpi_virial.

(** expansion in direction z *)
Example C38_dist_example : forall pb0 pb1, let e i c := match i, c with 2%nat, 2%nat => 1 | _, _ => 0 end in
  (exists m b0 st qs E del, load_from_json (fun l => l) ex_file = Some (m, b0) /\ mpi_steps ex_sph m px_rc px_types [dx_step] [(b0, pb0); (b0, pb1)] = Some st /\
     mpi_run (N:=RNum) ex_sph m px_rc px_types px_ev dx_msgs (procs dx_step st) = Some qs /\ length qs = 2%nat /\ 0 < del /\
     (forall u, Rabs u < del -> exists qs', mpi_run (N:=RNum) ex_sph m px_rc px_types px_ev dx_msgs (procs (moved (strained e u) dx_step) st) = Some qs' /\
        E u = added_energy [dx_acc 12; dx_acc 9] (map (fun q => pr_a q) qs')) /\
     derivable_pt_lim E 0 (- added_virial [dx_acc 12; dx_acc 9] (map (fun q => pr_a q) qs) 2)) /\
  (exists m b0 st qs E del, load_from_json (fun l => l) ex_file = Some (m, b0) /\ no_mpi_steps ex_sph m px_rc px_types [dx_step] [(b0, pb0); (b0, pb1)] = Some st /\
     no_mpi_run ex_sph m px_rc px_types px_ev (procs dx_step_r st) = Some qs /\ length qs = 2%nat /\ 0 < del /\
     (forall u, Rabs u < del -> exists qs', no_mpi_run ex_sph m px_rc px_types px_ev (procs (moved (strained e u) dx_step_r) st) = Some qs' /\
        E u = added_energy [dx_acc 12; dx_acc 9] (map (fun q => pr_a q) qs')) /\
     derivable_pt_lim E 0 (- added_virial [dx_acc 12; dx_acc 9] (map (fun q => pr_a q) qs) 2)).
Proof.
  intros pb0 pb1 e.
  assert (Hs : forall i c, e i c = e c i) by (intros i c; unfold e; destruct i as [|[|[|i]]], c as [|[|[|c]]]; reflexivity).
  split.
  - destruct (C38_mpi_virial ex_sph ex_sph_ok ex_sph_gradient (fun l => l) (fun l => Permutation_refl l) ex_file ex_file_ok ex_smooth px_types px_rc 2 [dx_step] dx_step [pb0; pb1]
      eq_refl px_off px_smooth_at eq_refl e (Forall_cons _ dx_mpi_step (Forall_nil _)) dx_mpi_step dx_off eq_refl Hs) as (m & b0 & st & qs & E & del & H1 & H2 & H3 & H4 & H5 & H6 & H7).
    exists m, b0, st, qs, E, del. do 6 (split; [assumption|]). cbv zeta in H7.
    match type of H7 with derivable_pt_lim _ _ ?v => match goal with |- derivable_pt_lim _ _ ?w => replace w with v; [exact H7|] end end. unfold e. cbn [d_acc dx_step dx_step_r]. ring.
  - destruct (C38_no_mpi_virial ex_sph ex_sph_ok ex_sph_gradient (fun l => l) (fun l => Permutation_refl l) ex_file ex_file_ok ex_smooth px_types px_rc 2 [dx_step] dx_step_r [pb0; pb1]
      eq_refl px_off px_smooth_at eq_refl e (Forall_cons _ dx_no_step (Forall_nil _)) dx_no_step_r dx_off_r eq_refl Hs) as (m & b0 & st & qs & E & del & H1 & H2 & H3 & H4 & H5 & H6 & H7).
    exists m, b0, st, qs, E, del. do 6 (split; [assumption|]). cbv zeta in H7.
    match type of H7 with derivable_pt_lim _ _ ?v => match goal with |- derivable_pt_lim _ _ ?w => replace w with v; [exact H7|] end end. unfold e. cbn [d_acc dx_step dx_step_r]. ring.
Qed.
