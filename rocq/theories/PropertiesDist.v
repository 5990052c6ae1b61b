(** Property theorems about distributed evaluation with the LAMMPS pair style: C39.
    Models: PairModel.v, PairMpiModel.v.  Vocabulary: PairSpec.v, PairCommSpec.v, DistSpec.v, MaceSpec.v. *)
From Coq Require Import List Arith ZArith Reals Permutation.
From Verif Require Import Base Instances MaceModel MaceSpec MaceExamples PairModel PairMpiModel PairSpec PairCommSpec PairExamples DistSpec DistThms DistNoThms DistExamples.
Import ListNotations.
Local Open Scope R_scope.

(** ** C39, mode mpi_message_passing: the atoms of a serial system [d_L t] are shared by [P] processes in any way ([mpi_step_ok]:
    every atom is local on one process, its surroundings there are those in the serial system, ghosts carry the tag of their
    owner, the messages reach all ghosts).  After any number of such steps, the next step runs to the end on all processes; the
    energy of every local atom is the serial energy of the atom with the same tag; and the processes together add to energy,
    virial and, summed over the owner and all its ghosts, to the force on every atom what a serial evaluation adds, whatever that
    evaluation was used for before. *)
Theorem C39_mpi_message_passing : forall sph, sph_ok (N:=RNum) sph -> forall srt, (forall l, Permutation l (srt l)) -> forall f, file_ok f ->
  forall types (rc : R) P ts t pbs hist p a, Forall (mpi_step_ok f rc types P) ts -> mpi_step_ok f rc types P t -> length pbs = P ->
  Forall (input_ok f) hist -> acc_ok (d_L t) a ->
  exists m b0 st qs bh b1 p1 a1, load_from_json srt f = Some (m, b0) /\
    mpi_steps sph m rc types ts (map (fun pb => (b0, pb)) pbs) = Some st /\
    mpi_run (N:=RNum) sph m rc types (d_fl t) (d_msgs t) (procs t st) = Some qs /\ length qs = P /\
    calls sph m b0 hist = Some bh /\
    compute_no_domain_decomposition (N:=RNum) sph m rc types (d_fl t) (d_L t) bh p a = Some (b1, p1, a1) /\
    (forall r l q, nth_error (d_ranks t) r = Some l -> nth_error qs r = Some q -> same_energies (d_fl t) (d_L t) l (pr_b q) b1 (pr_a q)) /\
    same_added (d_L t) (map (fun l : lmp RNum => atom_tag l) (d_ranks t)) (d_acc t) (map (fun q => pr_a q) qs) a a1.
Proof. exact mpi_serial. Qed.
Print Assumptions C39_mpi_message_passing.

(** two processes, three atoms, seventeen ghosts, two steps *)
Example C39_mpi_example : forall pb0 pb1 p, exists m b0 st qs b1 p1 a1, load_from_json (fun l => l) ex_file = Some (m, b0) /\
    mpi_steps ex_sph m px_rc px_types [dx_step] [(b0, pb0); (b0, pb1)] = Some st /\
    mpi_run (N:=RNum) ex_sph m px_rc px_types px_ev dx_msgs (procs dx_step st) = Some qs /\ length qs = 2%nat /\
    compute_no_domain_decomposition (N:=RNum) ex_sph m px_rc px_types px_ev px b0 p px_acc = Some (b1, p1, a1) /\
    (forall q0 q1, qs = [q0; q1] ->
       nth 0 (b_node_energies (pr_b q0)) 0 = nth 1 (b_node_energies b1) 0 /\
       nth 0 (b_node_energies (pr_b q1)) 0 = nth 2 (b_node_energies b1) 0 /\
       nth 1 (b_node_energies (pr_b q1)) 0 = nth 0 (b_node_energies b1) 0) /\
    same_added px [[11; 12; 13; 12; 12; 13; 13; 12; 11; 11; 11; 11]; [12; 13; 11; 11; 11; 11; 12; 12; 13]]%nat [dx_acc 12; dx_acc 9] (map (fun q => pr_a q) qs) px_acc a1.
Proof.
  intros pb0 pb1 p. destruct (C39_mpi_message_passing ex_sph ex_sph_ok (fun l => l) (fun l => Permutation_refl l) ex_file ex_file_ok px_types px_rc 2 [dx_step] dx_step [pb0; pb1] [] p px_acc
    (Forall_cons _ dx_mpi_step (Forall_nil _)) dx_mpi_step eq_refl (Forall_nil _) px_acc_ok) as (m & b0 & st & qs & bh & b1 & p1 & a1 & H1 & H2 & H3 & H4 & H5 & H6 & H7 & H8).
  injection H5 as <-. exists m, b0, st, qs, b1, p1, a1. split; [exact H1|]. split; [exact H2|]. split; [exact H3|]. split; [exact H4|]. split; [exact H6|]. split; [|exact H8].
  intros q0 q1 ->. pose proof (H7 0%nat (lift dx_0) q0 eq_refl eq_refl) as S0. pose proof (H7 1%nat (lift dx_1) q1 eq_refl eq_refl) as S1.
  split; [exact (se_node _ _ _ _ _ _ S0 0 0 (le_n _) ltac:(do 2 constructor; constructor) eq_refl)%nat|].
  split; [exact (se_node _ _ _ _ _ _ S1 0 1 ltac:(do 2 constructor) ltac:(do 2 constructor) eq_refl)%nat|exact (se_node _ _ _ _ _ _ S1 1 2 (le_n _) (le_n _) eq_refl)%nat].
Qed.

(** ** C39, mode no_mpi_message_passing: the same, without communication of features; the surroundings of the neighbours of the
    local atoms must also be known to the process ([needed_no_mpi]).  The local atoms may be listed in any order. *)
Theorem C39_no_mpi_message_passing : forall sph, sph_ok (N:=RNum) sph -> forall srt, (forall l, Permutation l (srt l)) -> forall f, file_ok f ->
  forall types (rc : R) P ts t pbs hist p a, Forall (step_ok f rc types (needed_no_mpi (N:=RNum) rc) P) ts ->
  step_ok f rc types (needed_no_mpi (N:=RNum) rc) P t -> length pbs = P ->
  Forall (input_ok f) hist -> acc_ok (d_L t) a ->
  exists m b0 st qs bh b1 p1 a1, load_from_json srt f = Some (m, b0) /\
    no_mpi_steps sph m rc types ts (map (fun pb => (b0, pb)) pbs) = Some st /\
    no_mpi_run sph m rc types (d_fl t) (procs t st) = Some qs /\ length qs = P /\
    calls sph m b0 hist = Some bh /\
    compute_no_domain_decomposition (N:=RNum) sph m rc types (d_fl t) (d_L t) bh p a = Some (b1, p1, a1) /\
    (forall r l q, nth_error (d_ranks t) r = Some l -> nth_error qs r = Some q -> same_energies (d_fl t) (d_L t) l (pr_b q) b1 (pr_a q)) /\
    same_added (d_L t) (map (fun l : lmp RNum => atom_tag l) (d_ranks t)) (d_acc t) (map (fun q => pr_a q) qs) a a1.
Proof. exact no_serial. Qed.
Print Assumptions C39_no_mpi_message_passing.

(** two processes, three atoms, seventeen ghosts; in the second step process 1 lists its atoms in reverse *)
Example C39_no_mpi_example : forall pb0 pb1 p, exists m b0 st qs b1 p1 a1, load_from_json (fun l => l) ex_file = Some (m, b0) /\
    no_mpi_steps ex_sph m px_rc px_types [dx_step] [(b0, pb0); (b0, pb1)] = Some st /\
    no_mpi_run ex_sph m px_rc px_types px_ev (procs dx_step_r st) = Some qs /\ length qs = 2%nat /\
    compute_no_domain_decomposition (N:=RNum) ex_sph m px_rc px_types px_ev px b0 p px_acc = Some (b1, p1, a1) /\
    (forall q0 q1, qs = [q0; q1] ->
       nth 0 (b_node_energies (pr_b q0)) 0 = nth 1 (b_node_energies b1) 0 /\
       nth 1 (b_node_energies (pr_b q1)) 0 = nth 2 (b_node_energies b1) 0 /\
       nth 0 (b_node_energies (pr_b q1)) 0 = nth 0 (b_node_energies b1) 0) /\
    same_added px [[11; 12; 13; 12; 12; 13; 13; 12; 11; 11; 11; 11]; [12; 13; 11; 11; 11; 11; 12; 12; 13]]%nat [dx_acc 12; dx_acc 9] (map (fun q => pr_a q) qs) px_acc a1.
Proof.
  intros pb0 pb1 p. destruct (C39_no_mpi_message_passing ex_sph ex_sph_ok (fun l => l) (fun l => Permutation_refl l) ex_file ex_file_ok px_types px_rc 2 [dx_step] dx_step_r [pb0; pb1] [] p px_acc
    (Forall_cons _ dx_no_step (Forall_nil _)) dx_no_step_r eq_refl (Forall_nil _) px_acc_ok) as (m & b0 & st & qs & bh & b1 & p1 & a1 & H1 & H2 & H3 & H4 & H5 & H6 & H7 & H8).
  injection H5 as <-. exists m, b0, st, qs, b1, p1, a1. split; [exact H1|]. split; [exact H2|]. split; [exact H3|]. split; [exact H4|]. split; [exact H6|]. split; [|exact H8].
  intros q0 q1 ->. pose proof (H7 0%nat (lift dx_0) q0 eq_refl eq_refl) as S0. pose proof (H7 1%nat (lift dx_1r) q1 eq_refl eq_refl) as S1.
  split; [exact (se_node _ _ _ _ _ _ S0 0 0 (le_n _) ltac:(do 2 constructor; constructor) eq_refl)%nat|].
  split; [exact (se_node _ _ _ _ _ _ S1 0 1 ltac:(do 2 constructor) ltac:(do 2 constructor) eq_refl)%nat|exact (se_node _ _ _ _ _ _ S1 1 2 (le_n _) (le_n _) eq_refl)%nat].
Qed.
