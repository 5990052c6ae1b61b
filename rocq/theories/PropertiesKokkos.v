(** Property theorems for the Kokkos evaluator [MACEKokkos] (mace_kokkos.cpp): C46, C47, C48, C54, C55, C56.
    Model: KkSem.v (threads, views), KkModel.v (the kernels and the host code).  Well-formed files, calls and histories:
    MaceSpec.v, KkSpec.v.  [kk_calls ... xs o]: [o] is one of the possible outcomes of the evaluations of [xs] on a new object,
    the scheduler being free; [o = None] is undefined behaviour, data races included.
    [sph] is the spherical-harmonics library, [junk] the contents of uninitialised memory, [srt] is std::sort up to ties. *)
From Coq Require Import List Arith ZArith Reals Permutation Lia Lra.
From Verif Require Import Base Instances MaceModel MaceSpec MaceExamples GradExamples KkSem KkModel KkSpec KkThms KkExamples.
Import ListNotations.
Local Open Scope nat_scope.

(** ** C46: the first-layer features, computed from tables with the embedding weights folded in *)
Theorem C46_first_layer : forall sph, sph_ok (N:=RNum) sph -> forall junk srt, (forall l, Permutation l (srt l)) ->
  forall f, file_ok f -> kk_file_ok f -> forall hist x, Forall (input_ok f) hist -> input_ok f x ->
  exists km m b0 b1, kk_load_from_json srt f = Some km /\ load_from_json srt f = Some (m, b0) /\
    call sph m b0 x = Some b1 /\ (exists mem, kk_calls sph junk km kk_fresh (hist ++ [x]) (Some mem)) /\
    forall o, kk_calls sph junk km kk_fresh (hist ++ [x]) o -> exists mem, o = Some mem /\
      same3 mem bA0 (i_num_nodes x) ((f_l_max f + 1) * (f_l_max f + 1)) (f_num_channels f) (b_A0 b1).
Proof. exact lemma_C46. Qed.
Print Assumptions C46_first_layer.

(** ** C47: the polynomial kernels, forward and backward, whatever the interleaving *)
Theorem C47_polynomials : forall sph, sph_ok (N:=RNum) sph -> forall junk srt, (forall l, Permutation l (srt l)) ->
  forall f, file_ok f -> kk_file_ok f -> forall hist x, Forall (input_ok f) hist -> input_ok f x ->
  exists km m b0 b1, kk_load_from_json srt f = Some km /\ load_from_json srt f = Some (m, b0) /\
    call sph m b0 x = Some b1 /\ (exists mem, kk_calls sph junk km kk_fresh (hist ++ [x]) (Some mem)) /\
    forall o, kk_calls sph junk km kk_fresh (hist ++ [x]) o -> exists mem, o = Some mem /\
      let n := i_num_nodes x in let K := f_num_channels f in
      let lm := (f_l_max f + 1) * (f_l_max f + 1) in let LM := (f_L_max f + 1) * (f_L_max f + 1) in
      same3 mem bM0 n LM K (b_M0 b1) /\ same3 mem bA0a n lm K (b_A0_adj b1) /\
      same2 mem bM1 n K (b_M1 b1) /\ same3 mem bA1a n lm K (b_A1_adj b1).
Proof. exact lemma_C47. Qed.
Print Assumptions C47_polynomials.

(** ** C48: one energy per atom *)
(** what is there instead: as many entries as the largest system evaluated so far, the surplus ones zero *)
Theorem C48_partial : forall sph, sph_ok (N:=RNum) sph -> forall junk srt, (forall l, Permutation l (srt l)) ->
  forall f, file_ok f -> kk_file_ok f -> forall hist x, Forall (input_ok f) hist -> input_ok f x ->
  exists km, kk_load_from_json srt f = Some km /\
    (exists mem, kk_calls sph junk km kk_fresh (hist ++ [x]) (Some mem)) /\
    forall mem, kk_calls sph junk km kk_fresh (hist ++ [x]) (Some mem) ->
      length (kk_node_energies mem) = fold_left Nat.max (map i_num_nodes (hist ++ [x])) 0 /\
      skipn (i_num_nodes x) (kk_node_energies mem) = repeat 0%R (length (kk_node_energies mem) - i_num_nodes x).
Proof. exact (fun sph _ => lemma_C48 sph). Qed.
Print Assumptions C48_partial.

(** three atoms, then one: three energies *)
Theorem C48_refuted : exists sph junk srt f hist x km mem, sph_ok (N:=RNum) sph /\ (forall l, Permutation l (srt l)) /\
  file_ok f /\ kk_file_ok f /\ Forall (input_ok f) hist /\ input_ok f x /\ kk_load_from_json srt f = Some km /\
  kk_calls sph junk km kk_fresh (hist ++ [x]) (Some mem) /\ length (kk_node_energies mem) <> i_num_nodes x.
Proof. exact lemma_C48_refuted. Qed.
Print Assumptions C48_refuted.

(** ** C54: energies and forces are those of the CPU evaluator, whatever was evaluated before and whatever the scheduler does,
    and there is no undefined behaviour *)
Theorem C54_kokkos_is_cpu : forall sph, sph_ok (N:=RNum) sph -> forall junk srt, (forall l, Permutation l (srt l)) ->
  forall f, file_ok f -> kk_file_ok f -> forall hist x, Forall (input_ok f) hist -> input_ok f x ->
  exists km m b0 b1, kk_load_from_json srt f = Some km /\ load_from_json srt f = Some (m, b0) /\
    call sph m b0 x = Some b1 /\ (exists mem, kk_calls sph junk km kk_fresh (hist ++ [x]) (Some mem)) /\
    forall o, kk_calls sph junk km kk_fresh (hist ++ [x]) o -> exists mem, o = Some mem /\
      firstn (i_num_nodes x) (kk_node_energies mem) = b_node_energies b1 /\
      firstn (length (i_xyz x)) (kk_node_forces mem) = b_node_forces b1.
Proof. exact lemma_C54. Qed.
Print Assumptions C54_kokkos_is_cpu.

(** ** C55: every execution comes to an end, none gets stuck *)
Theorem C55_ends : forall sph, sph_ok (N:=RNum) sph -> forall junk srt, (forall l, Permutation l (srt l)) ->
  forall f, file_ok f -> kk_file_ok f -> forall hist x, Forall (input_ok f) hist -> input_ok f x ->
  exists km, kk_load_from_json srt f = Some km /\
    forall mem, kk_calls sph junk km kk_fresh hist (Some mem) ->
    let start := (kk_compute_node_energies_forces sph junk km (i_num_nodes x) (i_node_types x) (i_num_neigh x)
      (i_neigh_indices x) (i_neigh_types x) (i_xyz x) (i_r x), mem) in
    (forall s, s 0 = start -> ~ forall i, hstep (s i) (s (S i))) /\
    exists mem', forall c, hreach start c -> c = ([], mem') \/ exists c', hstep c c'.
Proof. exact (fun sph _ => lemma_C55 sph). Qed.
Print Assumptions C55_ends.

(** a file, a history with a system of three atoms and one of a single atom, and a system of three atoms meeting the hypotheses
    of all the theorems above *)
Lemma kex_hist : Forall (input_ok ex_file) [ex_x (N:=RNum) (1/2)%R (3/2)%R; ex_one].
Proof. constructor; [apply ex_x_ok; apply ex_in_R; lra|constructor; [apply ex_one_ok|constructor]]. Qed.
Lemma kex_x : input_ok ex_file (ex_y (N:=RNum) (5/2)%R).
Proof. apply ex_y_ok, ex_in_R. lra. Qed.

Example C46_example : exists km m b0 b1, kk_load_from_json (fun l => l) ex_file = Some km /\
  load_from_json (N:=RNum) (fun l => l) ex_file = Some (m, b0) /\ call ex_sph m b0 (ex_y (5/2)%R) = Some b1 /\
  forall o, kk_calls ex_sph (fun _ _ => 7%R) km kk_fresh ([ex_x (1/2)%R (3/2)%R; ex_one] ++ [ex_y (5/2)%R]) o ->
    exists mem, o = Some mem /\ same3 mem bA0 3 4 2 (b_A0 b1).
Proof.
  destruct (C46_first_layer ex_sph ex_sph_ok (fun _ _ => 7%R) (fun l => l) (fun l => Permutation_refl l) ex_file ex_file_ok
    ex_kk_file_ok _ _ kex_hist kex_x) as (km & m & b0 & b1 & E1 & E2 & E3 & _ & H). exists km, m, b0, b1. auto.
Qed.
Example C47_example : exists km m b0 b1, kk_load_from_json (fun l => l) ex_file = Some km /\
  load_from_json (N:=RNum) (fun l => l) ex_file = Some (m, b0) /\ call ex_sph m b0 (ex_y (5/2)%R) = Some b1 /\
  forall o, kk_calls ex_sph (fun _ _ => 7%R) km kk_fresh ([ex_x (1/2)%R (3/2)%R; ex_one] ++ [ex_y (5/2)%R]) o ->
    exists mem, o = Some mem /\ same3 mem bM0 3 4 2 (b_M0 b1) /\ same2 mem bM1 3 2 (b_M1 b1).
Proof.
  destruct (C47_polynomials ex_sph ex_sph_ok (fun _ _ => 7%R) (fun l => l) (fun l => Permutation_refl l) ex_file ex_file_ok
    ex_kk_file_ok _ _ kex_hist kex_x) as (km & m & b0 & b1 & E1 & E2 & E3 & _ & H). exists km, m, b0, b1. do 3 (split; [assumption|]).
  intros o Ho. destruct (H o Ho) as (mem & E & A & _ & B & _). eauto.
Qed.
Example C48_example : exists km mem, kk_load_from_json (fun l => l) ex_file = Some km /\
  kk_calls ex_sph (fun _ _ => 7%R) km kk_fresh ([ex_x (1/2)%R (3/2)%R; ex_one] ++ [ex_y (5/2)%R]) (Some mem) /\
  length (kk_node_energies mem) = 3.
Proof.
  destruct (C48_partial ex_sph ex_sph_ok (fun _ _ => 7%R) (fun l => l) (fun l => Permutation_refl l) ex_file ex_file_ok
    ex_kk_file_ok _ _ kex_hist kex_x) as (km & E & (mem & Em) & H). exists km, mem. do 2 (split; [assumption|]).
  apply (H mem Em).
Qed.
Example C54_example : exists km m b0 b1, kk_load_from_json (fun l => l) ex_file = Some km /\
  load_from_json (N:=RNum) (fun l => l) ex_file = Some (m, b0) /\ call ex_sph m b0 (ex_y (5/2)%R) = Some b1 /\
  exists mem, kk_calls ex_sph (fun _ _ => 7%R) km kk_fresh ([ex_x (1/2)%R (3/2)%R; ex_one] ++ [ex_y (5/2)%R]) (Some mem) /\
    firstn 3 (kk_node_energies mem) = b_node_energies b1 /\ firstn 6 (kk_node_forces mem) = b_node_forces b1.
Proof.
  destruct (C54_kokkos_is_cpu ex_sph ex_sph_ok (fun _ _ => 7%R) (fun l => l) (fun l => Permutation_refl l) ex_file ex_file_ok
    ex_kk_file_ok _ _ kex_hist kex_x) as (km & m & b0 & b1 & E1 & E2 & E3 & (mem & E4) & H). exists km, m, b0, b1. do 3 (split; [assumption|]).
  exists mem. split; [assumption|]. destruct (H _ E4) as (mem' & E & A & B). injection E as <-. split; assumption.
Qed.
Example C55_example : exists km, kk_load_from_json (fun l => l) ex_file = Some km /\
  forall mem, kk_calls ex_sph (fun _ _ => 7%R) km kk_fresh [ex_x (1/2)%R (3/2)%R; ex_one] (Some mem) ->
  forall s, s 0 = (kk_compute_node_energies_forces ex_sph (fun _ _ => 7%R) km 3 [0; 1; 1] [1; 0; 1] [2; 0] [1; 0] (wts 2 6) [5/2; 5/2]%R, mem) ->
  ~ forall i, hstep (s i) (s (S i)).
Proof.
  destruct (C55_ends ex_sph ex_sph_ok (fun _ _ => 7%R) (fun l => l) (fun l => Permutation_refl l) ex_file ex_file_ok
    ex_kk_file_ok _ _ kex_hist kex_x) as (km & E & H). exists km. split; [exact E|]. intros mem Hm. exact (proj1 (H mem Hm)).
Qed.

(** ** C56: the Kokkos evaluator loads every model file that the CPU evaluator loads *)
(** true when no monomial has more than three factors and the radial tables are uniform *)
Theorem C56_partial : forall srt, (forall l, Permutation l (srt l)) -> forall f : mace_file RNum, file_ok f -> kk_file_ok f ->
  exists km m b, kk_load_from_json srt f = Some km /\ load_from_json srt f = Some (m, b).
Proof. exact lemma_C56. Qed.
Print Assumptions C56_partial.
(** a monomial with four factors: writes outside of the table of monomials *)
Theorem C56_refuted : exists (f : mace_file RNum) m b, file_ok f /\ load_from_json (fun l => l) f = Some (m, b) /\
  kk_load_from_json (fun l => l) f = None.
Proof. exact lemma_C56_refuted. Qed.
Print Assumptions C56_refuted.
Example C56_example : exists km m b, kk_load_from_json (N:=RNum) (fun l => l) ex_file = Some km /\
  load_from_json (N:=RNum) (fun l => l) ex_file = Some (m, b).
Proof. exact (C56_partial (fun l => l) (fun l => Permutation_refl l) ex_file ex_file_ok ex_kk_file_ok). Qed.
