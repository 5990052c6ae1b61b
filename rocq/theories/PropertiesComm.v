(** Property C88: the message sizes that [pair_coeff] announces to LAMMPS are those of the messages.
    LAMMPS allocates comm_forward (comm_reverse) elements per atom of a message and calls the pack function with that buffer. *)
From Coq Require Import String List Arith Permutation Lia.
From Verif Require Import Base BaseLemmas Instances PairModel PairKokkosModel PairKokkosComm CommSize.
Import ListNotations.

(** CPU style: a buffer of the announced size is filled exactly, atom by atom; a smaller one is overrun. *)
Theorem C88_message_size : forall (N : Num) L C, let (cf, cr) := coeff_comm "mpi_message_passing" L C in
  (forall (d : N) H1 sendlist buf, (forall i, In i sendlist -> (i + 1) * (L * C) <= length H1) -> length buf = length sendlist * cf ->
     exists buf', pack_forward_comm (L * C) H1 (length sendlist) sendlist buf = Some (buf', length sendlist * cf) /\ length buf' = length buf /\
       forall ii k, ii < length sendlist -> k < L * C -> nth (ii * cf + k) buf' d = nth (nth ii sendlist 0 * (L * C) + k) H1 d) /\
  (forall H1 sendlist (buf : list N), length buf < length sendlist * cf -> pack_forward_comm (L * C) H1 (length sendlist) sendlist buf = None) /\
  (forall (d : N) H1_adj n first buf, (first + n) * (L * C) <= length H1_adj -> length buf = n * cr ->
     exists buf', pack_reverse_comm (L * C) H1_adj n first buf = Some (buf', n * cr) /\ length buf' = length buf /\
       forall i k, i < n -> k < L * C -> nth (i * cr + k) buf' d = nth ((first + i) * (L * C) + k) H1_adj d) /\
  (forall H1_adj n first (buf : list N), length buf < n * cr -> pack_reverse_comm (L * C) H1_adj n first buf = None).
Proof. exact @lemma_size. Qed.
Print Assumptions C88_message_size.

(** Kokkos style, for every order in which the device performs the copies *)
Theorem C88_message_size_kokkos : forall (N : Num) L C, let (cf, cr) := coeff_comm_kk "mpi_message_passing" L C in
  (forall (d : N) H1 sendlist buf ord, (forall i, In i sendlist -> (i + 1) * (L * C) <= length H1) -> length buf = length sendlist * cf ->
     Permutation ord (list_prod (seq 0 (length sendlist)) (seq 0 (L * C))) ->
     exists buf', pack_forward_comm_kokkos ord (L * C) H1 (length sendlist) sendlist buf = Some (buf', length sendlist * cf) /\ length buf' = length buf /\
       forall ii k, ii < length sendlist -> k < L * C -> nth (ii * cf + k) buf' d = nth (nth ii sendlist 0 * (L * C) + k) H1 d) /\
  (forall (d : N) H1_adj n first buf ord, (first + n) * (L * C) <= length H1_adj -> length buf = n * cr ->
     Permutation ord (list_prod (seq 0 n) (seq 0 (L * C))) ->
     exists buf', pack_reverse_comm_kokkos ord (L * C) H1_adj n first buf = Some (buf', n * cr) /\ length buf' = length buf /\
       forall i k, i < n -> k < L * C -> nth (i * cr + k) buf' d = nth ((first + i) * (L * C) + k) H1_adj d).
Proof. exact @lemma_size_kk. Qed.
Print Assumptions C88_message_size_kokkos.

(** atoms 2 and 0 of three, one angular channel of width 2 *)
Example C88_example : exists buf, pack_forward_comm (N:=QNum) (1 * 2) [nofnat 10; nofnat 11; nofnat 20; nofnat 21; nofnat 30; nofnat 31] 2 [2; 0] (repeat nzero (2 * fst (coeff_comm "mpi_message_passing" 1 2))) = Some (buf, 4)
  /\ buf = [nofnat 30; nofnat 31; nofnat 10; nofnat 11] /\ Permutation [(1, 1); (0, 0); (1, 0); (0, 1)] (list_prod (seq 0 2) (seq 0 (1 * 2))).
Proof.
  eexists. split; [reflexivity|]. split; [reflexivity|]. cbn.
  apply NoDup_Permutation; [repeat constructor; cbn; intuition congruence|repeat constructor; cbn; intuition congruence|]. intros x. cbn. intuition congruence.
Qed.
