(** The size of the messages that [coeff] announces to LAMMPS. *)
From Coq Require Import String List Arith Permutation Lia.
From Verif Require Import Base BaseLemmas PairModel PairKokkosModel PairComm PairKokkosComm.
Import ListNotations.

Section S.
Context {N : Num}.
Variables (L C : nat).

Lemma for_none {St} n (body : nat -> St -> option St) (P : St -> Prop) k s : k < n -> P s ->
  (forall i s s', i < n -> P s -> body i s = Some s' -> P s') -> (forall s, P s -> body k s = None) -> for_ n body s = None.
Proof.
  intros Hk Ps Hp Hn. assert (G : forall m, m <= n -> match for_ m body s with Some s' => P s' /\ m <= k | None => True end).
  { induction m; intros Hm; [split; [exact Ps|lia]|]. rewrite for_S. specialize (IHm ltac:(lia)). destruct (for_ m body s) as [t|]; [|exact I]. cbn [bind].
    destruct IHm as (Pt & Hmk). destruct (body m t) as [t'|] eqn:E; [|exact I]. split; [apply (Hp m t t'); auto; lia|].
    destruct (Nat.eq_dec m k) as [->|]; [|lia]. rewrite (Hn t Pt) in E. discriminate E. }
  specialize (G n (le_n n)). destruct (for_ n body s) as [t|]; [|reflexivity]. lia.
Qed.
Lemma for_keep {St} n (body : nat -> St -> option St) (P : St -> Prop) s s' : (forall i s s', i < n -> P s -> body i s = Some s' -> P s') -> P s -> for_ n body s = Some s' -> P s'.
Proof.
  intros Hp. revert s'. assert (G : forall m, m <= n -> P s -> forall s', for_ m body s = Some s' -> P s').
  { induction m; intros Hm Ps s' E. { injection E as <-. exact Ps. } rewrite for_S in E. destruct (for_ m body s) as [t|] eqn:Et; [|discriminate E]. cbn [bind] in E.
    apply (Hp m t s'); [lia| |exact E]. apply IHm; auto. lia. }
  intros. apply (G n (le_n n)); auto.
Qed.

Lemma row_len W (src : list N) (f : nat -> nat) g (buf buf' : list N) : for_ W (fun k buf => v <- rd src (f k) ;; wr buf (g k) v) buf = Some buf' -> length buf' = length buf.
Proof.
  intros E. apply (for_keep W (fun k buf => v <- rd src (f k) ;; wr buf (g k) v) (fun b => length b = length buf) buf buf'); auto.
  intros i s s' _ Hs E'. destruct (rd src (f i)); [|discriminate E']. cbn [bind] in E'. rewrite (wr_length _ _ _ _ E'). exact Hs.
Qed.
Lemma row_none W (src : list N) (f : nat -> nat) r (buf : list N) : length buf < r * W + W -> 0 < W -> for_ W (fun k buf => v <- rd src (f k) ;; wr buf (r * W + k) v) buf = None.
Proof.
  intros H HW. apply (for_none W (fun k buf => v <- rd src (f k) ;; wr buf (r * W + k) v) (fun b => length b = length buf) (W - 1)); [lia|reflexivity| |].
  - intros i s s' _ Hs E'. destruct (rd src (f i)); [|discriminate E']. cbn [bind] in E'. rewrite (wr_length _ _ _ _ E'). exact Hs.
  - intros s Hs. destruct (rd src _) as [v|]; [|reflexivity]. cbn [bind]. destruct (wr s (r * W + (W - 1)) v) as [t|] eqn:E; [|reflexivity]. apply wr_lt in E. lia.
Qed.

Lemma lemma_size : let (cf, cr) := coeff_comm "mpi_message_passing" L C in
  (forall (d : N) H1 sendlist buf, (forall i, In i sendlist -> (i + 1) * (L * C) <= length H1) -> length buf = length sendlist * cf ->
     exists buf', pack_forward_comm (L * C) H1 (length sendlist) sendlist buf = Some (buf', length sendlist * cf) /\ length buf' = length buf /\
       forall ii k, ii < length sendlist -> k < L * C -> nth (ii * cf + k) buf' d = nth (nth ii sendlist 0 * (L * C) + k) H1 d) /\
  (forall H1 sendlist (buf : list N), length buf < length sendlist * cf -> pack_forward_comm (L * C) H1 (length sendlist) sendlist buf = None) /\
  (forall (d : N) H1_adj n first buf, (first + n) * (L * C) <= length H1_adj -> length buf = n * cr ->
     exists buf', pack_reverse_comm (L * C) H1_adj n first buf = Some (buf', n * cr) /\ length buf' = length buf /\
       forall i k, i < n -> k < L * C -> nth (i * cr + k) buf' d = nth ((first + i) * (L * C) + k) H1_adj d) /\
  (forall H1_adj n first (buf : list N), length buf < n * cr -> pack_reverse_comm (L * C) H1_adj n first buf = None).
Proof.
  unfold coeff_comm. cbn [String.eqb Ascii.eqb Bool.eqb]. split; [|split; [|split]].
  - intros d H1 sl buf Hs Lb. destruct (copy_rows (L * C) d (fun ii => nth ii sl 0) (fun ii => ii) H1 (length sl)) with (dst := buf) as (buf' & E & L' & B & _).
    + intros ii Hii. apply Hs, nth_In, Hii.
    + auto.
    + intros ii Hii. rewrite Lb. nia.
    + exists buf'. split; [|split; [exact L'|exact B]]. unfold pack_forward_comm. erewrite for_body_ext; [rewrite E; reflexivity|]. intros ii s Hii. rewrite (rd_some _ _ 0) by exact Hii. reflexivity.
  - intros H1 sl buf Hb. unfold pack_forward_comm.
    rewrite (for_none (length sl) _ (fun b => length b = length buf) (length sl - 1)); [reflexivity|nia|reflexivity| |].
    + intros i s s' _ Hs E. destruct (rd sl i) as [j|]; [|discriminate E]. cbn [bind] in E. rewrite (row_len _ _ (fun k => j * (L * C) + k) _ _ _ E). exact Hs.
    + intros s Hs. destruct (rd sl _) as [j|]; [|reflexivity]. cbn [bind]. apply (row_none (L * C) H1 (fun k => j * (L * C) + k)); nia.
  - intros d H1 n first buf Hs Lb. destruct (copy_rows (L * C) d (fun ii => first + ii) (fun ii => ii) H1 n) with (dst := buf) as (buf' & E & L' & B & _).
    + intros ii Hii. nia.
    + auto.
    + intros ii Hii. rewrite Lb. nia.
    + exists buf'. split; [|split; [exact L'|exact B]]. unfold pack_reverse_comm. rewrite E. reflexivity.
  - intros H1 n first buf Hb. unfold pack_reverse_comm.
    rewrite (for_none n _ (fun b => length b = length buf) (n - 1)); [reflexivity|nia|reflexivity| |].
    + intros i s s' _ Hs E. rewrite (row_len _ _ (fun k => (first + i) * (L * C) + k) _ _ _ E). exact Hs.
    + intros s Hs. apply (row_none (L * C) H1 (fun k => (first + (n - 1)) * (L * C) + k)); nia.
Qed.
End S.

Lemma lemma_size_kk {N : Num} L C : let (cf, cr) := coeff_comm_kk "mpi_message_passing" L C in
  (forall (d : N) H1 sendlist buf ord, (forall i, In i sendlist -> (i + 1) * (L * C) <= length H1) -> length buf = length sendlist * cf ->
     Permutation ord (list_prod (seq 0 (length sendlist)) (seq 0 (L * C))) ->
     exists buf', pack_forward_comm_kokkos ord (L * C) H1 (length sendlist) sendlist buf = Some (buf', length sendlist * cf) /\ length buf' = length buf /\
       forall ii k, ii < length sendlist -> k < L * C -> nth (ii * cf + k) buf' d = nth (nth ii sendlist 0 * (L * C) + k) H1 d) /\
  (forall (d : N) H1_adj n first buf ord, (first + n) * (L * C) <= length H1_adj -> length buf = n * cr ->
     Permutation ord (list_prod (seq 0 n) (seq 0 (L * C))) ->
     exists buf', pack_reverse_comm_kokkos ord (L * C) H1_adj n first buf = Some (buf', n * cr) /\ length buf' = length buf /\
       forall i k, i < n -> k < L * C -> nth (i * cr + k) buf' d = nth ((first + i) * (L * C) + k) H1_adj d).
Proof.
  pose proof (lemma_size (N:=N) L C) as H. change (coeff_comm_kk "mpi_message_passing" L C) with (coeff_comm "mpi_message_passing" L C). destruct (coeff_comm "mpi_message_passing" L C) as [cf cr].
  destruct H as (A & _ & B & _). split.
  - intros d H1 sl buf ord Hs Lb P. rewrite pack_forward_kk; auto.
  - intros d H1 n first buf ord Hs Lb P. rewrite pack_reverse_kk; auto.
Qed.
