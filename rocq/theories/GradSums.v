(** Finite sums needed for transposing the linear stages of the reverse pass. *)
From Coq Require Import List Arith Reals Lia Lra Bool.
From Verif Require Import Base BaseLemmas Segs RSums RList MaceGrid.
Import ListNotations.
Local Open Scope R_scope.

Lemma adj_mat a K (u v : nat -> nat -> R) (Wf : nat -> nat -> nat -> R) :
  rsum a (fun l => rsum K (fun k => u l k * rsum K (fun q => v l q * Wf l q k))) =
  rsum a (fun l => rsum K (fun q => rsum K (fun k => Wf l q k * u l k) * v l q)).
Proof.
  apply rsum_ext. intros l _.
  rewrite (rsum_ext K _ (fun k => rsum K (fun q => u l k * (v l q * Wf l q k)))) by (intros; rewrite rsum_scal_l; reflexivity).
  rewrite rsum_swap. apply rsum_ext. intros q _. rewrite <- rsum_scal_r. apply rsum_ext. intros; ring.
Qed.

Lemma adj_vec K (u v : nat -> R) (Wf : nat -> nat -> R) :
  rsum K (fun k => u k * rsum K (fun q => Wf q k * v q)) = rsum K (fun q => rsum K (fun k => Wf q k * u k) * v q).
Proof.
  rewrite (rsum_ext K _ (fun k => rsum K (fun q => u k * (Wf q k * v q)))) by (intros; rewrite rsum_scal_l; reflexivity).
  rewrite rsum_swap. apply rsum_ext. intros q _. rewrite <- rsum_scal_r. apply rsum_ext. intros; ring.
Qed.

Lemma rsum_sq L f : rsum (L * L) f = rsum L (fun l => rsum (2 * l + 1) (fun mm => f (l * l + mm)%nat)).
Proof.
  induction L as [|L IH]; [reflexivity|]. replace (S L * S L)%nat with (L * L + (2 * L + 1))%nat by lia.
  rewrite rsum_add, IH. reflexivity.
Qed.

Lemma rsum_div n K f : (0 < K)%nat -> rsum (n * K) (fun j => f (j / K)%nat (j mod K)%nat) = rsum n (fun a => rsum K (fun k => f a k)).
Proof.
  intros HK. rewrite rsum_prod. apply rsum_ext. intros a _. apply rsum_ext. intros k Hk.
  rewrite Nat.div_add_l, Nat.div_small, Nat.add_0_r by lia.
  rewrite Nat.add_comm, Nat.mod_add, Nat.mod_small by lia. reflexivity.
Qed.

(** a list against weights starting at position [o] *)
Definition wsum (o : nat) (l : list R) (w : nat -> R) : R := rsum (length l) (fun j => nth j l 0 * w (o + j)%nat).

Lemma wsum_app o l1 l2 w : wsum o (l1 ++ l2) w = wsum o l1 w + wsum (o + length l1) l2 w.
Proof.
  unfold wsum. rewrite app_length, rsum_add. f_equal.
  - apply rsum_ext. intros j Hj. rewrite app_nth1 by auto. reflexivity.
  - apply rsum_ext. intros j Hj. rewrite app_nth2_plus. do 2 f_equal. lia.
Qed.
Lemma wsum_tab o n f w : wsum o (tab n f) w = rsum n (fun j => f j * w (o + j)%nat).
Proof. unfold wsum. rewrite length_tab. apply rsum_ext. intros j Hj. rewrite nth_tab by auto. reflexivity. Qed.

Lemma wsum_flat (g : nat -> list R) n (off : nat -> nat) w :
  (forall l, (l < n)%nat -> off (S l) = (off l + length (g l))%nat) ->
  wsum (off 0%nat) (flat_map g (seq 0 n)) w = rsum n (fun l => wsum (off l) (g l) w).
Proof.
  intros H. assert (L : forall k, (k <= n)%nat -> (off 0 + length (flat_map g (seq 0 k)))%nat = off k /\
    wsum (off 0%nat) (flat_map g (seq 0 k)) w = rsum k (fun l => wsum (off l) (g l) w)).
  { induction k as [|k IH]; intros Hk; [split; [simpl; lia|reflexivity]|]. destruct (IH ltac:(lia)) as [I1 I2].
    rewrite seq_S, flat_map_app'. cbn [flat_map Nat.add]. rewrite app_nil_r, app_length. split; [rewrite H by lia; lia|].
    rewrite wsum_app, I2, I1. reflexivity. }
  apply L. lia.
Qed.

(** selecting by an index *)
Lemma rsum_sel {A} n (l : list A) (h : A -> nat) (g : nat -> R) (f : A -> R) : (forall p, In p l -> (h p < n)%nat) ->
  rsum n (fun a => g a * rl (filter (fun p => h p =? a)%nat l) f) = rl l (fun p => g (h p) * f p).
Proof.
  intros H. rewrite (rsum_ext n _ (fun a => rl l (fun p => if (h p =? a)%nat then g a * f p else 0))).
  - rewrite <- rl_rsum_swap. apply rl_ext. intros p Hp. rewrite (rl_select n (h p) (fun a => g a * f p)) by auto. reflexivity.
  - intros a _. rewrite rl_filter, <- rl_scal. apply rl_ext. intros p _. destruct (h p =? a)%nat; ring.
Qed.

Lemma adj_sel {A} (l : list A) na nc K (ha hc : A -> nat) (C : A -> R) (u v : nat -> nat -> R) :
  (forall p, In p l -> (ha p < na)%nat) -> (forall p, In p l -> (hc p < nc)%nat) ->
  rsum na (fun a => rsum K (fun k => u a k * rl (filter (fun p => ha p =? a)%nat l) (fun p => C p * v (hc p) k))) =
  rsum nc (fun c => rsum K (fun k => rl (filter (fun p => hc p =? c)%nat l) (fun p => C p * u (ha p) k) * v c k)).
Proof.
  intros Ha Hc. rewrite rsum_swap. rewrite (rsum_swap nc). apply rsum_ext. intros k _.
  rewrite (rsum_sel na l ha (fun a => u a k)) by auto.
  rewrite (rsum_ext nc _ (fun c => v c k * rl (filter (fun p => hc p =? c)%nat l) (fun p => C p * u (ha p) k))) by (intros; ring).
  rewrite (rsum_sel nc l hc (fun c => v c k)) by auto. apply rl_ext. intros; ring.
Qed.
