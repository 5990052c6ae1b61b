(** Lemmas about the vocabulary of [Base]. *)
From Coq Require Import List Arith ZArith Lia.
From Verif Require Import Base.
Import ListNotations.

Lemma bind_some {A B} (x : option A) (f : A -> option B) a :
  x = Some a -> bind x f = f a.
Proof. intros ->; reflexivity. Qed.

Lemma bind_some_inv {A B} (x : option A) (f : A -> option B) b :
  bind x f = Some b -> exists a, x = Some a /\ f a = Some b.
Proof. destruct x as [a|]; simpl; intros H; [eauto|discriminate]. Qed.

(** ** upd / wr / rd *)
Lemma length_upd {A} (a : list A) i v : length (upd a i v) = length a.
Proof. revert i; induction a as [|x t IH]; intros [|i]; simpl; auto. Qed.

Lemma nth_error_upd {A} (a : list A) i v j :
  nth_error (upd a i v) j =
  if andb (i =? j) (i <? length a) then Some v else nth_error a j.
Proof.
  revert i j; induction a as [|x t IH]; intros [|i] [|j]; simpl; auto.
  - destruct (i =? j); reflexivity.
  - rewrite IH. reflexivity.
Qed.

Lemma nth_upd {A} (a : list A) i v j d :
  i < length a -> nth j (upd a i v) d = if i =? j then v else nth j a d.
Proof.
  revert i j; induction a as [|x t IH]; intros [|i] [|j]; simpl; try lia; auto.
  intros H. apply IH; lia.
Qed.

Lemma rd_some {A} (a : list A) i d : i < length a -> rd a i = Some (nth i a d).
Proof. intros H. unfold rd. apply nth_error_nth'; auto. Qed.

Lemma rd_lt {A} (a : list A) i x : rd a i = Some x -> i < length a.
Proof. unfold rd; intros H. apply nth_error_Some. congruence. Qed.

Lemma rd_nth {A} (a : list A) i x d : rd a i = Some x -> nth i a d = x.
Proof. unfold rd; intros H. apply nth_error_nth; auto. Qed.

Lemma wr_some {A} (a : list A) i v : i < length a -> wr a i v = Some (upd a i v).
Proof. intros H; unfold wr. apply Nat.ltb_lt in H; rewrite H; reflexivity. Qed.

Lemma wr_length {A} (a a' : list A) i v : wr a i v = Some a' -> length a' = length a.
Proof.
  unfold wr. destruct (i <? length a); intros H; inversion H; subst. apply length_upd.
Qed.

Lemma wr_lt {A} (a a' : list A) i v : wr a i v = Some a' -> i < length a.
Proof. unfold wr. destruct (Nat.ltb_spec i (length a)); intros H'; [auto|discriminate]. Qed.

Lemma upd_app_mid {A} (pre : list A) x post v i :
  i = length pre -> upd (pre ++ x :: post) i v = pre ++ v :: post.
Proof. intros ->. induction pre; simpl; congruence. Qed.

Lemma upd_app_r {A} (a b : list A) i v :
  upd (a ++ b) (length a + i) v = a ++ upd b i v.
Proof. induction a; simpl; congruence. Qed.

Lemma upd_app_l {A} (a b : list A) i v :
  i < length a -> upd (a ++ b) i v = upd a i v ++ b.
Proof.
  revert i; induction a as [|x t IH]; intros [|i] H; simpl in *; try lia; auto.
  rewrite IH by lia; reflexivity.
Qed.

Lemma rd_app_r {A} (a b : list A) i : rd (a ++ b) (length a + i) = rd b i.
Proof. unfold rd. rewrite nth_error_app2 by lia. f_equal; lia. Qed.

Lemma rd_app_l {A} (a b : list A) i : i < length a -> rd (a ++ b) i = rd a i.
Proof. unfold rd. intros; apply nth_error_app1; auto. Qed.

Lemma rd_mid {A} (pre seg post : list A) i :
  i < length seg -> rd (pre ++ seg ++ post) (length pre + i) = rd seg i.
Proof. intros H. rewrite rd_app_r. apply rd_app_l; auto. Qed.

Lemma wr_mid {A} (pre seg post : list A) i v :
  i < length seg ->
  wr (pre ++ seg ++ post) (length pre + i) v = Some (pre ++ upd seg i v ++ post).
Proof.
  intros H. rewrite wr_some by (rewrite !app_length; lia).
  rewrite upd_app_r, upd_app_l; auto.
Qed.

Lemma length_resize {A} (d : A) a n : length (resize d a n) = n.
Proof. unfold resize. rewrite app_length, firstn_length, repeat_length. lia. Qed.

Lemma length_fill {A} (d : A) a : length (fill d a) = length a.
Proof. apply repeat_length. Qed.

Lemma fill_resize {A} (d e : A) a n : fill d (resize e a n) = repeat d n.
Proof. unfold fill. rewrite length_resize. reflexivity. Qed.

Lemma list_eq_nth {A} (a b : list A) d :
  length a = length b -> (forall i, i < length a -> nth i a d = nth i b d) -> a = b.
Proof.
  revert b; induction a as [|x t IH]; intros [|y b] Hl H; simpl in *; try lia; auto.
  f_equal.
  - apply (H 0); lia.
  - apply IH; [lia|]. intros i Hi. apply (H (S i)); lia.
Qed.

(** ** tabulation *)
Definition tab {A} (n : nat) (f : nat -> A) : list A := map f (seq 0 n).

Lemma length_tab {A} n (f : nat -> A) : length (tab n f) = n.
Proof. unfold tab. rewrite map_length, seq_length; auto. Qed.

Lemma nth_tab {A} n (f : nat -> A) i d : i < n -> nth i (tab n f) d = f i.
Proof.
  intros H. unfold tab. rewrite nth_indep with (d' := f 0) by (rewrite map_length, seq_length; lia).
  rewrite map_nth, seq_nth; auto.
Qed.

Lemma rd_tab {A} n (f : nat -> A) i : i < n -> rd (tab n f) i = Some (f i).
Proof.
  intros H. rewrite rd_some with (d := f 0) by (rewrite length_tab; lia).
  rewrite nth_tab; auto.
Qed.

Lemma tab_ext {A} n (f g : nat -> A) : (forall i, i < n -> f i = g i) -> tab n f = tab n g.
Proof. intros H. unfold tab. apply map_ext_in. intros i Hi. apply in_seq in Hi. apply H; lia. Qed.

Lemma tab_nth {A} (l : list A) d : l = tab (length l) (fun i => nth i l d).
Proof.
  apply list_eq_nth with (d := d); rewrite ?length_tab; auto.
  intros i Hi. rewrite nth_tab; auto.
Qed.

Lemma tab_S {A} n (f : nat -> A) : tab (S n) f = tab n f ++ [f n].
Proof. unfold tab. rewrite seq_S, map_app. reflexivity. Qed.

Lemma tab_0 {A} (f : nat -> A) : tab 0 f = [].
Proof. reflexivity. Qed.

(** ** loops *)
Lemma for_from_trace {St} (st : nat -> St) n i body :
  (forall k, k < n -> body (i + k) (st k) = Some (st (S k))) ->
  for_from n i body (st 0) = Some (st n).
Proof.
  revert i st; induction n as [|n IH]; intros i st H; simpl; auto.
  specialize (H 0 ltac:(lia)) as H0. rewrite Nat.add_0_r in H0. rewrite H0. simpl.
  apply (IH (S i) (fun k => st (S k))).
  intros k Hk. specialize (H (S k) ltac:(lia)). rewrite Nat.add_succ_r in H. apply H.
Qed.

Lemma for_trace {St} (st : nat -> St) n body s0 s1 :
  s0 = st 0 -> s1 = st n ->
  (forall k, k < n -> body k (st k) = Some (st (S k))) ->
  for_ n body s0 = Some s1.
Proof. intros -> -> H. unfold for_. apply for_from_trace with (i := 0). exact H. Qed.

Lemma for_range_trace {St} (st : nat -> St) lo hi body s0 s1 :
  s0 = st 0 -> s1 = st (hi - lo) ->
  (forall k, k < hi - lo -> body (lo + k) (st k) = Some (st (S k))) ->
  for_range lo hi body s0 = Some s1.
Proof. intros -> -> H. unfold for_range. apply for_from_trace. exact H. Qed.

Lemma for_from_S {St} n i (body : nat -> St -> option St) s :
  for_from (S n) i body s = (s' <- for_from n i body s ;; body (i + n) s').
Proof.
  revert i s; induction n as [|n IH]; intros i s.
  - simpl. rewrite Nat.add_0_r. destruct (body i s); reflexivity.
  - change (for_from (S (S n)) i body s) with (s' <- body i s ;; for_from (S n) (S i) body s').
    change (for_from (S n) i body s) with (s' <- body i s ;; for_from n (S i) body s').
    destruct (body i s) as [s'|]; simpl; auto.
    rewrite Nat.add_succ_r. exact (IH (S i) s').
Qed.

Lemma for_S {St} n (body : nat -> St -> option St) s :
  for_ (S n) body s = (s' <- for_ n body s ;; body n s').
Proof. unfold for_. rewrite for_from_S. reflexivity. Qed.

Lemma for_from_ext {St} n i (b1 b2 : nat -> St -> option St) s :
  (forall k s', k < n -> b1 (i + k) s' = b2 (i + k) s') ->
  for_from n i b1 s = for_from n i b2 s.
Proof.
  revert i s; induction n as [|n IH]; intros i s H; simpl; auto.
  pose proof (H 0 s ltac:(lia)) as H0. rewrite Nat.add_0_r in H0. rewrite H0.
  destruct (b2 i s); simpl; auto. apply IH. intros k s' Hk.
  pose proof (H (S k) s' ltac:(lia)) as H1. rewrite Nat.add_succ_r in H1. exact H1.
Qed.

Lemma for_ext {St} n (b1 b2 : nat -> St -> option St) s :
  (forall k s', k < n -> b1 k s' = b2 k s') -> for_ n b1 s = for_ n b2 s.
Proof. intros H. apply for_from_ext. exact H. Qed.

(** invariant rule: the loop returns [Some], and the invariant holds at the end *)
Lemma for_from_inv {St} (P : nat -> St -> Prop) n i (body : nat -> St -> option St) s :
  P i s ->
  (forall k s, i <= k < i + n -> P k s -> exists s', body k s = Some s' /\ P (S k) s') ->
  exists s', for_from n i body s = Some s' /\ P (i + n) s'.
Proof.
  revert i s; induction n as [|n IH]; intros i s H0 H; simpl.
  - exists s. rewrite Nat.add_0_r. auto.
  - destruct (H i s ltac:(lia) H0) as (s' & -> & H1). simpl.
    rewrite Nat.add_succ_r. apply (IH (S i) s' H1). intros k s1 Hk. apply H; lia.
Qed.

Lemma for_inv {St} (P : nat -> St -> Prop) n (body : nat -> St -> option St) s :
  P 0 s ->
  (forall k s, k < n -> P k s -> exists s', body k s = Some s' /\ P (S k) s') ->
  exists s', for_ n body s = Some s' /\ P n s'.
Proof.
  intros H0 H. unfold for_. apply (for_from_inv P n 0 body s H0).
  intros k s' Hk. apply H; lia.
Qed.

(** ** list helpers *)
Lemma flat_map_seq_shift {A} (f : nat -> list A) n k :
  flat_map f (seq k n) = flat_map (fun i => f (k + i)) (seq 0 n).
Proof.
  revert k f; induction n as [|n IH]; intros k f; auto.
  change (seq k (S n)) with (k :: seq (S k) n). change (seq 0 (S n)) with (0 :: seq 1 n).
  simpl flat_map. rewrite Nat.add_0_r. f_equal. rewrite (IH (S k)), (IH 1).
  rewrite !flat_map_concat_map. f_equal. apply map_ext. intros i. f_equal. lia.
Qed.

Lemma flat_map_ext_in {A B} (f g : A -> list B) l :
  (forall x, In x l -> f x = g x) -> flat_map f l = flat_map g l.
Proof.
  intros H. rewrite !flat_map_concat_map. f_equal. apply map_ext_in; auto.
Qed.

Lemma flat_map_seq_nth {A B} (f : A -> list B) (l : list A) d :
  flat_map (fun i => f (nth i l d)) (seq 0 (length l)) = flat_map f l.
Proof.
  rewrite (tab_nth l d) at 2. unfold tab.
  rewrite !flat_map_concat_map, map_map. reflexivity.
Qed.

Lemma map_seq_nth {A B} (f : A -> B) (l : list A) d :
  map (fun i => f (nth i l d)) (seq 0 (length l)) = map f l.
Proof. rewrite (tab_nth l d) at 2. unfold tab. rewrite map_map. reflexivity. Qed.

Lemma flat_map_app' {A B} (f : A -> list B) l1 l2 :
  flat_map f (l1 ++ l2) = flat_map f l1 ++ flat_map f l2.
Proof. induction l1; simpl; auto. rewrite IHl1, app_assoc; auto. Qed.

Lemma flat_map_S {A} (f : nat -> list A) n :
  flat_map f (seq 0 (S n)) = flat_map f (seq 0 n) ++ f n.
Proof. rewrite seq_S, flat_map_app'. simpl. rewrite app_nil_r. reflexivity. Qed.

Definition lsum (l : list nat) : nat := fold_right Nat.add 0 l.

Lemma lsum_app l1 l2 : lsum (l1 ++ l2) = lsum l1 + lsum l2.
Proof. induction l1; simpl; auto. rewrite IHl1. lia. Qed.

Lemma length_flat_map {A B} (f : A -> list B) l :
  length (flat_map f l) = lsum (map (fun x => length (f x)) l).
Proof. induction l; simpl; auto. rewrite app_length, IHl. reflexivity. Qed.

Lemma length_flat_map_const {A B} (f : A -> list B) l c :
  (forall x, In x l -> length (f x) = c) -> length (flat_map f l) = length l * c.
Proof.
  induction l as [|x l IH]; simpl; intros H; auto.
  rewrite app_length, IH, H by auto. lia.
Qed.

Lemma idx_lt i n p m : i < n -> p < m -> i * m + p < n * m.
Proof. intros. nia. Qed.

(** element [p] of block [i] of a concatenation of equal-length blocks *)
Lemma nth_error_flat_map_const {A B} (f : A -> list B) l c i p x :
  (forall y, In y l -> length (f y) = c) ->
  nth_error l i = Some x -> p < c ->
  nth_error (flat_map f l) (i * c + p) = nth_error (f x) p.
Proof.
  revert i; induction l as [|y l IH]; intros [|i] Hc Hx Hp; simpl in *; try discriminate.
  - inversion Hx; subst. apply nth_error_app1. rewrite Hc; auto.
  - pose proof (Hc y (or_introl eq_refl)) as Hy.
    rewrite nth_error_app2 by lia. rewrite Hy.
    replace (c + i * c + p - c) with (i * c + p) by lia. apply IH; auto.
Qed.

(** element [p] of block [i] of a concatenation of blocks of arbitrary lengths *)
Definition offs {A B} (f : A -> list B) (l : list A) (i : nat) : nat :=
  length (flat_map f (firstn i l)).

Lemma offs_0 {A B} (f : A -> list B) l : offs f l 0 = 0.
Proof. reflexivity. Qed.

Lemma firstn_S_nth {A} (l : list A) i x :
  nth_error l i = Some x -> firstn (S i) l = firstn i l ++ [x].
Proof.
  revert i; induction l as [|y l IH]; intros [|i] H; simpl in *; try discriminate.
  - inversion H; auto.
  - f_equal. apply IH; auto.
Qed.

Lemma offs_S {A B} (f : A -> list B) l i x :
  nth_error l i = Some x -> offs f l (S i) = offs f l i + length (f x).
Proof.
  intros H. unfold offs. rewrite (firstn_S_nth _ _ _ H), flat_map_app', app_length. simpl.
  rewrite app_nil_r. reflexivity.
Qed.

Lemma offs_all {A B} (f : A -> list B) l : offs f l (length l) = length (flat_map f l).
Proof. unfold offs. rewrite firstn_all. reflexivity. Qed.

Lemma nth_error_flat_map_offs {A B} (f : A -> list B) l i p x :
  nth_error l i = Some x -> p < length (f x) ->
  nth_error (flat_map f l) (offs f l i + p) = nth_error (f x) p.
Proof.
  unfold offs. revert i; induction l as [|y l IH]; intros [|i] Hx Hp; simpl in *; try discriminate.
  - inversion Hx; subst. apply nth_error_app1; auto.
  - rewrite app_length. rewrite nth_error_app2 by lia.
    replace (length (f y) + length (flat_map f (firstn i l)) + p - length (f y))
      with (length (flat_map f (firstn i l)) + p) by lia.
    apply IH; auto.
Qed.

Lemma nth_error_flat_map_nil {A B} (f : A -> list B) l i p x :
  nth_error l i = Some x -> p < length (f x) -> offs f l i + p < length (flat_map f l).
Proof.
  intros H Hp. apply nth_error_Some. rewrite (nth_error_flat_map_offs _ _ _ _ _ H Hp).
  apply nth_error_Some; auto.
Qed.
