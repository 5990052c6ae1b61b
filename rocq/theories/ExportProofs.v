From Coq Require Import List Arith ZArith Lia Sorted Bool.
From Verif Require Import Base BaseLemmas ExportModel ExportSpec.
Import ListNotations.


Lemma upairs_off n a : a <= n -> 2 * offs (fun a => map (pair a) (seq a (n - a))) (seq 0 n) a = a * (2 * n - a + 1).
Proof.
  induction a as [|a IH]; intros H; [reflexivity|].
  rewrite (offs_S _ _ _ a).
  - rewrite map_length, seq_length. nia.
  - rewrite (nth_error_nth' _ 0) by (rewrite seq_length; lia). rewrite seq_nth by lia. reflexivity.
Qed.

Lemma tri_even a n : a < n -> exists q, a * (2 * n - a - 1) = 2 * q.
Proof.
  intros H. destruct (Nat.Even_or_Odd a) as [[b ->]|[b ->]].
  - exists (b * (2 * n - 2 * b - 1)). lia.
  - exists ((2 * b + 1) * (n - b - 1)). nia.
Qed.

Lemma upairs_nth n a b : a <= b -> b < n -> nth_error (upairs n) (a * (2 * n - a - 1) / 2 + b) = Some (a, b).
Proof.
  intros Hab Hb. unfold upairs.
  assert (E : a * (2 * n - a - 1) / 2 + b = offs (fun a => map (pair a) (seq a (n - a))) (seq 0 n) a + (b - a)).
  { pose proof (upairs_off n a ltac:(lia)) as Ho. destruct (tri_even a n ltac:(lia)) as [q Hq]. rewrite Hq.
    rewrite (Nat.mul_comm 2 q), Nat.div_mul by lia. nia. }
  rewrite E. rewrite (nth_error_flat_map_offs _ _ _ _ a).
  - rewrite nth_error_map, (nth_error_nth' _ 0) by (rewrite seq_length; lia). rewrite seq_nth by lia. cbn [option_map].
    do 2 f_equal. lia.
  - rewrite (nth_error_nth' _ 0) by (rewrite seq_length; lia). rewrite seq_nth by lia. reflexivity.
  - rewrite map_length, seq_length. lia.
Qed.

Lemma upairs_length n : length (upairs n) = n * (n + 1) / 2.
Proof.
  unfold upairs. rewrite <- offs_all. rewrite seq_length.
  pose proof (upairs_off n n ltac:(lia)) as H.
  replace (n * (n + 1)) with (offs (fun a => map (pair a) (seq a (n - a))) (seq 0 n) n * 2) by nia.
  rewrite Nat.div_mul by lia. reflexivity.
Qed.

Lemma upairs_in n a b : In (a, b) (upairs n) <-> a <= b /\ b < n.
Proof.
  unfold upairs. rewrite in_flat_map. split.
  - intros (x & Hx & H). apply in_map_iff in H. destruct H as (y & E & H). injection E as <- <-. apply in_seq in Hx, H. lia.
  - intros [H1 H2]. exists a. split; [apply in_seq; lia|]. apply in_map, in_seq. lia.
Qed.

Lemma sorted_nth_lt zs a b x y : StronglySorted lt zs -> a < b -> nth_error zs a = Some x -> nth_error zs b = Some y -> x < y.
Proof.
  intros H; revert a b; induction H as [|z zs H IH Hz]; intros [|a] [|b] Hab Ha Hb; simpl in *; try discriminate; try lia.
  - injection Ha as <-. rewrite Forall_forall in Hz. apply Hz. eapply nth_error_In; eauto.
  - apply (IH a b); auto; lia.
Qed.

Lemma filter_all {A} (P : A -> bool) l : (forall x, In x l -> P x = true) -> filter P l = l.
Proof. induction l as [|x l IH]; intros H; [auto|]. simpl. rewrite H by (simpl; auto). f_equal. apply IH. intros; apply H; simpl; auto. Qed.
Lemma filter_none {A} (P : A -> bool) l : (forall x, In x l -> P x = false) -> filter P l = [].
Proof. induction l as [|x l IH]; intros H; [auto|]. simpl. rewrite H by (simpl; auto). apply IH. intros; apply H; simpl; auto. Qed.

Lemma flat_map_if_filter (z : nat) zs : flat_map (fun b => if b <? z then [] else [(z, b)]) zs = map (pair z) (filter (fun b => negb (b <? z)) zs).
Proof. induction zs as [|b zs IH]; [auto|]. simpl. rewrite IH. destruct (b <? z); reflexivity. Qed.

Lemma sorted_filter_ge zs a z : StronglySorted lt zs -> nth_error zs a = Some z ->
  filter (fun b => negb (b <? z)) zs = skipn a zs.
Proof.
  intros H; revert a; induction H as [|y zs H IH Hy]; intros [|a] Ha; simpl in *; try discriminate.
  - injection Ha as <-. rewrite Nat.ltb_irrefl. simpl. f_equal. apply filter_all. rewrite Forall_forall in Hy.
    intros x Hx. specialize (Hy x Hx). destruct (Nat.ltb_spec x y); [lia|auto].
  - rewrite Forall_forall in Hy. assert (y < z) by (apply Hy; eapply nth_error_In; eauto).
    destruct (Nat.ltb_spec y z); [|lia]. simpl. auto.
Qed.

Lemma nth_skipn' {A} (l : list A) a i d : nth i (skipn a l) d = nth (a + i) l d.
Proof. revert l; induction a as [|a IH]; intros l; [reflexivity|]. destruct l; simpl; [destruct i; reflexivity|apply IH]. Qed.

Lemma export_pairs_eq zs : StronglySorted lt zs ->
  export_pairs zs = map (fun p => (nth (fst p) zs 0, nth (snd p) zs 0)) (upairs (length zs)).
Proof.
  intros H. unfold export_pairs, upairs. 
  rewrite <- (flat_map_seq_nth (fun a_i => flat_map (fun a_j => if a_j <? a_i then [] else [(a_i, a_j)]) zs) zs 0).
  rewrite flat_map_concat_map. rewrite flat_map_concat_map, concat_map, map_map. f_equal. apply map_ext_in.
  intros a Ha. apply in_seq in Ha. rewrite flat_map_if_filter, (sorted_filter_ge zs a) by (auto; apply nth_error_nth'; lia).
  rewrite map_map. cbn [fst snd]. rewrite <- (map_map (fun b => nth b zs 0) (pair (nth a zs 0))). f_equal.
  apply list_eq_nth with (d := 0).
  - rewrite skipn_length, map_length, seq_length. reflexivity.
  - intros i Hi. rewrite skipn_length in Hi. 
    rewrite (nth_indep (map _ _) 0 (nth (length zs) zs 0)) by (rewrite map_length, seq_length; lia).
    rewrite (map_nth (fun b => nth b zs 0)), seq_nth by lia.
    rewrite nth_skipn'. reflexivity.
Qed.

(** ** coupling indices *)
Local Open Scope Z_scope.

Lemma fold_sum (g : nat -> Z) l a : fold_left (fun acc j => acc + g j) l a = a + fold_left (fun acc j => acc + g j) l 0.
Proof. revert a; induction l as [|x l IH]; intros a; cbn [fold_left]; [lia|]. rewrite IH, (IH (0 + g x)). lia. Qed.

Definition zsum (l : list Z) : Z := fold_right Z.add 0 l.
Lemma fold_zsum (g : nat -> Z) l : fold_left (fun acc j => acc + g j) l 0 = zsum (map g l).
Proof. induction l as [|x l IH]; cbn [fold_left map zsum fold_right]; [auto|]. rewrite fold_sum, IH. unfold zsum. cbn [fold_right]. lia. Qed.
Lemma zsum_app a b : zsum (a ++ b) = zsum a + zsum b.
Proof. unfold zsum. induction a; simpl; [auto|]. rewrite IHa. lia. Qed.

(** number of entries of [L] equal to / smaller than l *)
Definition cnt (L : list nat) (l : nat) : Z := Z.of_nat (length (filter (fun x => x =? l)%nat L)).
Definition below (L : list nat) (l : nat) : Z := Z.of_nat (length (filter (fun x => x <? l)%nat L)).
Definition blk (L : list nat) (l : nat) : Z := zsum (map (fun ll => (2 * Z.of_nat ll + 1) * cnt L ll) (seq 0 l)).

Lemma nth_map_seq {A} (g : nat -> A) n i d : (i < n)%nat -> nth i (map g (seq 0 n)) d = g i.
Proof. intros H. rewrite (nth_indep _ _ (g 0%nat)) by (rewrite map_length, seq_length; auto). rewrite map_nth, seq_nth by auto. reflexivity. Qed.

Lemma compute_lme_eq L le l m : compute_lme L le l m = blk L l + (Z.of_nat l + m) * cnt L l + (Z.of_nat le - below L l).
Proof.
  unfold compute_lme. rewrite (fold_zsum (fun ll => (2 * Z.of_nat ll + 1) * nth ll _ 0)).
  rewrite nth_map_seq by lia. unfold blk, cnt, below.
  f_equal. f_equal. f_equal. apply map_ext_in. intros ll Hll. apply in_seq in Hll. rewrite nth_map_seq by lia. reflexivity.
Qed.

Lemma sorted_rank L le l : StronglySorted Peano.le L -> nth_error L le = Some l -> below L l <= Z.of_nat le < below L l + cnt L l.
Proof.
  intros H; revert le; induction H as [|y L H IH Hy]; intros [|k] Hk; simpl in *; try discriminate.
  - injection Hk as <-. unfold below, cnt. simpl. rewrite Nat.ltb_irrefl, Nat.eqb_refl. simpl.
    rewrite (filter_none (fun x => x <? y)%nat); [simpl; lia|]. rewrite Forall_forall in Hy. intros x Hx. apply Nat.ltb_ge. auto.
  - specialize (IH k Hk). unfold below, cnt in *. simpl.
    assert (y <= l)%nat by (rewrite Forall_forall in Hy; apply Hy; eapply nth_error_In; eauto).
    destruct (Nat.ltb_spec y l); destruct (Nat.eqb_spec y l); cbn [length]; try lia.
Qed.

Lemma cnt_nonneg L l : 0 <= cnt L l.
Proof. unfold cnt; lia. Qed.

Lemma blk_S L l : blk L (S l) = blk L l + (2 * Z.of_nat l + 1) * cnt L l.
Proof. unfold blk. rewrite seq_S, map_app, zsum_app. simpl. lia. Qed.

Lemma blk_mono L l l' : (l <= l')%nat -> blk L l <= blk L l'.
Proof. intros H. induction H as [|k H IH]; [lia|]. rewrite blk_S. pose proof (cnt_nonneg L k). nia. Qed.

Lemma lme_in_block L le l m : StronglySorted Peano.le L -> nth_error L le = Some l -> - Z.of_nat l <= m <= Z.of_nat l ->
  blk L l <= compute_lme L le l m < blk L (S l).
Proof.
  intros HS Hl Hm. rewrite compute_lme_eq, blk_S. pose proof (sorted_rank L le l HS Hl). nia.
Qed.

Lemma lme_inj L le l m le' l' m' : StronglySorted Peano.le L -> nth_error L le = Some l -> nth_error L le' = Some l' ->
  - Z.of_nat l <= m <= Z.of_nat l -> - Z.of_nat l' <= m' <= Z.of_nat l' ->
  compute_lme L le l m = compute_lme L le' l' m' -> le = le' /\ m = m'.
Proof.
  intros HS Hl Hl' Hm Hm' E.
  pose proof (lme_in_block L le l m HS Hl Hm) as B. pose proof (lme_in_block L le' l' m' HS Hl' Hm') as B'.
  assert (l = l').
  { destruct (Nat.lt_trichotomy l l') as [Hlt|[?|Hlt]]; auto; exfalso.
    - pose proof (blk_mono L (S l) l' ltac:(lia)). lia.
    - pose proof (blk_mono L (S l') l ltac:(lia)). lia. }
  subst l'. rewrite !compute_lme_eq in E. pose proof (sorted_rank L le l HS Hl). pose proof (sorted_rank L le' l HS Hl').
  assert (m = m') by nia. subst m'. split; [nia|auto].
Qed.

Lemma cnt_cons y L l : cnt (y :: L) l = (if (y =? l)%nat then 1 else 0) + cnt L l.
Proof. unfold cnt. cbn [filter]. destruct (y =? l)%nat; cbn [length]; lia. Qed.

Lemma blk_total L n : (forall l, In l L -> (l < n)%nat) -> blk L n = zsum (map (fun l => 2 * Z.of_nat l + 1) L).
Proof.
  induction L as [|y L IH]; intros H.
  - clear H. induction n as [|n IHn]; [reflexivity|]. rewrite blk_S, IHn. unfold cnt. simpl. lia.
  - unfold zsum in *. cbn [map fold_right]. rewrite <- IH by (intros; apply H; simpl; auto).
    assert (Hy : (y < n)%nat) by (apply H; simpl; auto). clear H IH.
    assert (G : forall k, blk (y :: L) k = (if (y <? k)%nat then 2 * Z.of_nat y + 1 else 0) + blk L k).
    { induction k as [|k IHk]; [reflexivity|]. rewrite !blk_S, IHk, cnt_cons.
      destruct (Nat.eqb_spec y k); destruct (Nat.ltb_spec y k); destruct (Nat.ltb_spec y (S k)); subst; lia. }
    rewrite G. destruct (Nat.ltb_spec y n); lia.
Qed.

Lemma zsum_nat l : zsum (map Z.of_nat l) = Z.of_nat (list_sum l).
Proof. induction l as [|x l IH]; [reflexivity|]. simpl. unfold list_sum in *. rewrite IH. lia. Qed.

Lemma lme_range L le l m : StronglySorted Peano.le L -> nth_error L le = Some l -> - Z.of_nat l <= m <= Z.of_nat l ->
  0 <= compute_lme L le l m < Z.of_nat (list_sum (map (fun l => 2 * l + 1)%nat L)).
Proof.
  intros HS Hl Hm. pose proof (lme_in_block L le l m HS Hl Hm) as B.
  pose proof (blk_mono L 0 l ltac:(lia)) as B0. change (blk L 0) with 0 in B0. split; [lia|].
  assert (Hn : forall x, In x L -> (x < S (list_max L))%nat).
  { intros x Hx. pose proof (proj1 (list_max_le L (list_max L)) (le_n _)) as HF. rewrite Forall_forall in HF. specialize (HF x Hx). lia. }
  pose proof (blk_total L _ Hn) as HT. 
  pose proof (blk_mono L (S l) (S (list_max L)) ltac:(apply Hn; eapply nth_error_In; eauto)).
  rewrite <- zsum_nat, map_map. rewrite (map_ext (fun x => Z.of_nat (2 * x + 1)) (fun l => 2 * Z.of_nat l + 1)) by (intros; lia). lia.
Qed.



Definition prow (L1 L2 : list nat) (le : nat) : list (nat * Z * Z) :=
  flat_map (fun a => map (fun b =>
      (le, Z.of_nat a - Z.of_nat (nth le L1 0%nat), Z.of_nat b - Z.of_nat (nth le L2 0%nat)))
    (seq 0 (2 * nth le L2 0%nat + 1))) (seq 0 (2 * nth le L1 0%nat + 1)).

Lemma prow_length L1 L2 le : length (prow L1 L2 le) = ((2 * nth le L1 0 + 1) * (2 * nth le L2 0 + 1))%nat.
Proof.
  unfold prow. rewrite (length_flat_map_const _ _ (2 * nth le L2 0 + 1)%nat); [rewrite seq_length; auto|].
  intros. rewrite map_length, seq_length. reflexivity.
Qed.

Lemma lel_eq L1 L2 n le m1 m2 : (le < n)%nat ->
  - Z.of_nat (nth le L1 0%nat) <= m1 <= Z.of_nat (nth le L1 0%nat) ->
  - Z.of_nat (nth le L2 0%nat) <= m2 <= Z.of_nat (nth le L2 0%nat) ->
  nth_error (prows L1 L2 n) (Z.to_nat (compute_lelm1lm2 L1 L2 le m1 m2)) = Some (le, m1, m2) /\
  0 <= compute_lelm1lm2 L1 L2 le m1 m2.
Proof.
  intros Hle Hm1 Hm2. set (l1 := nth le L1 0%nat) in *. set (l2 := nth le L2 0%nat) in *.
  set (a := Z.to_nat (Z.of_nat l1 + m1)). set (b := Z.to_nat (Z.of_nat l2 + m2)).
  assert (Ho : forall k, (k <= n)%nat -> Z.of_nat (offs (prow L1 L2) (seq 0 n) k) =
    fold_left (fun acc j => acc + (2 * Z.of_nat (nth j L1 0%nat) + 1) * (2 * Z.of_nat (nth j L2 0%nat) + 1)) (seq 0 k) 0).
  { induction k as [|k IH]; intros Hk; [reflexivity|].
    rewrite (offs_S _ _ _ k) by (rewrite (nth_error_nth' _ 0%nat) by (rewrite seq_length; lia); rewrite seq_nth by lia; reflexivity).
    rewrite seq_S, fold_left_app. cbn [fold_left Nat.add]. rewrite <- IH by lia. rewrite prow_length. lia. }
  assert (E : compute_lelm1lm2 L1 L2 le m1 m2 = Z.of_nat (offs (prow L1 L2) (seq 0 n) le + (a * (2 * l2 + 1) + b))).
  { unfold compute_lelm1lm2. fold l1 l2. rewrite <- Ho by lia. unfold a, b. rewrite !Nat2Z.inj_add, Nat2Z.inj_mul, !Z2Nat.id by lia. lia. }
  rewrite E. split; [|lia]. rewrite Nat2Z.id.
  change (prows L1 L2 n) with (flat_map (prow L1 L2) (seq 0 n)).
  assert (Ha : (a < 2 * l1 + 1)%nat) by (unfold a; lia). assert (Hb : (b < 2 * l2 + 1)%nat) by (unfold b; lia).
  rewrite (nth_error_flat_map_offs _ _ _ _ le).
  - unfold prow. fold l1 l2. rewrite (nth_error_flat_map_const _ _ (2 * l2 + 1) a b a).
    + rewrite nth_error_map, (nth_error_nth' _ 0%nat) by (rewrite seq_length; lia). rewrite seq_nth by lia. cbn [option_map Nat.add].
      unfold a, b. rewrite !Z2Nat.id by lia. do 2 f_equal; [f_equal|]; lia.
    + intros. rewrite map_length, seq_length. reflexivity.
    + rewrite (nth_error_nth' _ 0%nat) by (rewrite seq_length; lia). rewrite seq_nth by lia. reflexivity.
    + auto.
  - rewrite (nth_error_nth' _ 0%nat) by (rewrite seq_length; lia). rewrite seq_nth by lia. reflexivity.
  - rewrite prow_length. fold l1 l2. nia.
Qed.

Lemma nth_filter_rank L l k : StronglySorted Peano.le L -> nth_error L k = Some l ->
  nth_error (filter (fun le => nth le L 0 =? l)%nat (seq 0 (length L))) (k - length (filter (fun x => x <? l)%nat L)) = Some k.
Proof.
  intros HS Hk.
  assert (G : forall o n, nth_error (filter (fun le => nth (le - o) L 0 =? l)%nat (seq o n)) 0 = None \/ True) by auto. clear G.
  assert (M : forall L o k, StronglySorted Peano.le L -> nth_error L k = Some l ->
    nth_error (filter (fun le => nth (le - o) L 0 =? l)%nat (seq o (length L))) (k - length (filter (fun x => x <? l)%nat L)) = Some (o + k)%nat).
  { clear L HS k Hk. intros L o k HS; revert o k. induction HS as [|y L HS IH Hy]; intros o [|k] Hk; simpl in *; try discriminate.
    - injection Hk as ->. rewrite Nat.sub_diag, Nat.eqb_refl, Nat.add_0_r. reflexivity.
    - rewrite Nat.sub_diag.
      assert (E : filter (fun le => match (le - o)%nat with 0%nat => y | S m => nth m L 0%nat end =? l)%nat (seq (S o) (length L)) =
                  filter (fun le => nth (le - S o) L 0 =? l)%nat (seq (S o) (length L))).
      { apply filter_ext_in. intros x Hx. apply in_seq in Hx. replace (x - o)%nat with (S (x - S o)) by lia. reflexivity. }
      rewrite E. specialize (IH (S o) k Hk). replace (o + S k)%nat with (S o + k)%nat by lia.
      assert (Hyl : (y <= l)%nat) by (rewrite Forall_forall in Hy; apply Hy; eapply nth_error_In; eauto).
      destruct (Nat.ltb_spec y l); destruct (Nat.eqb_spec y l); try lia; cbn [length].
      + exact IH.
      + subst y. assert (Z0 : length (filter (fun x => x <? l)%nat L) = 0%nat).
        { rewrite filter_none; [auto|]. rewrite Forall_forall in Hy. intros x Hx. apply Nat.ltb_ge. auto. }
        rewrite Z0 in *. rewrite Nat.sub_0_r in *. cbn [nth_error]. exact IH. }
  specialize (M L 0%nat k HS Hk). rewrite (filter_ext _ (fun le => nth (le - 0) L 0 =? l)%nat); [exact M|].
  intros x. rewrite Nat.sub_0_r. reflexivity.
Qed.

Definition lrow (L : list nat) (l : nat) : list (nat * Z) :=
  flat_map (fun mm => map (fun le => (le, Z.of_nat mm - Z.of_nat l))
    (filter (fun le => nth le L 0 =? l)%nat (seq 0 (length L)))) (seq 0 (2 * l + 1)).

Lemma filter_count_seq L l : length (filter (fun le => nth le L 0 =? l)%nat (seq 0 (length L))) = length (filter (fun x => x =? l)%nat L).
Proof.
  assert (G : forall L o, length (filter (fun le => nth (le - o) L 0 =? l)%nat (seq o (length L))) = length (filter (fun x => x =? l)%nat L)).
  { clear L. induction L as [|y L IH]; intros o; [reflexivity|]. cbn [length seq filter]. rewrite Nat.sub_diag.
    rewrite (filter_ext_in _ (fun le => nth (le - S o) L 0 =? l)%nat).
    - specialize (IH (S o)). destruct (y =? l)%nat eqn:E; cbn [nth]; rewrite E; cbn [length]; rewrite IH; reflexivity.
    - intros x Hx. apply in_seq in Hx. replace (x - o)%nat with (S (x - S o)) by lia. reflexivity. }
  specialize (G L 0%nat). rewrite <- G. f_equal. apply filter_ext. intros x. rewrite Nat.sub_0_r. reflexivity.
Qed.

Lemma lrow_length L l : length (lrow L l) = ((2 * l + 1) * length (filter (fun x => x =? l)%nat L))%nat.
Proof.
  unfold lrow. rewrite (length_flat_map_const _ _ (length (filter (fun x => x =? l)%nat L))); [rewrite seq_length; auto|].
  intros. rewrite map_length. apply filter_count_seq.
Qed.

Lemma lme_row L le l m : StronglySorted Peano.le L -> nth_error L le = Some l -> - Z.of_nat l <= m <= Z.of_nat l ->
  nth_error (lrows L) (Z.to_nat (compute_lme L le l m)) = Some (le, m).
Proof.
  intros HS Hl Hm. set (M := (list_max L + 1)%nat).
  assert (HlM : (l < M)%nat).
  { pose proof (proj1 (list_max_le L (list_max L)) (le_n _)) as HF. rewrite Forall_forall in HF. specialize (HF l (nth_error_In _ _ Hl)). unfold M. lia. }
  assert (Ho : forall k, (k <= M)%nat -> Z.of_nat (offs (lrow L) (seq 0 M) k) = blk L k).
  { induction k as [|k IH]; intros Hk; [reflexivity|].
    rewrite (offs_S _ _ _ k) by (rewrite (nth_error_nth' _ 0%nat) by (rewrite seq_length; lia); rewrite seq_nth by lia; reflexivity).
    rewrite blk_S, <- IH by lia. rewrite lrow_length. unfold cnt. lia. }
  set (c := length (filter (fun x => x =? l)%nat L)). set (bl := length (filter (fun x => x <? l)%nat L)).
  pose proof (sorted_rank L le l HS Hl) as HR. unfold below, cnt in HR. fold c bl in HR.
  assert (E : compute_lme L le l m = Z.of_nat (offs (lrow L) (seq 0 M) l + (Z.to_nat (Z.of_nat l + m) * c + (le - bl)))).
  { rewrite compute_lme_eq, <- Ho by lia. unfold cnt, below. fold c bl. rewrite !Nat2Z.inj_add, Nat2Z.inj_mul, Z2Nat.id by lia. lia. }
  rewrite E, Nat2Z.id. change (lrows L) with (flat_map (lrow L) (seq 0 M)).
  rewrite (nth_error_flat_map_offs _ _ _ _ l).
  - unfold lrow. rewrite (nth_error_flat_map_const _ _ c (Z.to_nat (Z.of_nat l + m)) (le - bl) (Z.to_nat (Z.of_nat l + m))).
    + rewrite nth_error_map. unfold bl. rewrite nth_filter_rank by auto. cbn [option_map]. rewrite Z2Nat.id by lia. do 2 f_equal. lia.
    + intros. rewrite map_length. apply filter_count_seq.
    + rewrite (nth_error_nth' _ 0%nat) by (rewrite seq_length; lia). rewrite seq_nth by lia. reflexivity.
    + lia.
  - rewrite (nth_error_nth' _ 0%nat) by (rewrite seq_length; lia). rewrite seq_nth by lia. reflexivity.
  - rewrite lrow_length. fold c. nia.
Qed.

Lemma lemma_C49_lme Phi1_l le l m : StronglySorted Peano.le Phi1_l ->
  nth_error Phi1_l le = Some l -> - Z.of_nat l <= m <= Z.of_nat l ->
  0 <= compute_lme Phi1_l le l m < Z.of_nat (list_sum (map (fun l => 2 * l + 1)%nat Phi1_l)) /\
  nth_error (lrows Phi1_l) (Z.to_nat (compute_lme Phi1_l le l m)) = Some (le, m) /\
  (forall le' l' m', nth_error Phi1_l le' = Some l' -> - Z.of_nat l' <= m' <= Z.of_nat l' ->
     compute_lme Phi1_l le l m = compute_lme Phi1_l le' l' m' -> le = le' /\ m = m').
Proof.
  intros HS Hl Hm. split; [apply lme_range; auto|]. split; [apply lme_row; auto|].
  intros le' l' m' Hl' Hm' E. exact (lme_inj _ _ _ _ _ _ _ HS Hl Hl' Hm Hm' E).
Qed.

Lemma prows_length L1 L2 n : length (prows L1 L2 n) =
  list_sum (map (fun q => (2 * nth q L1 0 + 1) * (2 * nth q L2 0 + 1))%nat (seq 0 n)).
Proof.
  change (prows L1 L2 n) with (flat_map (prow L1 L2) (seq 0 n)). induction (seq 0 n) as [|q l IH]; [reflexivity|].
  cbn [flat_map map list_sum fold_right]. rewrite app_length, IH, prow_length. reflexivity.
Qed.

Lemma lemma_C49_lel Phi1_l1 Phi1_l2 n le m1 m2 : (le < n)%nat ->
  - Z.of_nat (nth le Phi1_l1 0%nat) <= m1 <= Z.of_nat (nth le Phi1_l1 0%nat) ->
  - Z.of_nat (nth le Phi1_l2 0%nat) <= m2 <= Z.of_nat (nth le Phi1_l2 0%nat) ->
  0 <= compute_lelm1lm2 Phi1_l1 Phi1_l2 le m1 m2 <
    Z.of_nat (list_sum (map (fun q => (2 * nth q Phi1_l1 0 + 1) * (2 * nth q Phi1_l2 0 + 1))%nat (seq 0 n))) /\
  nth_error (prows Phi1_l1 Phi1_l2 n) (Z.to_nat (compute_lelm1lm2 Phi1_l1 Phi1_l2 le m1 m2)) = Some (le, m1, m2) /\
  (forall le' m1' m2', (le' < n)%nat ->
     - Z.of_nat (nth le' Phi1_l1 0%nat) <= m1' <= Z.of_nat (nth le' Phi1_l1 0%nat) ->
     - Z.of_nat (nth le' Phi1_l2 0%nat) <= m2' <= Z.of_nat (nth le' Phi1_l2 0%nat) ->
     compute_lelm1lm2 Phi1_l1 Phi1_l2 le m1 m2 = compute_lelm1lm2 Phi1_l1 Phi1_l2 le' m1' m2' ->
     le = le' /\ m1 = m1' /\ m2 = m2').
Proof.
  intros Hle H1 H2. destruct (lel_eq Phi1_l1 Phi1_l2 n le m1 m2 Hle H1 H2) as [E P].
  split; [|split; [exact E|]].
  - split; [exact P|]. assert (H : nth_error (prows Phi1_l1 Phi1_l2 n) (Z.to_nat (compute_lelm1lm2 Phi1_l1 Phi1_l2 le m1 m2)) <> None) by congruence.
    apply nth_error_Some in H. rewrite prows_length in H. lia.
  - intros le' m1' m2' Hle' H1' H2' Q. destruct (lel_eq Phi1_l1 Phi1_l2 n le' m1' m2' Hle' H1' H2') as [E' _].
    rewrite <- Q, E in E'. injection E' as -> -> ->. auto.
Qed.

Local Open Scope nat_scope.
Lemma lemma_C10_export zs a b za zb : StronglySorted lt zs ->
  nth_error zs a = Some za -> nth_error zs b = Some zb -> a <= b ->
  nth_error (export_pairs zs) (a * (2 * length zs - a - 1) / 2 + b) = Some (za, zb) /\
  length (export_pairs zs) = length zs * (length zs + 1) / 2.
Proof.
  intros HS Ha Hb Hab. assert (Hbl : b < length zs) by (apply nth_error_Some; congruence).
  rewrite export_pairs_eq by auto. split.
  - rewrite nth_error_map, upairs_nth by auto. cbn [option_map fst snd].
    rewrite (nth_error_nth _ _ 0 Ha), (nth_error_nth _ _ 0 Hb). reflexivity.
  - rewrite map_length. apply upairs_length.
Qed.
