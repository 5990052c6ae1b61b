(** Proofs about _partitions and _permutations. *)
From Coq Require Import List Arith ZArith Lia Permutation Sorted Bool Factorial.
From Verif Require Import Base BaseLemmas Segs ToolsModel ToolsSpec ToolsProofs ToolsProofs2.
Import ListNotations.

(** ** set partitions *)
Definition ext {A} (a : A) (p : list (list A)) : list (list (list A)) :=
  (p ++ [[a]]) :: map (fun j => upd p j (nth j p [] ++ [a])) (seq 0 (length p)).

Fixpoint pparts (n : nat) : list (list (list nat)) :=
  match n with O => [[[0]]] | S n' => flat_map (ext (S n')) (pparts n') end.

Lemma map_upd {A B} (f : A -> B) l j a : map f (upd l j a) = upd (map f l) j (f a).
Proof. revert j; induction l as [|x l IH]; intros [|j]; simpl; auto. rewrite IH. reflexivity. Qed.

Lemma ext_map {A B} (f : A -> B) a p : ext (f a) (map (map f) p) = map (map (map f)) (ext a p).
Proof.
  unfold ext. cbn [map]. rewrite map_app. f_equal. rewrite map_length, map_map. apply map_ext_in.
  intros j Hj. apply in_seq in Hj. rewrite map_upd, map_app. f_equal. f_equal.
  rewrite nth_indep with (d' := map f []) by (rewrite map_length; lia). rewrite map_nth. reflexivity.
Qed.

Lemma partitions_ok {A} (srt : list (list (list A)) -> list (list (list A))) (v : list A) d : v <> [] ->
  partitions srt v = Some (srt (map (map (map (fun i => nth i v d))) (pparts (length v - 1)))).
Proof.
  intros Hv. unfold partitions. destruct v as [|v0 v']; [congruence|]. clear Hv.
  set (v := v0 :: v'). assert (Hl : length v = S (length v')) by reflexivity. rewrite Hl.
  simpl (S (length v') =? 0). cbv iota. replace (rd v 0) with (Some v0) by reflexivity. cbn [bind].
  replace (S (length v') - 1) with (length v') by lia.
  rewrite for_range_trace with (st := fun k => map (map (map (fun i => nth i v d))) (pparts k))
    (s1 := map (map (map (fun i => nth i v d))) (pparts (length v'))).
  - reflexivity.
  - reflexivity.
  - rewrite Nat.sub_succ, Nat.sub_0_r. reflexivity.
  - intros k Hk. change (1 + k) with (S k). rewrite (rd_some v (S k) d) by lia. cbn [bind].
    set (vi := nth (S k) v d).
    rewrite (for_push _ _ (ext vi)).
    + f_equal. cbn [app pparts]. rewrite flat_map_map, map_flat_map. apply flat_map_ext_in.
      intros p _. apply (ext_map (fun i => nth i v d) (S k) p).
    + intros p ps Hp. rewrite (for_push_tab _ _ (fun j => [upd p j (nth j p [] ++ [vi])])).
      * unfold ext. rewrite <- app_assoc. reflexivity.
      * intros j qs Hj. rewrite push_block_ok by auto. reflexivity.
Qed.

Lemma existsb_eqb i b : existsb (Nat.eqb i) b = true <-> In i b.
Proof.
  rewrite existsb_exists. split.
  - intros (x & Hx & E). apply Nat.eqb_eq in E. subst. auto.
  - intros H. exists i. rewrite Nat.eqb_refl. auto.
Qed.

Lemma same_block_iff p i j : same_block p i j = true <-> exists b, In b p /\ In i b /\ In j b.
Proof.
  unfold same_block. rewrite existsb_exists. split.
  - intros (b & Hb & E). apply andb_true_iff in E as [E1 E2]. apply existsb_eqb in E1, E2. eauto.
  - intros (b & Hb & E1 & E2). exists b. split; auto. apply andb_true_iff. rewrite !existsb_eqb. auto.
Qed.

Lemma same_block_idx p i j : same_block p i j = true <-> exists k, k < length p /\ In i (nth k p []) /\ In j (nth k p []).
Proof.
  rewrite same_block_iff. split.
  - intros (b & Hb & H). apply In_nth with (d := []) in Hb as (k & Hk & <-). eauto.
  - intros (k & Hk & H). exists (nth k p []). split; auto. apply nth_In; auto.
Qed.

Lemma induces_iff n E p : induces n E p = true <-> forall i j, i < n -> j < n -> same_block p i j = E i j.
Proof.
  unfold induces. rewrite forallb_forall. split.
  - intros H i j Hi Hj. specialize (H i). rewrite in_seq, forallb_forall in H. specialize (H ltac:(lia) j).
    rewrite in_seq in H. specialize (H ltac:(lia)). apply eqb_prop in H. auto.
  - intros H i Hi. apply forallb_forall. intros j Hj. apply in_seq in Hi, Hj. rewrite H by lia. apply eqb_reflx.
Qed.

Lemma NoDup_app_remove_l {A} (l l' : list A) : NoDup (l ++ l') -> NoDup l'.
Proof. induction l as [|x l IH]; simpl; auto. intros H. inversion H; auto. Qed.

Lemma NoDup_concat_idx (p : list (list nat)) k k' i : NoDup (concat p) -> k < length p -> k' < length p ->
  In i (nth k p []) -> In i (nth k' p []) -> k = k'.
Proof.
  revert k k'; induction p as [|b p IH]; intros k k' Hn Hk Hk' Hi Hi'; [simpl in Hk; lia|].
  simpl in Hn.
  assert (Hb : forall k, k < length p -> In i (nth k p []) -> In i b -> False).
  { intros q Hq H1 H2. apply in_split in H2 as (l1 & l2 & ->). rewrite <- app_assoc in Hn. simpl in Hn.
    apply NoDup_remove_2 in Hn. apply Hn. apply in_or_app. right. apply in_or_app. right.
    apply in_concat. exists (nth q p []). split; auto. apply nth_In; auto. }
  destruct k as [|k], k' as [|k']; simpl in *; auto.
  - exfalso. apply (Hb k'); auto; lia.
  - exfalso. apply (Hb k); auto; lia.
  - f_equal. apply IH; auto; try lia. apply NoDup_app_remove_l in Hn. auto.
Qed.

Lemma upd_split {A} (p : list A) j d a : j < length p ->
  p = firstn j p ++ nth j p d :: skipn (S j) p /\ upd p j a = firstn j p ++ a :: skipn (S j) p.
Proof.
  revert j; induction p as [|x p IH]; intros [|j] H; simpl in *; try lia; auto.
  destruct (IH j) as [E1 E2]; [lia|]. split; f_equal; auto.
Qed.

Lemma ext_valid n p q : set_partition n p -> In q (ext n p) -> set_partition (S n) q.
Proof.
  intros [H1 H2] Hq. unfold set_partition. rewrite <- (Nat.add_1_r n), seq_app. simpl. destruct Hq as [<-|Hq].
  - split.
    + intros b Hb. apply in_app_or in Hb as [Hb|[<-|[]]]; [auto|discriminate].
    + rewrite concat_app. simpl. apply Permutation_app; auto.
  - apply in_map_iff in Hq as (j & <- & Hj). apply in_seq in Hj.
    destruct (upd_split p j [] (nth j p [] ++ [n])) as [E1 E2]; [lia|]. rewrite E2. split.
    + intros b Hb. apply in_app_or in Hb as [Hb|[<-|Hb]].
      * apply H1. rewrite E1. apply in_or_app; auto.
      * destruct (nth j p []); discriminate.
      * apply H1. rewrite E1. apply in_or_app; right; right; auto.
    + rewrite concat_app. cbn [concat].
      rewrite E1 in H2 at 1. rewrite concat_app in H2. cbn [concat] in H2.
      rewrite <- !app_assoc. rewrite <- H2.
      rewrite <- !app_assoc. apply Permutation_app_head. apply Permutation_app_head. apply Permutation_app_comm.
Qed.

Lemma pparts_valid n p : In p (pparts n) -> set_partition (S n) p.
Proof.
  revert p; induction n as [|n IH]; intros p Hp.
  - destruct Hp as [<-|[]]. split; [|apply Permutation_refl]. intros b [<-|[]]. discriminate.
  - simpl in Hp. apply in_flat_map in Hp as (p0 & H0 & Hp). eapply ext_valid; eauto.
Qed.

Lemma In_upd_block p j k i (n : nat) : j < length p -> k < length p ->
  In i (nth k (upd p j (nth j p [] ++ [n])) []) <-> In i (nth k p []) \/ (k = j /\ i = n).
Proof.
  intros Hj Hk. rewrite nth_upd by auto. destruct (Nat.eqb_spec j k) as [->|Hne].
  - rewrite in_app_iff. simpl. intuition.
  - intuition. congruence.
Qed.

Lemma valid_lt n p k i : set_partition n p -> k < length p -> In i (nth k p []) -> i < n.
Proof.
  intros [_ H] Hk Hi. assert (In i (seq 0 n)).
  { apply (Permutation_in _ H). apply in_concat. exists (nth k p []). split; auto. apply nth_In; auto. }
  apply in_seq in H0. lia.
Qed.

Lemma ext0_same n p i j : set_partition n p ->
  same_block (p ++ [[n]]) i j = true <-> same_block p i j = true \/ (i = n /\ j = n).
Proof.
  intros Hv. rewrite !same_block_iff. split.
  - intros (b & Hb & H1 & H2). apply in_app_or in Hb as [Hb|[<-|[]]]; [left; eauto|].
    right. simpl in *. intuition.
  - intros [(b & Hb & H)|[-> ->]].
    + exists b. split; auto. apply in_or_app; auto.
    + exists [n]. split; [apply in_or_app; simpl; auto|simpl; auto].
Qed.

Lemma ext1_same n p q i j : set_partition n p -> q < length p ->
  same_block (upd p q (nth q p [] ++ [n])) i j = true <->
  same_block p i j = true \/ (In i (nth q p []) /\ j = n) \/ (In j (nth q p []) /\ i = n) \/ (i = n /\ j = n).
Proof.
  intros Hv Hq. rewrite !same_block_idx. rewrite length_upd. split.
  - intros (k & Hk & H1 & H2). apply In_upd_block in H1, H2; auto.
    destruct H1 as [H1|[-> ->]], H2 as [H2|[H2 ->]]; subst; auto. left; eauto.
  - intros [(k & Hk & H1 & H2)|[[H ->]|[[H ->]|[-> ->]]]].
    + exists k. split; auto. rewrite !In_upd_block by auto. auto.
    + exists q. split; auto. rewrite !In_upd_block by auto. auto.
    + exists q. split; auto. rewrite !In_upd_block by auto. auto.
    + exists q. split; auto. rewrite !In_upd_block by auto. auto.
Qed.

Lemma same_lt n p i j : set_partition n p -> same_block p i j = true -> i < n /\ j < n.
Proof. intros Hv H. apply same_block_idx in H as (k & Hk & H1 & H2). split; eapply valid_lt; eauto. Qed.

Lemma bool_eq_iff (a b : bool) : (a = true <-> b = true) -> a = b.
Proof. destruct a, b; intuition. Qed.

Lemma ext_restrict n p q i j : set_partition n p -> In q (ext n p) -> i < n -> j < n ->
  same_block q i j = same_block p i j.
Proof.
  intros Hv Hq Hi Hj. apply bool_eq_iff. destruct Hq as [<-|Hq].
  - rewrite ext0_same by auto. intuition lia.
  - apply in_map_iff in Hq as (k & <- & Hk). apply in_seq in Hk. rewrite (ext1_same n) by (auto; lia). intuition lia.
Qed.

Lemma filter_none {A} (f : A -> bool) l : (forall x, In x l -> f x = false) -> filter f l = [].
Proof. induction l as [|x l IH]; intros H; simpl; auto. rewrite H by (simpl; auto). apply IH. intros; apply H; simpl; auto. Qed.

Lemma filter_seq_single (f : nat -> bool) s L k : s <= k < s + L -> f k = true -> (forall j, s <= j < s + L -> j <> k -> f j = false) ->
  length (filter f (seq s L)) = 1.
Proof.
  revert s; induction L as [|L IH]; intros s Hk Hf H; [lia|]. simpl. destruct (Nat.eq_dec s k) as [->|Hne].
  - rewrite Hf. simpl. rewrite filter_none; auto. intros j Hj. apply in_seq in Hj. apply H; lia.
  - rewrite H by lia. apply IH; auto; [lia|]. intros; apply H; lia.
Qed.

Lemma length_filter_map {A B} (f : B -> bool) (g : A -> B) l : length (filter f (map g l)) = length (filter (fun x => f (g x)) l).
Proof. induction l as [|x l IH]; simpl; auto. destruct (f (g x)); simpl; auto. Qed.

Lemma valid_in n p i : set_partition n p -> i < n -> exists k, k < length p /\ In i (nth k p []).
Proof.
  intros [_ H] Hi. assert (In i (concat p)).
  { apply (Permutation_in _ (Permutation_sym H)). apply in_seq. lia. }
  apply in_concat in H0 as (b & Hb & Hib). apply In_nth with (d := []) in Hb as (k & Hk & <-). eauto.
Qed.

Lemma ext_count n p E : set_partition n p -> equivalence_on (S n) E ->
  length (filter (induces (S n) E) (ext n p)) = if induces n E p then 1 else 0.
Proof.
  intros Hv (Er & Es & Et). destruct (induces n E p) eqn:HI.
  2:{ rewrite filter_none; auto. intros q Hq. apply not_true_is_false. intros H.
      rewrite induces_iff in H. apply not_true_iff_false in HI. apply HI. apply induces_iff.
      intros i j Hi Hj. rewrite <- (ext_restrict n p q) by auto. apply H; lia. }
  rewrite induces_iff in HI.
  assert (Hnd : NoDup (concat p)).
  { destruct Hv as [_ H]. eapply Permutation_NoDup; [apply Permutation_sym, H|apply seq_NoDup]. }
  (* which extensions induce E: only the rows involving n matter *)
  assert (Hrow : forall q, In q (ext n p) ->
    (forall i, i < n -> same_block q n i = E n i) -> induces (S n) E q = true).
  { intros q Hq H. apply induces_iff. intros i j Hi Hj.
    assert (Hsym : forall a b, same_block q a b = same_block q b a).
    { intros a b. apply bool_eq_iff. rewrite !same_block_iff. firstorder. }
    assert (Hnn : same_block q n n = true).
    { destruct Hq as [<-|Hq]; [apply ext0_same; auto|].
      apply in_map_iff in Hq as (k & <- & Hk). apply in_seq in Hk. apply (ext1_same n); auto. lia. }
    destruct (Nat.eq_dec i n) as [->|Hin], (Nat.eq_dec j n) as [->|Hjn].
    - rewrite Hnn. symmetry. apply Er. lia.
    - apply H; lia.
    - rewrite Hsym, H by lia. apply bool_eq_iff. split; apply Es; lia.
    - rewrite (ext_restrict n p q) by (auto; lia). apply HI; lia. }
  unfold ext. cbn [filter].
  destruct (existsb (E n) (seq 0 n)) eqn:Hex.
  - (* n joins an existing block *)
    apply existsb_exists in Hex as (i & Hi & HE). apply in_seq in Hi.
    destruct (valid_in n p i Hv) as (k0 & Hk0 & Hik); [lia|].
    replace (induces (S n) E (p ++ [[n]])) with false.
    2:{ symmetry. apply not_true_is_false. intros H. rewrite induces_iff in H.
        specialize (H n i ltac:(lia) ltac:(lia)). rewrite HE in H. apply ext0_same in H; auto.
        destruct H as [H|[_ H]]; [apply (same_lt n) in H; auto|]; lia. }
    rewrite length_filter_map. apply filter_seq_single with (k := k0); [lia| |].
    + apply Hrow.
      * right. apply in_map_iff. exists k0. rewrite in_seq. split; auto. lia.
      * intros j Hj. apply bool_eq_iff. rewrite (ext1_same n) by auto. split.
        -- intros [H|[[H ->]|[[H _]|[_ ->]]]]; try lia.
           ++ apply (same_lt n) in H; auto. lia.
           ++ assert (Hij : E i j = true).
              { rewrite <- HI by lia. apply same_block_idx. eauto. }
              apply Et with i; auto; lia.
        -- intros H. right; right; left. split; auto.
           assert (Hij : E i j = true). { apply Et with n; auto; try lia. apply Es; auto; lia. }
           rewrite <- HI in Hij by lia. apply same_block_idx in Hij as (k & Hk & H1 & H2).
           rewrite (NoDup_concat_idx p k0 k i) by auto. auto.
    + intros k Hk Hne. apply not_true_is_false. intros H. rewrite induces_iff in H.
      specialize (H n i ltac:(lia) ltac:(lia)). rewrite HE in H. apply (ext1_same n) in H; auto; [|lia].
      destruct H as [H|[[H ->]|[[H _]|[_ ->]]]]; try lia.
      * apply (same_lt n) in H; auto. lia.
      * apply Hne. apply (NoDup_concat_idx p k k0 i); auto. lia.
  - (* n is alone *)
    assert (Hno : forall i, i < n -> E n i = false).
    { intros i Hi. apply not_true_is_false. intros H. rewrite <- not_true_iff_false in Hex. apply Hex.
      apply existsb_exists. exists i. rewrite in_seq. split; auto. lia. }
    replace (induces (S n) E (p ++ [[n]])) with true.
    2:{ symmetry. apply Hrow; [left; auto|]. intros i Hi. rewrite Hno by auto. apply not_true_is_false.
        intros H. apply ext0_same in H; auto. destruct H as [H|[_ H]]; [apply (same_lt n) in H; auto|]; lia. }
    cbn [length]. f_equal. rewrite filter_none; auto. intros q Hq. apply in_map_iff in Hq as (k & <- & Hk).
    apply in_seq in Hk. apply not_true_is_false. intros H. rewrite induces_iff in H.
    assert (Hnk : nth k p [] <> []) by (apply Hv; apply nth_In; lia).
    destruct (nth k p []) as [|i b] eqn:Eb; [congruence|].
    assert (Hi : In i (nth k p [])) by (rewrite Eb; simpl; auto).
    pose proof (valid_lt n p k i Hv ltac:(lia) Hi) as Hlt.
    specialize (H n i ltac:(lia) ltac:(lia)). rewrite Hno in H by auto. rewrite <- Eb in H.
    apply not_true_iff_false in H. apply H. apply (ext1_same n); auto. lia.
Qed.

Lemma equivalence_le n m E : m <= n -> equivalence_on n E -> equivalence_on m E.
Proof.
  intros Hle (H1 & H2 & H3). repeat split.
  - intros; apply H1; lia.
  - intros; apply H2; auto; lia.
  - intros i j k ? ? ? ? ?. apply H3 with j; auto; lia.
Qed.

Lemma pparts_count n E : equivalence_on (S n) E -> length (filter (induces (S n) E) (pparts n)) = 1.
Proof.
  revert E; induction n as [|n IH]; intros E HE.
  - simpl. replace (induces 1 E [[0]]) with true; auto. symmetry. apply induces_iff.
    intros i j Hi Hj. replace i with 0 by lia. replace j with 0 by lia. destruct HE as (Hr & _).
    rewrite Hr by lia. reflexivity.
  - cbn [pparts]. rewrite <- (IH E) by (eapply equivalence_le; [|eauto]; lia).
    assert (Hv : forall p, In p (pparts n) -> set_partition (S n) p) by apply pparts_valid.
    clear IH. induction (pparts n) as [|p l IHl]; auto. cbn [flat_map filter]. rewrite filter_app, app_length.
    rewrite IHl by (intros; apply Hv; simpl; auto). rewrite ext_count by (auto; apply Hv; simpl; auto).
    destruct (induces (S n) E p); reflexivity.
Qed.

(** ** permutations *)
Lemma lexlt_irrefl a : ~ lexlt a a.
Proof. induction a as [|x a IH]; simpl; auto. intros [H|[_ H]]; [lia|auto]. Qed.
Lemma lexlt_trans a b c : lexlt a b -> lexlt b c -> lexlt a c.
Proof.
  revert b c; induction a as [|x a IH]; intros [|y b] [|z c]; simpl; auto; try tauto.
  intros [H1|[-> H1]] [H2|[-> H2]]; try (left; lia). right. split; auto. eapply IH; eauto.
Qed.
Lemma lexlt_total a b : lexlt a b \/ a = b \/ lexlt b a.
Proof.
  revert b; induction a as [|x a IH]; intros [|y b]; simpl; auto.
  destruct (Nat.lt_trichotomy x y) as [H|[->|H]]; auto.
  destruct (IH b) as [H|[->|H]]; auto.
Qed.
Lemma lexlt_app p a b : lexlt a b -> lexlt (p ++ a) (p ++ b).
Proof. induction p as [|x p IH]; simpl; auto. Qed.
Lemma lexlt_prefix p w m : length m = length (p ++ w) -> lexlt (p ++ w) m ->
  (exists m', m = p ++ m' /\ lexlt w m') \/ (forall w', lexlt (p ++ w') m).
Proof.
  revert m; induction p as [|x p IH]; intros m HL H; simpl in *.
  - left. exists m. auto.
  - destruct m as [|y m]; [tauto|]. simpl in HL. destruct H as [H|[-> H]].
    + right. intros w'. left; auto.
    + destruct (IH m ltac:(lia) H) as [(m' & -> & Hm)|Hm].
      * left. exists m'. auto.
      * right. intros w'. right. auto.
Qed.

Definition lexle a b := a = b \/ lexlt a b.

Lemma sorted_min l m : StronglySorted le l -> Permutation l m -> lexle l m.
Proof.
  intros Hs. revert m. induction Hs as [|x l Hs IH Hx]; intros m HP.
  - apply Permutation_nil in HP. left; auto.
  - destruct m as [|y m]; [apply Permutation_sym, Permutation_nil in HP; discriminate|].
    assert (Hy : x <= y).
    { assert (Hin : In y (x :: l)) by (apply (Permutation_in _ (Permutation_sym HP)); simpl; auto).
      destruct Hin as [->|Hin]; [lia|]. rewrite Forall_forall in Hx. auto. }
    destruct (Nat.eq_dec x y) as [->|Hne].
    + apply Permutation_cons_inv in HP. destruct (IH m HP) as [->|H]; [left; auto|right; simpl; auto].
    + right. simpl. left. lia.
Qed.

Lemma sorted_max l m : StronglySorted ge l -> Permutation l m -> ~ lexlt l m.
Proof.
  intros Hs. revert m. induction Hs as [|x l Hs IH Hx]; intros m HP HL.
  - apply Permutation_nil in HP. subst. exact HL.
  - destruct m as [|y m]; [exact HL|].
    assert (Hy : y <= x).
    { assert (Hin : In y (x :: l)) by (apply (Permutation_in _ (Permutation_sym HP)); simpl; auto).
      destruct Hin as [->|Hin]; [lia|]. rewrite Forall_forall in Hx. apply Hx in Hin. lia. }
    destruct HL as [HL|[-> HL]]; [lia|]. apply Permutation_cons_inv in HP. eapply IH; eauto.
Qed.

(** characterisation of the two searches *)
Lemma np_pivot_none_gen v i : i <= length v -> StronglySorted ge (skipn i v) ->
  (i < length v \/ i = length v) ->
  match np_pivot v i with
  | None => StronglySorted ge v
  | Some q => q < i /\ exists x suf, skipn q v = x :: suf /\ StronglySorted ge suf /\ suf <> [] /\ x < hd 0 suf
  end.
Proof.
  induction i as [|i IH]; intros Hi Hs _.
  - simpl. exact Hs.
  - cbn [np_pivot]. assert (Hx : rd v i = Some (nth i v 0)) by (apply rd_some; lia). rewrite Hx.
    assert (Hskip : skipn i v = nth i v 0 :: skipn (S i) v).
    { clear - Hi. revert v Hi. induction i as [|i IHi]; intros [|a v] Hi; simpl in *; try lia; auto. apply IHi. lia. }
    destruct (rd v (S i)) as [b|] eqn:Eb.
    + assert (Hb : skipn (S i) v = b :: skipn (S (S i)) v).
      { clear - Eb. unfold rd in Eb. revert v Eb. generalize (S i). intros k. induction k as [|k IHk]; intros [|a v] Eb; simpl in *; try discriminate.
        - congruence.
        - apply IHk. exact Eb. }
      destruct (Nat.ltb_spec (nth i v 0) b) as [Hlt|Hge].
      * split; [lia|]. exists (nth i v 0), (skipn (S i) v). rewrite Hskip. split; auto. split; auto.
        rewrite Hb. split; [discriminate|]. simpl. exact Hlt.
      * assert (Hs' : StronglySorted ge (skipn i v)).
        { rewrite Hskip. constructor; auto. rewrite Hb in *. inversion Hs as [|? ? Hs1 Hf]; subst.
          constructor; [lia|]. rewrite Forall_forall in *. intros y Hy. apply Hf in Hy. lia. }
        specialize (IH ltac:(lia) Hs' ltac:(lia)). destruct (np_pivot v i) as [q|]; auto.
        destruct IH as (H1 & H2). split; [lia|auto].
    + unfold rd in Eb. apply nth_error_None in Eb.
      assert (Hs' : StronglySorted ge (skipn i v)).
      { rewrite Hskip. rewrite skipn_all2 by lia. repeat constructor. }
      specialize (IH ltac:(lia) Hs' ltac:(lia)). destruct (np_pivot v i) as [q|]; auto.
      destruct IH as (H1 & H2). split; [lia|auto].
Qed.

Lemma np_pivot_ok v : match np_pivot v (length v) with
  | None => StronglySorted ge v
  | Some q => exists pre x suf, v = pre ++ x :: suf /\ length pre = q /\ StronglySorted ge suf /\ suf <> [] /\ x < hd 0 suf
  end.
Proof.
  pose proof (np_pivot_none_gen v (length v)) as H. rewrite skipn_all in H.
  specialize (H (le_n _) (SSorted_nil _) (or_intror eq_refl)).
  destruct (np_pivot v (length v)) as [q|]; auto. destruct H as (Hq & x & suf & E & Hs & Hne & Hlt).
  exists (firstn q v), x, suf. rewrite <- E, firstn_skipn. rewrite firstn_length. repeat split; auto. lia.
Qed.

Lemma np_succ_ok pre suf x : suf <> [] -> x < hd 0 suf -> StronglySorted ge suf ->
  exists s1 y s2, suf = s1 ++ y :: s2 /\ x < y /\ (forall z, In z s2 -> z <= x) /\ (forall z, In z s1 -> y <= z) /\
    np_succ (pre ++ x :: suf) x (length (pre ++ x :: suf)) = Some (length pre + 1 + length s1).
Proof.
  intros Hne Hx Hs.
  (* generalise over a tail t of elements <= x *)
  assert (H : forall t s, s <> [] -> x < hd 0 s -> StronglySorted ge s -> (forall z, In z t -> z <= x) ->
    exists s1 y s2, s = s1 ++ y :: s2 /\ x < y /\ (forall z, In z s2 -> z <= x) /\ (forall z, In z s1 -> y <= z) /\
    np_succ (pre ++ x :: s ++ t) x (length (pre ++ x :: s)) = Some (length pre + 1 + length s1)).
  { intros t s. revert t. induction s as [|a s IH] using rev_ind; intros t Hn Hh Hso Ht; [congruence|].
    assert (Hrd : rd (pre ++ x :: (s ++ [a]) ++ t) (length (pre ++ x :: s)) = Some a).
    { replace (pre ++ x :: (s ++ [a]) ++ t) with ((pre ++ x :: s) ++ a :: t) by (rewrite <- !app_assoc; reflexivity).
      rewrite <- (Nat.add_0_r (length (pre ++ x :: s))). rewrite rd_app_r. reflexivity. }
    replace (length (pre ++ x :: s ++ [a])) with (S (length (pre ++ x :: s))) by (rewrite !app_length; simpl; rewrite app_length; simpl; lia).
    cbn [np_succ]. rewrite Hrd. destruct (Nat.ltb_spec x a) as [Hlt|Hge].
    - exists s, a, []. split; auto. split; auto. split; [simpl; tauto|]. split.
      + intros z Hz. clear - Hso Hz. induction s as [|b s IHs]; [destruct Hz|]. inversion Hso as [|? ? H1 H2]; subst.
        destruct Hz as [->|Hz]; [|auto]. rewrite Forall_forall in H2. apply H2. apply in_or_app; simpl; auto.
      + f_equal. rewrite app_length. simpl. lia.
    - assert (Hns : s <> []).
      { destruct s; [simpl in Hh; lia|discriminate]. }
      destruct (IH (a :: t)) as (s1 & y & s2 & -> & H1 & H2 & H3 & H4); auto.
      + destruct s; [congruence|exact Hh].
      + clear - Hso. induction s as [|b s IHs]; [constructor|]. inversion Hso as [|? ? H1 H2]; subst. constructor; auto.
        rewrite Forall_forall in *. intros z Hz. apply H2. apply in_or_app; auto.
      + intros z [<-|Hz]; auto.
      + exists s1, y, (s2 ++ [a]). split; [rewrite <- app_assoc; reflexivity|]. split; auto. split.
        * intros z Hz. apply in_app_or in Hz as [Hz|[<-|[]]]; auto.
        * split; auto. rewrite <- H4. f_equal. rewrite <- !app_assoc. reflexivity. }
  destruct (H [] suf Hne Hx Hs) as (s1 & y & s2 & E & H1 & H2 & H3 & H4); [simpl; tauto|].
  rewrite app_nil_r in H4. exists s1, y, s2. auto.
Qed.

Lemma ss_app_inv (R : nat -> nat -> Prop) a b : StronglySorted R (a ++ b) -> StronglySorted R a /\ StronglySorted R b /\ (forall x y, In x a -> In y b -> R x y).
Proof.
  induction a as [|x a IH]; simpl; intros H.
  - split; [constructor|]. split; auto. intros ? ? [].
  - inversion H as [|? ? H1 H2]; subst. destruct (IH H1) as (I1 & I2 & I3). rewrite Forall_app in H2. destruct H2 as [F1 F2].
    split; [constructor; auto|]. split; auto. intros u v [<-|Hu] Hv; auto. rewrite Forall_forall in F2. auto.
Qed.

Lemma ss_rev l : StronglySorted ge l -> StronglySorted le (rev l).
Proof.
  induction 1 as [|x l Hs IH Hx]; simpl; [constructor|].
  assert (H : forall a, StronglySorted le a -> (forall y, In y a -> y <= x) -> StronglySorted le (a ++ [x])).
  { induction 1 as [|y a Ha IHa Hy]; intros Hle; simpl; [repeat constructor|]. constructor.
    - apply IHa. intros; apply Hle; simpl; auto.
    - apply Forall_app. split; auto. repeat constructor. apply Hle. simpl; auto. }
  apply H; auto. intros y Hy. apply in_rev in Hy. rewrite Forall_forall in Hx. apply Hx in Hy. lia.
Qed.

Lemma next_permutation_ok v :
  exists v' more, next_permutation v = Some (v', more) /\
    if (more : bool) then Permutation v v' /\ lexlt v v' /\ (forall m, Permutation v m -> lexlt v m -> lexle v' m)
    else forall m, Permutation v m -> ~ lexlt v m.
Proof.
  unfold next_permutation. pose proof (np_pivot_ok v) as Hp. destruct (np_pivot v (length v)) as [q|].
  2:{ exists (rev v), false. split; auto. intros m Hm. apply sorted_max; auto. }
  destruct Hp as (pre & x & suf & -> & Hq & Hs & Hne & Hlt).
  destruct (np_succ_ok pre suf x Hne Hlt Hs) as (s1 & y & s2 & -> & H1 & H2 & H3 & H4).
  assert (Hrx : rd (pre ++ x :: s1 ++ y :: s2) q = Some x).
  { rewrite <- Hq, <- (Nat.add_0_r (length pre)). rewrite rd_app_r. reflexivity. }
  rewrite Hrx. cbn [bind]. rewrite H4. cbn [bind].
  assert (Hry : rd (pre ++ x :: s1 ++ y :: s2) (length pre + 1 + length s1) = Some y).
  { rewrite <- Nat.add_assoc, rd_app_r. simpl. change (rd (s1 ++ y :: s2) (length s1) = Some y).
    rewrite <- (Nat.add_0_r (length s1)). rewrite rd_app_r. reflexivity. }
  rewrite Hry. cbn [bind].
  rewrite wr_some by (rewrite app_length; simpl; lia). cbn [bind].
  rewrite upd_app_mid by auto.
  rewrite wr_some by (rewrite !app_length; simpl; rewrite app_length; simpl; lia). cbn [bind].
  replace (pre ++ y :: s1 ++ y :: s2) with ((pre ++ y :: s1) ++ y :: s2) by (rewrite <- app_assoc; reflexivity).
  rewrite upd_app_mid by (rewrite app_length; simpl; lia).
  replace ((pre ++ y :: s1) ++ x :: s2) with ((pre ++ [y]) ++ s1 ++ x :: s2) by (rewrite <- !app_assoc; reflexivity).
  assert (HSq : S q = length (pre ++ [y])) by (rewrite app_length; simpl; lia).
  rewrite HSq. rewrite firstn_app, firstn_all, Nat.sub_diag, skipn_app, skipn_all, Nat.sub_diag. simpl firstn. simpl skipn.
  rewrite app_nil_r. cbn [app].
  eexists; exists true. split; [reflexivity|].
  rewrite <- app_assoc. cbn [app].
  assert (HP : Permutation (x :: s1 ++ y :: s2) (y :: rev (s1 ++ x :: s2))).
  { rewrite <- Permutation_rev.
    transitivity (x :: y :: s1 ++ s2).
    - constructor. symmetry. apply Permutation_middle.
    - transitivity (y :: x :: s1 ++ s2); [apply perm_swap|]. constructor. apply Permutation_middle. }
  destruct (ss_app_inv _ _ _ Hs) as (Hs1 & Hs2' & Hs12). inversion Hs2' as [|? ? Hs2 Hy2]; subst.
  split; [|split].
  - apply Permutation_app_head. exact HP.
  - apply lexlt_app. simpl. auto.
  - intros m Hm HL.
    destruct (lexlt_prefix pre _ m (eq_sym (Permutation_length Hm)) HL) as [(m' & -> & Hm')|Hall].
    2:{ right. apply Hall. }
    apply Permutation_app_inv_l in Hm.
    assert (HC : lexle (y :: rev (s1 ++ x :: s2)) m').
    { destruct m' as [|z m2]; [destruct Hm'|]. simpl in Hm'. destruct Hm' as [Hz|[<- Hm2]].
      - assert (Hin : In z (x :: s1 ++ y :: s2)) by (apply (Permutation_in _ (Permutation_sym Hm)); simpl; auto).
        assert (Hyz : y <= z).
        { destruct Hin as [->|Hin]; [lia|]. apply in_app_or in Hin as [Hin|[->|Hin]]; [auto|lia|].
          apply H2 in Hin. lia. }
        destruct (Nat.eq_dec y z) as [<-|Hne'].
        + assert (HP2 : Permutation (rev (s1 ++ x :: s2)) m2).
          { apply Permutation_cons_inv with y. rewrite <- HP. exact Hm. }
          destruct (sorted_min (rev (s1 ++ x :: s2)) m2) as [->|H]; auto; [|left; auto|right; simpl; auto].
          apply ss_rev.
          assert (Hg : forall a, StronglySorted ge a -> (forall z, In z a -> x <= z) -> StronglySorted ge (a ++ x :: s2)).
          { induction 1 as [|u a Ha IHa Hu]; intros Hle; simpl.
            - constructor; auto. apply Forall_forall. intros z Hz'. apply H2 in Hz'. lia.
            - constructor; [apply IHa; intros; apply Hle; simpl; auto|]. apply Forall_app. split; auto.
              pose proof (Hle u (or_introl eq_refl)). constructor; [lia|].
              apply Forall_forall. intros z Hz'. apply H2 in Hz'. lia. }
          apply Hg; auto. intros z Hz'. apply H3 in Hz'. lia.
        + right. simpl. left. lia.
      - exfalso. apply Permutation_cons_inv in Hm. eapply (sorted_max (s1 ++ y :: s2)); eauto. }
    destruct HC as [->|HC]; [left; auto|right; apply lexlt_app; auto].
Qed.

(** all permutations, by insertion: only used to count *)
Fixpoint inserts (x : nat) (l : list nat) : list (list nat) :=
  match l with
  | [] => [[x]]
  | y :: l' => (x :: l) :: map (cons y) (inserts x l')
  end.
Fixpoint allperms (l : list nat) : list (list nat) :=
  match l with [] => [[]] | x :: l' => flat_map (inserts x) (allperms l') end.

Lemma inserts_in x l m : In m (inserts x l) <-> exists a b, l = a ++ b /\ m = a ++ x :: b.
Proof.
  revert m; induction l as [|y l IH]; intros m; simpl.
  - split.
    + intros [<-|[]]. exists [], []. auto.
    + intros (a & b & E & ->). destruct a, b; try discriminate. auto.
  - split.
    + intros [<-|H].
      * exists [], (y :: l). auto.
      * apply in_map_iff in H as (m' & <- & H). apply IH in H as (a & b & -> & ->). exists (y :: a), b. auto.
    + intros (a & b & E & ->). destruct a as [|z a]; simpl in *.
      * left. congruence.
      * injection E as -> ->. right. apply in_map_iff. eexists. split; [reflexivity|]. apply IH. eauto.
Qed.
Lemma inserts_len x l : length (inserts x l) = S (length l).
Proof. induction l; simpl; auto. rewrite map_length. auto. Qed.
Lemma allperms_in l m : In m (allperms l) <-> Permutation l m.
Proof.
  revert m; induction l as [|x l IH]; intros m; simpl.
  - split; [intros [<-|[]]; auto|]. intros H. apply Permutation_nil in H. auto.
  - rewrite in_flat_map. split.
    + intros (m' & H & Hm). apply IH in H. apply inserts_in in Hm as (a & b & -> & ->).
      apply Permutation_cons_app. exact H.
    + intros H. assert (Hin : In x m) by (apply (Permutation_in _ H); simpl; auto).
      apply in_split in Hin as (a & b & ->). exists (a ++ b). split.
      * apply IH. eapply Permutation_cons_app_inv; eauto.
      * apply inserts_in. eauto.
Qed.
Lemma allperms_len l : length (allperms l) = fact (length l).
Proof.
  induction l as [|x l IH]; simpl; auto. rewrite length_flat_map_const with (c := S (length l)).
  - rewrite IH. rewrite Nat.mul_comm. reflexivity.
  - intros m Hm. rewrite inserts_len. apply allperms_in in Hm. apply Permutation_length in Hm. lia.
Qed.
Lemma inserts_nodup x l : ~ In x l -> NoDup (inserts x l).
Proof.
  induction l as [|y l IH]; simpl; intros H.
  - repeat constructor. auto.
  - constructor.
    + intros Hin. apply in_map_iff in Hin as (m & E & _). injection E as E _. apply H. auto.
    + apply FinFun.Injective_map_NoDup; [intros a b E; congruence|]. apply IH. tauto.
Qed.
Lemma allperms_nodup l : NoDup l -> NoDup (allperms l).
Proof.
  induction 1 as [|x l Hx Hl IH]; simpl; [repeat constructor; auto|].
  apply NoDup_flat_map; auto.
  - intros m Hm. apply inserts_nodup. intros H. apply Hx. apply allperms_in in Hm.
    apply (Permutation_in _ (Permutation_sym Hm)). auto.
  - intros m1 m2 z H1 H2 Hz1 Hz2. apply allperms_in in H1, H2.
    apply inserts_in in Hz1 as (a & b & -> & ->). apply inserts_in in Hz2 as (c & d & -> & E).
    assert (Hxab : ~ In x (a ++ b)) by (intros H; apply Hx; apply (Permutation_in _ (Permutation_sym H1)); auto).
    assert (Hxcd : ~ In x (c ++ d)) by (intros H; apply Hx; apply (Permutation_in _ (Permutation_sym H2)); auto).
    clear - E Hxab Hxcd. revert c E Hxcd. induction a as [|u a IHa]; intros [|w c] E Hxcd; simpl in *.
    + injection E as ->. auto.
    + injection E as E1 E2. exfalso. apply Hxcd. left. auto.
    + injection E as E1 E2. exfalso. apply Hxab. left. auto.
    + injection E as -> E. f_equal. apply IHa; tauto.
Qed.

Lemma ss_lexlt_nodup l : StronglySorted lexlt l -> NoDup l.
Proof.
  induction 1 as [|x l Hs IH Hx]; constructor; auto. intros H. rewrite Forall_forall in Hx.
  apply Hx in H. eapply lexlt_irrefl; eauto.
Qed.

Lemma ss_snoc l x : StronglySorted lexlt l -> (forall y, In y l -> lexlt y x) -> StronglySorted lexlt (l ++ [x]).
Proof.
  induction 1 as [|y l Hl IH Hy]; intros H; simpl; [repeat constructor|]. constructor.
  - apply IH. intros; apply H; simpl; auto.
  - apply Forall_app. split; auto. repeat constructor. apply H. simpl; auto.
Qed.

Lemma permutations_loop_ok s fuel : forall v ps, NoDup s -> Permutation s v ->
  StronglySorted lexlt ps -> (forall m, In m ps <-> Permutation s m /\ lexle m v) ->
  fact (length s) < length ps + fuel ->
  exists r, permutations_loop fuel v ps = Some r /\ StronglySorted lexlt r /\ (forall m, In m r <-> Permutation s m).
Proof.
  induction fuel as [|fuel IH]; intros v ps Hns Hv Hss Hin Hf.
  - exfalso. rewrite <- allperms_len in Hf.
    assert (length ps <= length (allperms s)); [|lia].
    apply NoDup_incl_length; [apply ss_lexlt_nodup; auto|]. intros m Hm. apply allperms_in. apply Hin. auto.
  - cbn [permutations_loop]. destruct (next_permutation_ok v) as (v' & more & -> & H). cbn [bind].
    destruct more.
    + destruct H as (H1 & H2 & H3). apply IH; auto.
      * eapply Permutation_trans; eauto.
      * apply ss_snoc; auto. intros y Hy. apply Hin in Hy as [_ [->|Hy]]; auto. eapply lexlt_trans; eauto.
      * intros m. rewrite in_app_iff. rewrite Hin. simpl. split.
        -- intros [[Hm [->|Hle]]|[<-|[]]].
           ++ split; auto. right; auto.
           ++ split; auto. right. eapply lexlt_trans; eauto.
           ++ split; [eapply Permutation_trans; eauto|left; auto].
        -- intros [Hm Hle]. destruct (lexlt_total m v) as [Hl|[->|Hl]].
           ++ left. split; auto. right; auto.
           ++ left. split; auto. left; auto.
           ++ right. left. destruct (H3 m) as [->|Hl2]; auto.
              { eapply Permutation_trans; [apply Permutation_sym|]; eauto. }
              exfalso. destruct Hle as [->|Hle]; [eapply lexlt_irrefl; eauto|].
              eapply lexlt_irrefl. eapply lexlt_trans; eauto.
      * rewrite app_length. simpl. lia.
    + exists ps. split; auto. split; auto. intros m. rewrite Hin. split; [tauto|]. intros Hm. split; auto.
      destruct (lexlt_total m v) as [Hl|[->|Hl]]; [right; auto|left; auto|].
      exfalso. eapply H; [|eauto]. eapply Permutation_trans; [apply Permutation_sym|]; eauto.
Qed.

Lemma seq_ss s n : StronglySorted le (seq s n).
Proof.
  revert s; induction n as [|n IH]; intros s; simpl; constructor; auto.
  apply Forall_forall. intros x Hx. apply in_seq in Hx. lia.
Qed.

Lemma permutations_ok n fuel : fact n <= fuel ->
  exists r, permutations fuel n = Some r /\ StronglySorted lexlt r /\
    (forall m, In m r <-> Permutation (seq 0 n) m) /\ length r = fact n.
Proof.
  intros Hf. unfold permutations. rewrite (for_iota (fun i => i) 0 n). cbn [bind]. unfold tab. rewrite map_id.
  destruct (permutations_loop_ok (seq 0 n) fuel (seq 0 n) [seq 0 n]) as (r & -> & H1 & H2).
  - apply seq_NoDup.
  - apply Permutation_refl.
  - repeat constructor.
  - intros m. simpl. split.
    + intros [<-|[]]. split; auto. left; auto.
    + intros [Hm Hle]. left. destruct (sorted_min (seq 0 n) m (seq_ss 0 n) Hm) as [->|Hl]; auto.
      destruct Hle as [->|Hle]; auto. exfalso. eapply lexlt_irrefl. eapply lexlt_trans; eauto.
  - rewrite seq_length. simpl. lia.
  - exists r. split; auto. split; auto. split; auto.
    rewrite <- (seq_length n 0), <- allperms_len. apply Permutation_length. apply NoDup_Permutation.
    + apply ss_lexlt_nodup; auto.
    + apply allperms_nodup, seq_NoDup.
    + intros m. rewrite H2, allperms_in. reflexivity.
Qed.
