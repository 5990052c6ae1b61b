(** Proofs about the combinatorial tools (two-part partitions, products, combinations, binomials). *)
From Coq Require Import List Arith ZArith Lia Permutation Sorted Bool.
From Verif Require Import Base BaseLemmas Segs ToolsModel ToolsSpec.
Import ListNotations.

Lemma for_push {A B} (l : list A) (G : A -> list B -> option (list B)) (g : A -> list B) acc :
  (forall x ps, In x l -> G x ps = Some (ps ++ g x)) ->
  for_ (length l) (fun q ps => x <- rd l q ;; G x ps) acc = Some (acc ++ flat_map g l).
Proof.
  intros H. apply for_trace with (st := fun k => acc ++ flat_map g (firstn k l)).
  - simpl. rewrite app_nil_r. reflexivity.
  - rewrite firstn_all. reflexivity.
  - intros k Hk. destruct (nth_error l k) as [x|] eqn:E.
    2:{ apply nth_error_None in E. lia. }
    unfold rd. rewrite E. cbn [bind]. rewrite H by (eapply nth_error_In; eauto).
    rewrite (firstn_S_nth l k x E), flat_map_app'. simpl. rewrite app_nil_r, app_assoc. reflexivity.
Qed.

Lemma for_push_tab {B} n (G : nat -> list B -> option (list B)) (g : nat -> list B) acc :
  (forall x ps, x < n -> G x ps = Some (ps ++ g x)) ->
  for_ n G acc = Some (acc ++ flat_map g (seq 0 n)).
Proof.
  intros H. apply for_trace with (st := fun k => acc ++ flat_map g (seq 0 k)).
  - simpl. rewrite app_nil_r. reflexivity.
  - reflexivity.
  - intros k Hk. rewrite H by auto. rewrite flat_map_S, app_assoc. reflexivity.
Qed.

Lemma for_push_range {B} lo hi (G : nat -> list B -> option (list B)) (g : nat -> list B) acc :
  (forall x ps, lo <= x < hi -> G x ps = Some (ps ++ g x)) ->
  for_range lo hi G acc = Some (acc ++ flat_map g (seq lo (hi - lo))).
Proof.
  intros H. unfold for_range. remember (hi - lo) as n eqn:En.
  assert (Hn : forall x ps, lo <= x < lo + n -> G x ps = Some (ps ++ g x)) by (intros; apply H; lia).
  clear H En. revert lo acc Hn. induction n as [|n IH]; intros lo acc Hn; simpl.
  - rewrite app_nil_r. reflexivity.
  - rewrite Hn by lia. cbn [bind]. rewrite IH by (intros; apply Hn; lia). rewrite app_assoc. reflexivity.
Qed.

Lemma push_block_ok {A} (p : list (list A)) j a : j < length p ->
  push_block p j a = Some (upd p j (nth j p [] ++ [a])).
Proof.
  intros Hj. unfold push_block. rewrite (rd_some _ _ []) by auto. cbn [bind]. apply wr_some; auto.
Qed.

(** ** two-part partitions *)
Section TwoPart.
Context {A : Type}.

Definition alltrue (m : list bool) : bool := forallb (fun b => b) m.
Definition blk (v : list A) (m : list bool) : list (list A) :=
  if alltrue m then [v] else [pick m v; pick (map negb m) v].

Lemma pick_app m1 m2 (v1 v2 : list A) : length m1 = length v1 -> pick (m1 ++ m2) (v1 ++ v2) = pick m1 v1 ++ pick m2 v2.
Proof.
  revert v1; induction m1 as [|b m1 IH]; intros [|x v1] H; simpl in *; try lia; auto.
  destruct b; simpl; rewrite IH by lia; reflexivity.
Qed.

Lemma pick_alltrue m (v : list A) : length m = length v -> alltrue m = true -> pick m v = v /\ pick (map negb m) v = [].
Proof.
  revert v; induction m as [|b m IH]; intros [|x v] H Ha; simpl in *; try lia; auto.
  destruct b; simpl in *; [|discriminate]. destruct (IH v) as [E1 E2]; [lia|auto|]. rewrite E1. auto.
Qed.
End TwoPart.

(** masks of length [S n] in the order in which they are generated *)
Definition mext (m : list bool) : list (list bool) :=
  if alltrue m then [m ++ [false]; m ++ [true]] else [m ++ [true]; m ++ [false]].
Fixpoint masks (n : nat) : list (list bool) :=
  match n with O => [[true]] | S n' => flat_map mext (masks n') end.

Lemma masks_len n m : In m (masks n) -> length m = S n.
Proof.
  revert m; induction n as [|n IH]; intros m Hm; simpl in Hm.
  - destruct Hm as [<-|[]]. reflexivity.
  - apply in_flat_map in Hm as (m0 & H0 & Hm). apply IH in H0. unfold mext in Hm.
    destruct (alltrue m0); simpl in Hm; destruct Hm as [<-|[<-|[]]]; rewrite app_length; simpl; lia.
Qed.

Lemma masks_spec n m : In m (masks n) <-> length m = S n /\ hd false m = true.
Proof.
  split.
  - intros H. split; [apply masks_len; auto|]. revert m H. induction n as [|n IH]; intros m Hm; simpl in Hm.
    + destruct Hm as [<-|[]]. reflexivity.
    + apply in_flat_map in Hm as (m0 & H0 & Hm). pose proof (masks_len _ _ H0) as HL. apply IH in H0. unfold mext in Hm.
      destruct m0 as [|b m0]; [simpl in HL; lia|]. simpl in H0.
      destruct (alltrue (b :: m0)); simpl in Hm; destruct Hm as [<-|[<-|[]]]; auto.
  - revert m; induction n as [|n IH]; intros m [HL Hh].
    + destruct m as [|b [|]]; simpl in *; try lia. subst. auto.
    + simpl. apply in_flat_map. destruct (exists_last (l := m)) as (m0 & b & ->); [destruct m; simpl in *; [lia|congruence]|].
      rewrite app_length in HL. simpl in HL.
      exists m0. split.
      * apply IH. split; [lia|]. destruct m0; simpl in *; [lia|auto].
      * unfold mext. destruct (alltrue m0), b; simpl; auto.
Qed.

Lemma NoDup_app_intro {A} (l1 l2 : list A) : NoDup l1 -> NoDup l2 -> (forall x, In x l1 -> ~ In x l2) -> NoDup (l1 ++ l2).
Proof.
  intros H1 H2 H. induction H1 as [|x l1 Hx H1 IH]; simpl; auto. constructor.
  - rewrite in_app_iff. intros [Hi|Hi]; [auto|]. apply (H x); simpl; auto.
  - apply IH. intros y Hy. apply H. simpl; auto.
Qed.

Lemma NoDup_flat_map {A B} (f : A -> list B) l : NoDup l -> (forall x, In x l -> NoDup (f x)) ->
  (forall x y z, In x l -> In y l -> In z (f x) -> In z (f y) -> x = y) -> NoDup (flat_map f l).
Proof.
  intros Hl Hf Hi. induction Hl as [|x l Hx Hl IH]; simpl; [constructor|].
  apply NoDup_app_intro.
  - apply Hf; simpl; auto.
  - apply IH; [intros; apply Hf; simpl; auto|intros; eapply Hi; simpl; eauto].
  - intros z Hz Hz'. apply in_flat_map in Hz' as (y & Hy & Hz').
    assert (x = y) by (eapply Hi; simpl; eauto). subst. auto.
Qed.

Lemma mext_init m m' : In m' (mext m) -> removelast m' = m.
Proof. unfold mext. destruct (alltrue m); simpl; intros [<-|[<-|[]]]; apply removelast_last. Qed.

Lemma masks_nodup n : NoDup (masks n).
Proof.
  induction n as [|n IH]; simpl.
  - constructor; [simpl; tauto|constructor].
  - apply NoDup_flat_map; auto.
    + intros m Hm. unfold mext.
      destruct (alltrue m); (constructor; [|constructor; [simpl; tauto|constructor]]); simpl; intros [H|[]];
        apply app_inj_tail in H as [_ H]; discriminate.
    + intros x y z Hx Hy H1 H2. apply mext_init in H1, H2. congruence.
Qed.

Lemma masks_count n : length (masks n) = 2 ^ n.
Proof.
  induction n as [|n IH]; simpl; auto. rewrite length_flat_map_const with (c := 2).
  - lia.
  - intros m _. unfold mext. destruct (alltrue m); reflexivity.
Qed.

Lemma alltrue_app m1 m2 : alltrue (m1 ++ m2) = alltrue m1 && alltrue m2.
Proof. apply forallb_app. Qed.

Lemma alltrue_masks n m : In m (masks n) -> alltrue m = true -> m = repeat true (S n).
Proof.
  intros Hm Ha. apply masks_len in Hm. revert Hm Ha. generalize (S n). clear n.
  induction m as [|b m IH]; intros k HL Ha; destruct k; simpl in *; try lia; auto.
  destruct b; simpl in *; [|discriminate]. f_equal. apply IH; auto.
Qed.

Lemma alltrue_repeat n : alltrue (repeat true n) = true.
Proof. induction n; simpl; auto. Qed.

Lemma nfilter_alltrue n : length (filter (fun m => negb (alltrue m)) (masks n)) = 2 ^ n - 1.
Proof.
  rewrite <- masks_count.
  assert (Hin : In (repeat true (S n)) (masks n)) by (apply masks_spec; rewrite repeat_length; auto).
  pose proof (masks_nodup n) as Hnd.
  apply in_split in Hin as (l1 & l2 & E). rewrite E in *.
  assert (Hk : forall l, (forall m, In m l -> In m (l1 ++ repeat true (S n) :: l2) /\ m <> repeat true (S n)) ->
               filter (fun m => negb (alltrue m)) l = l).
  { intros l. induction l as [|m l IH]; intros H; simpl; auto.
    destruct (H m (or_introl eq_refl)) as [H1 H2]. rewrite <- E in H1.
    destruct (alltrue m) eqn:Ea.
    - exfalso. apply H2. apply alltrue_masks with (n := n); auto.
    - simpl. rewrite IH; auto. intros; apply H; simpl; auto. }
  apply NoDup_remove_2 in Hnd.
  rewrite filter_app. cbn [filter]. rewrite alltrue_repeat. cbn [negb].
  rewrite !Hk.
  - rewrite !app_length. simpl. lia.
  - intros m Hm. split; [apply in_or_app; right; right; auto|]. intros ->. apply Hnd. apply in_or_app; auto.
  - intros m Hm. split; [apply in_or_app; left; auto|]. intros ->. apply Hnd. apply in_or_app; auto.
Qed.

Section TwoPart2.
Context {A : Type}.
Variable srt : list (list (list A)) -> list (list (list A)).

Lemma blk_ext (v : list A) m (a : A) : length m = length v ->
  (if length (blk v m) =? 1 then [blk v m ++ [[a]]] else []) ++
  (if length (blk v m) <=? 2 then map (fun j => upd (blk v m) j (nth j (blk v m) [] ++ [a])) (seq 0 (length (blk v m))) else [])
  = map (blk (v ++ [a])) (mext m).
Proof.
  intros HL. unfold mext, blk. destruct (alltrue m) eqn:Ea; simpl; rewrite !alltrue_app; rewrite Ea; simpl.
  - destruct (pick_alltrue m v HL Ea) as [E1 E2].
    rewrite map_app. rewrite !pick_app by (rewrite ?map_length; auto).
    simpl. rewrite E1, E2. simpl. rewrite app_nil_r. reflexivity.
  - rewrite !map_app. rewrite !pick_app by (rewrite ?map_length; auto). simpl.
    rewrite !app_nil_r. reflexivity.
Qed.

Lemma two_part_ok (v : list A) : v <> [] ->
  two_part_partitions srt v =
  Some (srt (map (fun m => [pick m v; pick (map negb m) v])
         (filter (fun m => negb (alltrue m)) (masks (length v - 1))))).
Proof.
  intros Hv. unfold two_part_partitions. destruct v as [|v0 v']; [congruence|]. clear Hv.
  set (v := v0 :: v'). assert (Hl : length v = S (length v')) by reflexivity. rewrite Hl.
  simpl (S (length v') =? 0). cbv iota. replace (rd v 0) with (Some v0) by reflexivity. cbn [bind].
  replace (S (length v') - 1) with (length v') by lia.
  rewrite for_range_trace with (st := fun k => map (blk (firstn (S k) v)) (masks k))
    (s1 := map (blk v) (masks (length v'))).
  2:{ reflexivity. }
  2:{ rewrite Nat.sub_succ, Nat.sub_0_r, <- Hl, firstn_all. reflexivity. }
  - cbn [bind]. f_equal. f_equal.
    assert (H : forall l, (forall m, In m l -> length m = length v) ->
      filter (fun p => negb (length p =? 1)) (map (blk v) l) =
      map (fun m => [pick m v; pick (map negb m) v]) (filter (fun m => negb (alltrue m)) l)).
    { induction l as [|m l IH]; intros H; [reflexivity|]. cbn [map filter]. unfold blk at 1.
      destruct (alltrue m) eqn:Ea; cbn [length Nat.eqb negb].
      - apply IH. intros; apply H; simpl; auto.
      - cbn [map]. rewrite IH by (intros; apply H; simpl; auto). unfold blk. rewrite Ea. reflexivity. }
    apply H. intros m Hm. apply masks_len in Hm. lia.
  - intros k Hk. change (1 + k) with (S k). set (i := S k). destruct (nth_error v i) as [vi|] eqn:Ei.
    2:{ apply nth_error_None in Ei. lia. }
    unfold rd at 1. rewrite Ei. cbn [bind].
    rewrite (for_push _ _ (fun p => (if length p =? 1 then [p ++ [[vi]]] else []) ++
      (if length p <=? 2 then map (fun j => upd p j (nth j p [] ++ [vi])) (seq 0 (length p)) else []))).
    + f_equal. cbn [app]. rewrite flat_map_map.
      change (masks i) with (flat_map mext (masks k)).
      rewrite map_flat_map. apply flat_map_ext_in. intros m Hm.
      rewrite blk_ext. 2:{ apply masks_len in Hm. rewrite firstn_length. lia. }
      rewrite <- (firstn_S_nth v i vi Ei). reflexivity.
    + intros p ps Hp.
      assert (Hin : forall ps, for_ (length p) (fun j ps => p0 <- push_block p j vi ;; Some (ps ++ [p0])) ps =
                Some (ps ++ map (fun j => upd p j (nth j p [] ++ [vi])) (seq 0 (length p)))).
      { intros qs. rewrite (for_push_tab _ _ (fun j => [upd p j (nth j p [] ++ [vi])])).
        - reflexivity.
        - intros j qs' Hj. rewrite push_block_ok by auto. reflexivity. }
      destruct (length p =? 1); destruct (length p <=? 2); rewrite ?Hin, ?app_nil_r, <- ?app_assoc; reflexivity.
Qed.
End TwoPart2.

(** consequences used by the polynomial constructor *)
Section TwoPartUse.
Context {A : Type}.

Lemma pick_perm m (v : list A) : length m = length v -> Permutation (pick m v ++ pick (map negb m) v) v.
Proof.
  revert v; induction m as [|b m IH]; intros [|x v] H; simpl in *; try lia; auto.
  specialize (IH v ltac:(lia)). destruct b; simpl.
  - constructor. exact IH.
  - symmetry. apply Permutation_cons_app. symmetry. exact IH.
Qed.

Lemma pick_neg_nonnil m (v : list A) : length m = length v -> alltrue m = false -> pick (map negb m) v <> [].
Proof.
  revert v; induction m as [|b m IH]; intros [|x v] H Ha; simpl in *; try lia; try discriminate.
  destruct b; simpl in *; [|discriminate]. apply IH; auto.
Qed.

Lemma pick_hd_nonnil m (v : list A) : length m = length v -> hd false m = true -> pick m v <> [].
Proof. destruct m as [|b m], v as [|x v]; simpl; intros; try lia; try discriminate. subst. discriminate. Qed.

Lemma two_part_some (srt : list (list (list A)) -> list (list (list A))) v :
  (forall l, Permutation l (srt l)) -> v <> [] ->
  exists ps, two_part_partitions srt v = Some ps /\
    (forall p, In p ps -> exists a b, p = [a; b] /\ a <> [] /\ b <> [] /\ Permutation (a ++ b) v) /\
    (2 <= length v -> forall d, In [removelast v; [last v d]] ps).
Proof.
  intros Hs Hv. rewrite two_part_ok by auto. eexists. split; [reflexivity|]. split.
  - intros p Hp. apply (Permutation_in _ (Permutation_sym (Hs _))) in Hp.
    apply in_map_iff in Hp as (m & <- & Hm). apply filter_In in Hm as [Hm Ha].
    apply negb_true_iff in Ha. apply masks_spec in Hm as [HL Hh].
    assert (length m = length v) by (destruct v; [congruence|simpl in *; lia]).
    exists (pick m v), (pick (map negb m) v). split; auto. split; [apply pick_hd_nonnil; auto|].
    split; [apply pick_neg_nonnil; auto|apply pick_perm; auto].
  - intros H2 d. apply (Permutation_in _ (Hs _)). apply in_map_iff.
    destruct (exists_last Hv) as (v0 & a & ->). rewrite app_length in *. simpl in H2.
    rewrite removelast_last, last_last.
    exists (repeat true (length v0) ++ [false]). split.
    + rewrite map_app. rewrite !pick_app by (rewrite ?map_length, repeat_length; auto). simpl.
      destruct (pick_alltrue (repeat true (length v0)) v0) as [E1 E2]; [apply repeat_length|apply alltrue_repeat|].
      rewrite E1, E2, app_nil_r. reflexivity.
    + apply filter_In. split.
      * apply masks_spec. rewrite app_length, repeat_length. simpl. split; [lia|].
        destruct v0; simpl in *; [lia|auto].
      * rewrite alltrue_app, andb_false_r. reflexivity.
Qed.
End TwoPartUse.
