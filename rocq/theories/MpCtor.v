(** The polynomial constructor: order, sets, completion, edges. *)
From Coq Require Import List Arith ZArith Lia Permutation Sorted Bool.
From Verif Require Import Base BaseLemmas Segs ToolsModel ToolsSpec ToolsProofs MpModel.
Import ListNotations.

(** ** the order *)
Definition lt (a b : list nat) : Prop := lex_less a b = true.

Lemma vec_less_irrefl a : vec_less a a = false.
Proof. induction a as [|x a IH]; simpl; auto. rewrite Nat.ltb_irrefl. auto. Qed.
Lemma vec_less_trans a b c : vec_less a b = true -> vec_less b c = true -> vec_less a c = true.
Proof.
  revert b c; induction a as [|x a IH]; intros [|y b] [|z c]; simpl; auto; try discriminate.
  destruct (Nat.ltb_spec x y), (Nat.ltb_spec y z); destruct (Nat.ltb_spec x z); try lia; auto;
    destruct (Nat.ltb_spec y x), (Nat.ltb_spec z y); destruct (Nat.ltb_spec z x); try lia; try discriminate; eauto.
Qed.
Lemma vec_less_total a b : length a = length b -> vec_less a b = false -> vec_less b a = false -> a = b.
Proof.
  revert b; induction a as [|x a IH]; intros [|y b] HL; simpl in *; try lia; auto.
  destruct (Nat.ltb_spec x y), (Nat.ltb_spec y x); try discriminate; try lia.
  intros H1 H2. f_equal; [lia|]. apply IH; auto.
Qed.

Lemma lt_irrefl a : ~ lt a a.
Proof. unfold lt, lex_less. rewrite Nat.ltb_irrefl, vec_less_irrefl. discriminate. Qed.
Lemma lt_trans a b c : lt a b -> lt b c -> lt a c.
Proof.
  unfold lt, lex_less.
  destruct (Nat.ltb_spec (length a) (length b)), (Nat.ltb_spec (length b) (length c)), (Nat.ltb_spec (length a) (length c));
   try lia; auto; try discriminate;
   destruct (Nat.ltb_spec (length b) (length a)), (Nat.ltb_spec (length c) (length b)), (Nat.ltb_spec (length c) (length a));
   try lia; auto; try discriminate; eauto using vec_less_trans.
Qed.
Lemma lt_total a b : lex_less a b = false -> lex_less b a = false -> a = b.
Proof.
  unfold lex_less.
  destruct (Nat.ltb_spec (length a) (length b)), (Nat.ltb_spec (length b) (length a)); try discriminate; try lia.
  apply vec_less_total. lia.
Qed.
Lemma lt_asym a b : lt a b -> lex_less b a = false.
Proof. intros H. apply not_true_is_false. intros H'. apply (lt_irrefl a). eapply lt_trans; eauto. Qed.
Lemma lt_len a b : length a < length b -> lt a b.
Proof. intros H. unfold lt, lex_less. apply Nat.ltb_lt in H. rewrite H. reflexivity. Qed.
Lemma lt_len_le a b : lt a b -> length a <= length b.
Proof.
  unfold lt, lex_less. destruct (Nat.ltb_spec (length a) (length b)), (Nat.ltb_spec (length b) (length a)); try lia; discriminate.
Qed.

(** ** sets *)
Definition ss := StronglySorted lt.

Lemma ss_app_inv a b : ss (a ++ b) -> ss a /\ ss b /\ (forall x y, In x a -> In y b -> lt x y).
Proof.
  unfold ss. induction a as [|x a IH]; simpl; intros H.
  - split; [constructor|]. split; auto. intros ? ? [].
  - inversion H as [|? ? H1 H2]; subst. destruct (IH H1) as (I1 & I2 & I3). rewrite Forall_app in H2. destruct H2 as [F1 F2].
    split; [constructor; auto|]. split; auto. intros u v [<-|Hu] Hv; auto. rewrite Forall_forall in F2. auto.
Qed.
Lemma ss_app a b : ss a -> ss b -> (forall x y, In x a -> In y b -> lt x y) -> ss (a ++ b).
Proof.
  unfold ss. induction 1 as [|x a Ha IH Hx]; intros Hb H; simpl; auto. constructor.
  - apply IH; auto. intros; apply H; simpl; auto.
  - apply Forall_app. split; auto. apply Forall_forall. intros y Hy. apply H; simpl; auto.
Qed.
Lemma ss_nodup s : ss s -> NoDup s.
Proof.
  unfold ss. induction 1 as [|x a Ha IH Hx]; constructor; auto. intros H. rewrite Forall_forall in Hx.
  apply (lt_irrefl x). auto.
Qed.
Lemma ss_ext a b : ss a -> ss b -> (forall x, In x a <-> In x b) -> a = b.
Proof.
  unfold ss. intros Ha. revert b. induction Ha as [|x a Ha IH Hx]; intros b Hb H.
  - destruct b as [|y b]; auto. exfalso. apply (H y). simpl; auto.
  - destruct Hb as [|y b Hb Hy].
    + exfalso. apply (H x). simpl; auto.
    + rewrite Forall_forall in Hx, Hy.
      assert (x = y).
      { assert (Hx' : In x (y :: b)) by (apply H; simpl; auto). assert (Hy' : In y (x :: a)) by (apply H; simpl; auto).
        destruct Hx' as [->|Hx']; auto. destruct Hy' as [->|Hy']; auto.
        exfalso. apply (lt_irrefl x). eapply lt_trans; eauto. }
      subst y. f_equal. apply IH; auto. intros z. specialize (H z). simpl in H. split; intros Hz.
      * destruct (proj1 H (or_intror Hz)) as [<-|]; auto. exfalso. apply (lt_irrefl x). auto.
      * destruct (proj2 H (or_intror Hz)) as [<-|]; auto. exfalso. apply (lt_irrefl x). auto.
Qed.

Lemma set_insert_in k s x : In x (set_insert k s) <-> x = k \/ In x s.
Proof.
  induction s as [|y s IH]; simpl; [intuition|].
  destruct (lex_less k y) eqn:E1; [simpl; intuition|].
  destruct (lex_less y k) eqn:E2; simpl; [rewrite IH; intuition|].
  pose proof (lt_total _ _ E1 E2). subst. intuition.
Qed.
Lemma set_insert_ss k s : ss s -> ss (set_insert k s).
Proof.
  unfold ss. induction 1 as [|y s Hs IH Hy]; simpl; [repeat constructor|].
  destruct (lex_less k y) eqn:E1.
  - constructor; [constructor; auto|]. constructor; auto. eapply Forall_impl; [|exact Hy].
    intros z Hz. eapply lt_trans; eauto.
  - destruct (lex_less y k) eqn:E2; [|constructor; auto]. constructor; auto.
    apply Forall_forall. intros z Hz. apply set_insert_in in Hz as [->|Hz]; auto. rewrite Forall_forall in Hy. auto.
Qed.
Lemma set_insert_app k a r : (forall x, In x r -> lt k x) -> set_insert k (a ++ r) = set_insert k a ++ r.
Proof.
  intros H. induction a as [|y a IH]; simpl.
  - destruct r as [|x r]; auto. simpl. rewrite (H x) by (simpl; auto). reflexivity.
  - destruct (lex_less k y); auto. destruct (lex_less y k); auto. rewrite IH. reflexivity.
Qed.
Lemma set_insert_new k s : ~ In k s -> length (set_insert k s) = S (length s).
Proof.
  induction s as [|y s IH]; simpl; auto. intros H.
  destruct (lex_less k y) eqn:E1; auto. destruct (lex_less y k) eqn:E2; simpl; [rewrite IH; auto|].
  exfalso. apply H. left. symmetry. apply lt_total; auto.
Qed.
Lemma set_contains_iff s k : set_contains s k = true <-> In k s.
Proof.
  unfold set_contains. rewrite existsb_exists. split.
  - intros (x & Hx & E). apply andb_true_iff in E as [E1 E2]. rewrite !negb_true_iff in *.
    rewrite (lt_total k x); auto.
  - intros H. exists k. split; auto. destruct (lex_less k k) eqn:E; auto. exfalso. apply (lt_irrefl k). exact E.
Qed.
Lemma set_next_ok a node b : ss (a ++ node :: b) -> set_next (a ++ node :: b) node = hd_error b.
Proof.
  induction a as [|x a IH]; simpl; intros H.
  - destruct (lex_less node node) eqn:E; [exfalso; apply (lt_irrefl node); exact E|].
    destruct b as [|y b]; auto. simpl. inversion H as [|? ? H1 H2]; subst. inversion H2; subst. rewrite H4. reflexivity.
  - inversion H as [|? ? H1 H2]; subst. rewrite (lt_asym x node). 2:{ rewrite Forall_forall in H2. apply H2. apply in_or_app; simpl; auto. }
    apply IH. exact H1.
Qed.

(** ** maps *)
Section Map.
Context {V : Type}.
Fixpoint assoc (k : list nat) (m : list (list nat * V)) : option V :=
  match m with
  | [] => None
  | (x, w) :: t => if list_eq_dec Nat.eq_dec x k then Some w else assoc k t
  end.
Lemma map_insert_keys k v (m : list (list nat * V)) : map fst (map_insert k v m) = set_insert k (map fst m).
Proof.
  induction m as [|[x w] m IH]; simpl; auto. destruct (lex_less k x); simpl; auto. destruct (lex_less x k); simpl; auto.
  rewrite IH. reflexivity.
Qed.
Lemma map_insert_assoc k v (m : list (list nat * V)) k' : assoc k' (map_insert k v m) =
  match assoc k' m with Some w => Some w | None => if list_eq_dec Nat.eq_dec k k' then Some v else None end \/ ~ ss (map fst m).
Proof.
  induction m as [|[x w] m IH]; simpl; auto.
  destruct (lex_less k x) eqn:E1; simpl.
  - destruct (list_eq_dec Nat.eq_dec k k') as [->|Hne].
    + destruct (list_eq_dec Nat.eq_dec x k') as [->|]; [exfalso; apply (lt_irrefl k'); exact E1|].
      destruct (assoc k' m) eqn:Ea; auto. right. intros Hs. inversion Hs as [|? ? H1 H2]; subst.
      assert (In k' (map fst m)).
      { clear - Ea. induction m as [|[y u] m IHm]; simpl in *; [discriminate|].
        destruct (list_eq_dec Nat.eq_dec y k'); auto. }
      rewrite Forall_forall in H2. specialize (H2 _ H). apply (lt_irrefl k'). eapply lt_trans; eauto.
    + left. destruct (list_eq_dec Nat.eq_dec x k'); auto. destruct (assoc k' m); auto.
  - destruct (lex_less x k) eqn:E2; simpl.
    + destruct IH as [->|Hn]; [|right; intros H; inversion H; auto].
      left. destruct (list_eq_dec Nat.eq_dec x k'); auto.
    + assert (k = x) by (apply lt_total; auto). subst x. left.
      destruct (list_eq_dec Nat.eq_dec k k'); auto. destruct (assoc k' m); auto.
Qed.
Lemma assoc_in k (m : list (list nat * V)) v : assoc k m = Some v -> In (k, v) m.
Proof.
  induction m as [|[x w] m IH]; simpl; [discriminate|]. destruct (list_eq_dec Nat.eq_dec x k) as [->|]; auto. intros [= ->]. auto.
Qed.
Lemma assoc_none k (m : list (list nat * V)) : assoc k m = None <-> ~ In k (map fst m).
Proof.
  induction m as [|[x w] m IH]; simpl; [intuition|]. destruct (list_eq_dec Nat.eq_dec x k) as [->|].
  - split; [discriminate|]. intros H. exfalso. auto.
  - rewrite IH. intuition.
Qed.
Lemma assoc_app k (a b : list (list nat * V)) : assoc k (a ++ b) = match assoc k a with Some v => Some v | None => assoc k b end.
Proof. induction a as [|[x w] a IH]; simpl; auto. destruct (list_eq_dec Nat.eq_dec x k); auto. Qed.
Lemma assoc_nth (m : list (list nat * V)) i k v : NoDup (map fst m) -> nth_error m i = Some (k, v) -> assoc k m = Some v.
Proof.
  revert i; induction m as [|[x w] m IH]; intros [|i] Hn H; simpl in *; try discriminate.
  - injection H as -> ->. destruct (list_eq_dec Nat.eq_dec k k); congruence.
  - inversion Hn; subst. destruct (list_eq_dec Nat.eq_dec x k) as [->|]; [|eauto].
    exfalso. apply H2. apply nth_error_In in H. apply (in_map fst) in H. exact H.
Qed.
End Map.

(** ** factors *)
Section Ctor.
Variable srt : list (list (list nat)) -> list (list (list nat)).
Hypothesis Hsrt : forall l, Permutation l (srt l).
Variable n : nat.

Definition okn (v : list nat) : Prop := v <> [] /\ Forall (fun i => i < n) v.

Lemma find_parents_in_ok s ps :
  (forall p, In p ps -> exists a b, p = [a; b]) ->
  exists f, find_parents_in s ps = Some f /\
    ((f = [] /\ forall a b, In [a; b] ps -> ~ (In a s /\ In b s)) \/
     exists a b, f = [a; b] /\ In f ps /\ In a s /\ In b s).
Proof.
  induction ps as [|p ps IH]; intros H; simpl.
  - exists []. split; auto.
  - destruct (H p) as (a & b & ->); [simpl; auto|]. simpl.
    destruct IH as (f & E & HF); [intros; apply H; simpl; auto|].
    assert (Hrest : ~ (In a s /\ In b s) -> exists f, find_parents_in s ps = Some f /\
       ((f = [] /\ forall a' b', [a; b] = [a'; b'] \/ In [a'; b'] ps -> ~ (In a' s /\ In b' s)) \/
       exists a' b', f = [a'; b'] /\ ([a; b] = f \/ In f ps) /\ In a' s /\ In b' s)).
    { intros Hn. exists f. split; auto. destruct HF as [[-> HF]|(a' & b' & -> & H1 & H2)].
      - left. split; auto. intros a' b' [[= <- <-]|Hin]; auto.
      - right. exists a', b'. auto. }
    destruct (set_contains s a) eqn:Ea.
    + destruct (set_contains s b) eqn:Eb.
      * apply set_contains_iff in Ea, Eb. exists [a; b]. split; auto. right. exists a, b. auto.
      * apply Hrest. intros [_ Hb]. apply set_contains_iff in Hb. congruence.
    + apply Hrest. intros [Ha _]. apply set_contains_iff in Ha. congruence.
Qed.

(** [node] is a product of two elements of [s] occurring among its splits *)
Definition has (s : list (list nat)) (node : list nat) : Prop :=
  exists a b, find_parents srt node s = Some [a; b] /\ In a s /\ In b s /\ a <> [] /\ b <> [] /\ Permutation (a ++ b) node.

Lemma find_parents_ok node s : node <> [] ->
  has s node \/ (find_parents srt node s = Some [] /\ (2 <= length node -> ~ (In (removelast node) s /\ In [last node 0] s))).
Proof.
  intros Hne. destruct (two_part_some srt node Hsrt Hne) as (ps & E & H1 & H2).
  unfold has, find_parents. rewrite E. cbn [bind].
  destruct (find_parents_in_ok s ps) as (f & -> & HF).
  { intros p Hp. destruct (H1 p Hp) as (a & b & -> & _). eauto. }
  destruct HF as [[-> HF]|(a & b & -> & Hin & Ha & Hb)].
  - right. split; [reflexivity|]. intros Hl. apply HF. apply H2. exact Hl.
  - left. exists a, b. destruct (H1 _ Hin) as (a' & b' & [= <- <-] & Hna & Hnb & HP). auto 10.
Qed.

Lemma has_mono s s' node : node <> [] -> has s node -> incl s s' -> has s' node.
Proof.
  intros Hne (a & b & E & Ha & Hb & Hna & Hnb & HP) Hi.
  destruct (find_parents_ok node s' Hne) as [H|[E' _]]; auto. exfalso.
  destruct (two_part_some srt node Hsrt Hne) as (ps & Ep & H1 & H2).
  unfold find_parents in E, E'. rewrite Ep in E, E'. cbn [bind] in *.
  assert (Hsh : forall p, In p ps -> exists a b, p = [a; b]) by (intros p Hp; destruct (H1 p Hp) as (u & v & -> & _); eauto).
  destruct (find_parents_in_ok s ps Hsh) as (f & Ef & HF). rewrite Ef in E. injection E as ->.
  destruct HF as [[HF _]|(a' & b' & [= <- <-] & Hin & _)]; [discriminate|].
  destruct (find_parents_in_ok s' ps Hsh) as (f' & Ef' & HF'). rewrite Ef' in E'. injection E' as ->.
  destruct HF' as [[_ HF']|(u & v & [=] & _)]. apply (HF' a b); auto.
Qed.

Lemma has_of_split s node : 2 <= length node -> In (removelast node) s -> In [last node 0] s -> has s node.
Proof.
  intros Hl H1 H2. destruct (find_parents_ok node s) as [H|[_ H]]; auto; [destruct node; simpl in *; [lia|discriminate]|].
  exfalso. apply H; auto.
Qed.

Lemma last_in (v : list nat) d : v <> [] -> In (last v d) v.
Proof. intros H. rewrite (app_removelast_last d H) at 2. apply in_or_app. simpl; auto. Qed.

Lemma removelast_len {A} (v : list A) : length (removelast v) = length v - 1.
Proof.
  destruct v as [|a v]; auto. destruct (exists_last (l := a :: v)) as (u & x & ->); [discriminate|].
  rewrite removelast_last, app_length. simpl. lia.
Qed.

Lemma removelast_Forall {A} (P : A -> Prop) v : Forall P v -> Forall P (removelast v).
Proof.
  intros H. destruct v as [|a v]; [constructor|]. destruct (exists_last (l := a :: v)) as (u & x & E); [discriminate|].
  rewrite E in *. rewrite removelast_last. apply Forall_app in H. tauto.
Qed.

Lemma add_ancestors_ok r fuel : forall node a naux,
  length node <= fuel -> 2 <= length node -> okn node ->
  (forall x, In x r -> length node <= length x) ->
  (forall i, i < n -> In [i] (a ++ r)) -> ss (a ++ r) -> Forall okn a ->
  exists a', add_ancestors srt fuel node (a ++ r) naux = Some (a' ++ r, naux + (length a' - length a)) /\
    ss (a' ++ r) /\ incl a a' /\ length a <= length a' /\ has (a' ++ r) node /\ Forall okn a' /\
    (forall x, In x a' -> In x a \/ (2 <= length x /\ has (a' ++ r) x)).
Proof.
  induction fuel as [|fuel IH]; intros node a naux Hf Hl Hok Hr Hs1 Hss Ha; [lia|].
  cbn [add_ancestors]. destruct Hok as [Hne Hlt].
  destruct (find_parents_ok node (a ++ r) Hne) as [Hh|[E Hno]].
  - assert (Hh' := Hh). destruct Hh' as (p & q & -> & _). cbn [bind length Nat.eqb].
    exists a. rewrite Nat.sub_diag, Nat.add_0_r. split; auto. split; auto. split; [apply incl_refl|]. split; auto.
  - rewrite E. cbn [bind length Nat.eqb]. destruct (Nat.eqb_spec (length node) 0); [lia|].
    specialize (Hno Hl).
    assert (Hlast : In [last node 0] (a ++ r)).
    { apply Hs1. rewrite Forall_forall in Hlt. apply Hlt. apply last_in; auto. }
    assert (Hnin : ~ In (removelast node) (a ++ r)) by tauto.
    set (node' := removelast node) in *.
    assert (Hl' : length node' = length node - 1) by apply removelast_len.
    assert (Hok' : okn node').
    { split; [destruct node'; simpl in *; [lia|discriminate]|]. apply removelast_Forall; auto. }
    assert (Hl2 : 2 <= length node').
    { destruct (Nat.eq_dec (length node) 2) as [E2|]; [|lia]. exfalso. apply Hnin.
      destruct node' as [|i [|j t]]; simpl in Hl'; try lia. apply Hs1. destruct Hok' as [_ HF]. inversion HF; auto. }
    assert (Hkr : forall x, In x r -> lt node' x).
    { intros x Hx. apply lt_len. specialize (Hr x Hx). lia. }
    rewrite set_insert_app by auto.
    assert (Hss' : ss (set_insert node' a ++ r)) by (rewrite <- set_insert_app by auto; apply set_insert_ss; auto).
    assert (Hlen : length (set_insert node' a) = S (length a)) by (apply set_insert_new; intros H; apply Hnin; apply in_or_app; auto).
    destruct (IH node' (set_insert node' a) (naux + 1)) as (a' & Ea & Hs' & Hi & Hle & Hh & HFa & Hnew); auto; try lia.
    + intros x Hx. specialize (Hr x Hx). lia.
    + intros i Hi. specialize (Hs1 i Hi). apply in_app_or in Hs1 as [H|H]; apply in_or_app; auto.
      left. apply set_insert_in. auto.
    + apply Forall_forall. intros x Hx. apply set_insert_in in Hx as [->|Hx]; auto. rewrite Forall_forall in Ha. auto.
    + exists a'. split.
      { rewrite Ea. do 2 f_equal. lia. }
      split; auto. split.
      { intros x Hx. apply Hi. apply set_insert_in. auto. }
      split; [lia|]. split.
      { apply has_of_split; auto.
        - apply in_or_app. left. apply Hi. apply set_insert_in. auto.
        - apply in_app_or in Hlast as [H|H]; apply in_or_app; auto. left. apply Hi. apply set_insert_in. auto. }
      split; auto. intros x Hx. destruct (Hnew x Hx) as [H|H]; auto.
      apply set_insert_in in H as [->|H]; auto.
Qed.

Lemma complete_nodes_ok rest : forall a naux,
  ss (a ++ rest) -> Forall okn (a ++ rest) -> (forall i, i < n -> In [i] (a ++ rest)) ->
  (forall x, In x a -> length x = 1 \/ has (a ++ rest) x) ->
  exists s, complete_nodes srt (length rest) (hd_error rest) (a ++ rest) naux = Some (s, naux + (length s - length (a ++ rest))) /\
    ss s /\ Forall okn s /\ incl (a ++ rest) s /\ length (a ++ rest) <= length s /\
    (forall x, In x s -> length x = 1 \/ has s x) /\ (forall x, In x s -> length x = 1 -> In x (a ++ rest)).
Proof.
  induction rest as [|node b IH]; intros a naux Hss Hok Hs1 Ha.
  - rewrite app_nil_r in *. exists a. simpl. rewrite Nat.sub_diag, Nat.add_0_r.
    split; auto. split; auto. split; auto. split; [apply incl_refl|]. auto.
  - cbn [hd_error length complete_nodes].
    assert (Hnode : okn node).
    { rewrite Forall_forall in Hok. apply Hok. apply in_or_app; simpl; auto. }
    destruct (Nat.eqb_spec (length node) 1) as [E1|E1].
    + rewrite set_next_ok by auto.
      replace (a ++ node :: b) with ((a ++ [node]) ++ b) in * by (rewrite <- app_assoc; reflexivity).
      destruct (IH (a ++ [node]) naux) as (s & E & H); auto.
      * intros x Hx. apply in_app_or in Hx as [Hx|[<-|[]]]; auto.
      * exists s. auto.
    + destruct (add_ancestors_ok (node :: b) (S (length node)) node a naux) as (a' & E & Hss' & Hi & Hle & Hh & HFa & Hnew).
      * lia.
      * destruct Hnode as [Hne _]. destruct node as [|u [|w t]]; simpl in *; try congruence; lia.
      * exact Hnode.
      * intros x [<-|Hx]; auto. apply ss_app_inv in Hss as (_ & Hb & _). inversion Hb as [|? ? H1 H2]; subst.
        rewrite Forall_forall in H2. apply lt_len_le. auto.
      * exact Hs1.
      * exact Hss.
      * apply Forall_app in Hok. tauto.
      * change (length node) with (length node) in E. cbn [length] in E. rewrite E. cbn [bind].
        rewrite set_next_ok by auto.
        assert (Hincl : incl (a ++ node :: b) (a' ++ node :: b)).
        { intros x Hx. apply in_app_or in Hx as [Hx|Hx]; apply in_or_app; auto. }
        replace (a' ++ node :: b) with ((a' ++ [node]) ++ b) in * by (rewrite <- app_assoc; reflexivity).
        destruct (IH (a' ++ [node]) (naux + (length a' - length a))) as (s & Es & Hs' & Hoks & Hinc & Hlen & Hall & H1s); auto.
        -- rewrite <- app_assoc. simpl. apply Forall_app in Hok. apply Forall_app. tauto.
        -- intros x Hx. apply in_app_or in Hx as [Hx|[<-|[]]]; auto.
           destruct (Hnew x Hx) as [H|[_ H]]; auto. destruct (Ha x H) as [H1|H1]; auto. right.
           eapply has_mono; [|exact H1|exact Hincl]. rewrite Forall_forall in HFa. apply HFa. auto.
        -- exists s. split.
           { rewrite Es. do 2 f_equal. rewrite !app_length in *. simpl in *. lia. }
           split; auto. split; auto. split; [eapply incl_tran; eauto|]. split.
           { rewrite !app_length in *. simpl in *. lia. }
           split; auto. intros x Hx Hx1. specialize (H1s x Hx Hx1). rewrite <- app_assoc in H1s. simpl in H1s.
           apply in_app_or in H1s as [H|H]; apply in_or_app; auto.
           destruct (Hnew x H) as [H'|[H' _]]; auto. lia.
Qed.

(** ** edges *)
Lemma find_index_in nodes v : In v nodes -> find_index nodes v < length nodes /\ nth (find_index nodes v) nodes [] = v.
Proof.
  induction nodes as [|x nodes IH]; simpl; [tauto|]. intros H. destruct (list_eq_dec Nat.eq_dec x v) as [->|Hne].
  - split; [lia|auto].
  - destruct IH as [H1 H2]; [intuition|]. split; [lia|auto].
Qed.

Lemma ss_nth_lt s i j : ss s -> i < length s -> j < length s -> lt (nth i s []) (nth j s []) -> i < j.
Proof.
  unfold ss. intros Hs. revert i j. induction Hs as [|x s Hs IH Hx]; intros i j Hi Hj H; [simpl in Hi; lia|].
  rewrite Forall_forall in Hx. destruct i as [|i], j as [|j]; simpl in *; try lia.
  - exfalso. apply (lt_irrefl x). exact H.
  - exfalso. apply (lt_irrefl x). eapply lt_trans; [|exact H]. apply Hx. apply nth_In. lia.
  - apply -> Nat.succ_lt_mono. apply IH; auto; lia.
Qed.

Definition edge_ok (nodes : list (list nat)) (q : nat) (e : nat * nat) : Prop :=
  fst e < q /\ snd e < q /\ Permutation (nth (fst e) nodes [] ++ nth (snd e) nodes []) (nth q nodes []).

Lemma find_edges_ok s : ss s -> (forall x, In x s -> length x = 1 \/ has s x) ->
  forall todo done edges, s = done ++ todo -> (forall x, In x todo -> length x <> 1) ->
  exists es, find_edges srt todo s s edges = Some (edges ++ es) /\ length es = length todo /\
    forall i e, nth_error es i = Some e -> edge_ok s (length done + i) e.
Proof.
  intros Hss Hall todo. induction todo as [|node todo IH]; intros dn edges Es Hlen; cbn [find_edges].
  - exists []. rewrite app_nil_r. split; auto. split; auto. intros i e H. destruct i; discriminate.
  - destruct (Nat.eqb_spec (length node) 1) as [E1|_]; [exfalso; apply (Hlen node); simpl; auto|].
    assert (Hin : In node s) by (rewrite Es; apply in_or_app; simpl; auto).
    destruct (Hall node Hin) as [H|(a & b & Ef & Ha & Hb & Hna & Hnb & HP)]; [exfalso; apply (Hlen node); simpl; auto|].
    rewrite Ef. cbn [bind rd nth_error].
    destruct (IH (dn ++ [node]) (edges ++ [(find_index s a, find_index s b)])) as (es & E & HL & He).
    + rewrite <- app_assoc. exact Es.
    + intros; apply Hlen; simpl; auto.
    + rewrite E. exists ((find_index s a, find_index s b) :: es). rewrite <- app_assoc. split; auto. split; [simpl; lia|].
      assert (Hnode : nth (length dn) s [] = node).
      { rewrite Es. rewrite app_nth2, Nat.sub_diag by lia. reflexivity. }
      assert (Hlt : length dn < length s) by (rewrite Es, app_length; simpl; lia).
      intros i e Hi. destruct i as [|i]; simpl in Hi.
      * injection Hi as <-. destruct (find_index_in s a Ha) as [Ia Ea]. destruct (find_index_in s b Hb) as [Ib Eb].
        assert (HLp : length a + length b = length node) by (rewrite <- app_length; apply Permutation_length; auto).
        assert (length a <> 0 /\ length b <> 0) by (destruct a, b; simpl; split; try congruence; lia).
        unfold edge_ok. simpl. rewrite Nat.add_0_r. split; [|split].
        -- apply (ss_nth_lt s); auto. rewrite Ea, Hnode. apply lt_len. lia.
        -- apply (ss_nth_lt s); auto. rewrite Eb, Hnode. apply lt_len. lia.
        -- rewrite Ea, Eb, Hnode. exact HP.
      * specialize (He i e Hi). rewrite app_length in He. simpl in He. replace (length dn + S i) with (length dn + 1 + i) by lia. exact He.
Qed.

Lemma find_edges_skip s a b edges : (forall x, In x a -> length x = 1) -> find_edges srt (a ++ b) s s edges = find_edges srt b s s edges.
Proof.
  intros H. induction a as [|x a IH]; simpl; auto. rewrite (H x) by (simpl; auto). simpl. apply IH. intros; apply H; simpl; auto.
Qed.

(** ** coefficients *)
Lemma seek_ok nodes m : forall fuel j q, j <= q -> q - j <= fuel -> nth_error nodes q = Some m -> NoDup nodes -> seek fuel nodes m j = Some q.
Proof.
  induction fuel as [|fuel IH]; intros j q Hj Hf Hq Hn.
  - replace j with q by lia. simpl. unfold rd. rewrite Hq. cbn [bind]. destruct (list_eq_dec Nat.eq_dec m m); congruence.
  - cbn [seek]. assert (Hjl : j < length nodes) by (apply nth_error_Some in Hq || (assert (q < length nodes) by (apply nth_error_Some; congruence); lia); lia).
    rewrite (rd_some nodes j []) by auto. cbn [bind]. destruct (list_eq_dec Nat.eq_dec m (nth j nodes [])) as [E|Hne].
    + f_equal. rewrite NoDup_nth_error in Hn. apply Hn; auto. rewrite Hq. rewrite E. apply nth_error_nth'. auto.
    + apply IH; auto; try lia.
      * destruct (Nat.eq_dec j q) as [->|]; [|lia]. exfalso. apply Hne. symmetry. apply nth_error_nth. auto.
Qed.

(** ** the whole constructor *)
Section Whole.
Context {N : Num}.

(** the first coefficient listed for a monomial *)
Fixpoint first_coeff (k : list nat) (ms : list (list nat)) (cs : list N) : option N :=
  match ms, cs with
  | m :: ms', c :: cs' => if list_eq_dec Nat.eq_dec m k then Some c else first_coeff k ms' cs'
  | _, _ => None
  end.

Lemma first_coeff_none k ms cs : length ms <= length cs -> (first_coeff k ms cs = None <-> ~ In k ms).
Proof.
  revert cs; induction ms as [|m ms IH]; intros [|c cs] HL; simpl in *; try (intuition; lia).
  destruct (list_eq_dec Nat.eq_dec m k); [split; [discriminate|tauto]|]. rewrite IH by lia. intuition.
Qed.

Fixpoint ins_all (ms : list (list nat)) (cs : list N) (m : list (list nat * N)) : list (list nat * N) :=
  match ms, cs with
  | k :: ms', c :: cs' => ins_all ms' cs' (map_insert k c m)
  | _, _ => m
  end.

Lemma map_loop_ok monos coeffs : length monos <= length coeffs ->
  forall m0, for_ (length monos) (fun i m => mi <- rd monos i ;; ci <- rd coeffs i ;; Some (map_insert mi ci m)) m0
   = Some (ins_all monos coeffs m0).
Proof.
  intros HL m0.
  transitivity (Some (ins_all (skipn (length monos) monos) (skipn (length monos) coeffs) (ins_all monos coeffs m0))).
  2:{ rewrite skipn_all. reflexivity. }
  rewrite (for_trace (fun k => ins_all (firstn k monos) coeffs m0)) with (s1 := ins_all (firstn (length monos) monos) coeffs m0); auto.
  - rewrite firstn_all, skipn_all. reflexivity.
  - intros k Hk. rewrite (rd_some monos k []) by lia. rewrite (rd_some coeffs k nzero) by lia. cbn [bind]. f_equal.
    revert coeffs HL m0 k Hk. induction monos as [|x monos IH]; intros coeffs HL m0 k Hk; [simpl in Hk; lia|].
    destruct coeffs as [|c coeffs]; [simpl in HL; lia|]. destruct k as [|k].
    + simpl. destruct monos, coeffs; reflexivity.
    + simpl in *. apply IH; lia.
Qed.

Lemma ins_all_ok monos coeffs : length monos <= length coeffs -> forall m, ss (map fst m) ->
  ss (map fst (ins_all monos coeffs m)) /\
  (forall k, In k (map fst (ins_all monos coeffs m)) <-> In k (map fst m) \/ In k monos) /\
  (forall k, assoc k (ins_all monos coeffs m) = match assoc k m with Some v => Some v | None => first_coeff k monos coeffs end).
Proof.
  revert coeffs; induction monos as [|x monos IH]; intros coeffs HL m Hs; [simpl; split; auto; split; [intuition|]; intros k; destruct (assoc k m); auto|].
  destruct coeffs as [|c coeffs]; [simpl in HL; lia|]. simpl in *.
  destruct (IH coeffs ltac:(lia) (map_insert x c m)) as (H1 & H2 & H3).
  { rewrite map_insert_keys. apply set_insert_ss. exact Hs. }
  split; auto. split.
  - intros k. rewrite H2, map_insert_keys, set_insert_in. intuition.
  - intros k. rewrite H3. destruct (map_insert_assoc x c m k) as [->|Hn]; [|contradiction].
    destruct (assoc k m); auto. destruct (list_eq_dec Nat.eq_dec x k); auto.
Qed.

Lemma fold_insert_ok l : forall s, ss s ->
  ss (fold_left (fun s m => set_insert m s) l s) /\ (forall x, In x (fold_left (fun s m => set_insert m s) l s) <-> In x s \/ In x l).
Proof.
  induction l as [|k l IH]; intros s Hs; simpl; [intuition|].
  destruct (IH (set_insert k s)) as [H1 H2]; [apply set_insert_ss; auto|]. split; auto.
  intros x. rewrite H2, set_insert_in. intuition.
Qed.

Lemma fold_left_map {A B C} (f : C -> B -> C) (g : A -> B) l c : fold_left (fun s i => f s (g i)) l c = fold_left f (map g l) c.
Proof. revert c; induction l; simpl; auto. Qed.

Lemma singles_ss : ss (map (fun i => [i]) (seq 0 n)).
Proof.
  cut (forall k lo, ss (map (fun i => [i]) (seq lo k))); auto. induction k as [|k IH]; intros lo; [constructor|].
  simpl. constructor; [apply IH|]. apply Forall_forall. intros x Hx. apply in_map_iff in Hx as (i & <- & Hi).
  apply in_seq in Hi. unfold lt, lex_less. simpl. destruct (Nat.ltb_spec lo i); auto; lia.
Qed.

(** sorted by size: the one-variable nodes come first *)
Lemma ss_split s : ss s -> Forall okn s -> (forall i, i < n -> In [i] s) ->
  exists rest, s = map (fun i => [i]) (seq 0 n) ++ rest /\ (forall x, In x rest -> 2 <= length x).
Proof.
  intros Hs Hok H1. rewrite Forall_forall in Hok.
  set (a := filter (fun x => length x =? 1) s). set (b := filter (fun x => negb (length x =? 1)) s).
  assert (Hss_f : forall f, ss (filter f s)).
  { intros f. clear -Hs. unfold ss in *. induction Hs as [|x s Hs IH Hx]; simpl; [constructor|].
    destruct (f x); auto. constructor; auto. apply Forall_forall. intros y Hy. apply filter_In in Hy as [Hy _].
    rewrite Forall_forall in Hx. auto. }
  assert (Ea : a = map (fun i => [i]) (seq 0 n)).
  { apply ss_ext; [apply Hss_f|apply singles_ss|]. intros x. unfold a. rewrite filter_In, in_map_iff. split.
    - intros [Hx HL]. apply Nat.eqb_eq in HL. destruct x as [|i [|]]; try discriminate. exists i. split; auto.
      destruct (Hok _ Hx) as [_ HF]. inversion HF; subst. apply in_seq. lia.
    - intros (i & <- & Hi). apply in_seq in Hi. split; auto. apply H1. lia. }
  exists b. rewrite <- Ea. split.
  - apply ss_ext; auto.
    + apply ss_app; try apply Hss_f. intros x y Hx Hy. apply filter_In in Hx as [Hx Lx]. apply filter_In in Hy as [Hy Ly].
      apply Nat.eqb_eq in Lx. apply negb_true_iff, Nat.eqb_neq in Ly. apply lt_len. destruct (Hok y Hy) as [Hne _].
      destruct y; [congruence|]. simpl in *. lia.
    + intros x. rewrite in_app_iff. unfold a, b. rewrite !filter_In. destruct (length x =? 1); simpl; intuition congruence.
  - intros x Hx. apply filter_In in Hx as [Hx Lx]. apply negb_true_iff, Nat.eqb_neq in Lx. destruct (Hok x Hx) as [Hne _].
    destruct x; [congruence|]. simpl in *. lia.
Qed.

Definition nodes0 (monos : list (list nat)) : list (list nat) :=
  fold_left (fun s m => set_insert m s) monos (fold_left (fun s i => set_insert [i] s) (seq 0 n) []).

Record graph_ok (monos : list (list nat)) (nodes : list (list nat)) (edges : list (nat * nat)) (naux : nat) : Prop := {
  go_ss : ss nodes;
  go_okn : Forall okn nodes;
  go_split : exists rest, nodes = map (fun i => [i]) (seq 0 n) ++ rest /\ length rest = length edges /\ (forall x, In x rest -> 2 <= length x);
  go_monos : incl monos nodes;
  go_edges : forall i e, nth_error edges i = Some e -> edge_ok nodes (n + i) e;
  go_naux : naux = length (filter (fun x => negb (length x =? 1) && negb (if in_dec (list_eq_dec Nat.eq_dec) x monos then true else false)) nodes)
}.

Lemma filter_count_compl {A} (f : A -> bool) l : length (filter f l) + length (filter (fun x => negb (f x)) l) = length l.
Proof. induction l as [|x l IH]; simpl; auto. destruct (f x); simpl; lia. Qed.

Lemma naux_count s0 s : ss s0 -> ss s -> incl s0 s ->
  length s - length s0 = length (filter (fun x => negb (if in_dec (list_eq_dec Nat.eq_dec) x s0 then true else false)) s).
Proof.
  intros H0 Hs Hi. set (f := fun x => if in_dec (list_eq_dec Nat.eq_dec) x s0 then true else false).
  pose proof (filter_count_compl f s) as HC.
  assert (length (filter f s) = length s0).
  { apply Permutation_length. apply NoDup_Permutation.
    - apply NoDup_filter. apply ss_nodup; auto.
    - apply ss_nodup; auto.
    - intros x. rewrite filter_In. unfold f. destruct (in_dec _ x s0); (split; [intros [? ?]; congruence || auto|intros; split; auto; contradiction]). }
  unfold f in *. lia.
Qed.

Lemma coeff_loop_ok nodes (m : list (list nat * N)) :
  ss nodes -> ss (map fst m) -> incl (map fst m) nodes ->
  exists nc j, for_ (length (map snd m)) (fun i st =>
      let '(nc, j) := st in
      mi <- rd (map fst m) i ;;
      j <- seek (length nodes) nodes mi j ;;
      ci <- rd (map snd m) i ;;
      nc <- wr nc j ci ;;
      Some (nc, j)) (repeat nzero (length nodes), 0) = Some (nc, j) /\
   length nc = length nodes /\
   forall q, q < length nodes -> nth q nc nzero = match assoc (nth q nodes []) m with Some c => c | None => nzero end.
Proof.
  intros Hs Hm Hi.
  set (ps := fun k => find_index nodes (nth k (map fst m) [])).
  destruct (for_inv (fun k (st : list N * nat) => length (fst st) = length nodes /\
     (k < length m -> snd st <= ps k) /\
     (forall q, q < length nodes -> nth q (fst st) nzero = match assoc (nth q nodes []) (firstn k m) with Some c => c | None => nzero end))
     (length (map snd m)) (fun i st =>
      let '(nc, j) := st in
      mi <- rd (map fst m) i ;;
      j <- seek (length nodes) nodes mi j ;;
      ci <- rd (map snd m) i ;;
      nc <- wr nc j ci ;;
      Some (nc, j)) (repeat nzero (length nodes), 0)) as ([nc j] & E & H1 & H2 & H3).
  - simpl. split; [apply repeat_length|]. split; [lia|]. intros q Hq. rewrite nth_repeat. reflexivity.
  - intros k [nc j] Hk (HL & Hj & Hq). rewrite map_length in Hk. simpl in HL, Hj, Hq.
    assert (Hkin : In (nth k (map fst m) []) nodes) by (apply Hi; apply nth_In; rewrite map_length; lia).
    destruct (find_index_in nodes _ Hkin) as [Ib Ie]. fold (ps k) in Ib, Ie.
    rewrite (rd_some (map fst m) k []) by (rewrite map_length; lia). cbn [bind].
    rewrite (seek_ok nodes _ (length nodes) j (ps k)); [| apply Hj; lia | lia | | apply ss_nodup; auto].
    2:{ rewrite <- Ie. apply nth_error_nth'. auto. }
    cbn [bind]. rewrite (rd_some (map snd m) k nzero) by (rewrite map_length; lia). cbn [bind].
    rewrite wr_some by lia. cbn [bind]. eexists. split; [reflexivity|]. cbn [fst snd]. split; [rewrite length_upd; auto|]. split.
    + intros Hk1. assert (Hkin1 : In (nth (S k) (map fst m) []) nodes) by (apply Hi; apply nth_In; rewrite map_length; lia).
      destruct (find_index_in nodes _ Hkin1) as [Ib1 Ie1]. fold (ps (S k)) in Ib1, Ie1.
      apply Nat.lt_le_incl. apply (ss_nth_lt nodes); auto. rewrite Ie, Ie1.
      assert (HG : forall (l : list (list nat)) a b, ss l -> a < b -> b < length l -> lt (nth a l []) (nth b l [])).
      { clear. intros l a b Hl. revert a b. induction Hl as [|x l Hl IH Hx]; intros a b Hab Hb; [simpl in Hb; lia|].
        destruct b as [|b]; [lia|]. destruct a as [|a]; simpl in *.
        - rewrite Forall_forall in Hx. apply Hx. apply nth_In. lia.
        - apply IH; lia. }
      apply HG; auto. rewrite map_length. lia.
    + intros q Hq'. rewrite nth_upd by lia.
      destruct (nth_error m k) as [[key c]|] eqn:Em; [|apply nth_error_None in Em; lia].
      assert (Ek : nth k (map fst m) [] = key).
      { apply nth_error_nth. rewrite nth_error_map, Em. reflexivity. }
      assert (Ec : nth k (map snd m) nzero = c).
      { apply nth_error_nth. rewrite nth_error_map, Em. reflexivity. }
      rewrite Ek in Ie. rewrite Ec.
      assert (HND : NoDup (map fst m)) by (apply ss_nodup; auto).
      rewrite (firstn_S_nth _ _ _ Em), assoc_app, Nat.eqb_sym.
      destruct (Nat.eqb_spec q (ps k)) as [->|Hne].
      * rewrite Ie. rewrite (proj2 (assoc_none key (firstn k m))).
        -- simpl. destruct (list_eq_dec Nat.eq_dec key key); congruence.
        -- destruct (nth_error_split m k Em) as (l1 & l2 & -> & HL1). rewrite firstn_app, HL1, Nat.sub_diag, app_nil_r.
           rewrite <- HL1, firstn_all. rewrite map_app in HND. simpl in HND. apply NoDup_remove_2 in HND.
           intros Hin. apply HND. apply in_or_app; auto.
      * rewrite Hq by auto. destruct (assoc (nth q nodes []) (firstn k m)); auto. simpl.
        destruct (list_eq_dec Nat.eq_dec key (nth q nodes [])) as [Eq|]; auto. exfalso. apply Hne.
        pose proof (ss_nodup _ Hs) as HNn. rewrite (NoDup_nth nodes []) in HNn. apply HNn; auto. congruence.
  - exists nc, j. simpl in *. split; auto. split; auto. intros q Hq. rewrite H3 by auto. rewrite map_length, firstn_all. reflexivity.
Qed.
End Whole.

Lemma make_mpoly_ok monos : Forall okn monos ->
  exists nodes edges naux, graph_ok monos nodes edges naux /\
    forall (N : Num) (cs : list N), length cs = length monos ->
    exists nc, make_mpoly srt n cs monos =
        Some (mkMP n cs monos naux nodes edges nc (repeat nzero (length nodes)) (repeat nzero (length nodes))) /\
      length nc = length nodes /\
      forall q, q < length nodes ->
        nth q nc nzero = match first_coeff (nth q nodes []) monos cs with Some c => c | None => nzero end.
Proof.
  intros Hm. set (s0 := nodes0 monos).
  assert (Hs1 : ss (fold_left (fun s i => set_insert [i] s) (seq 0 n) []) /\
     forall x, In x (fold_left (fun s i => set_insert [i] s) (seq 0 n) []) <-> exists i, i < n /\ x = [i]).
  { rewrite (fold_left_map (fun s m => set_insert m s) (fun i => [i])).
    destruct (fold_insert_ok (map (fun i => [i]) (seq 0 n)) []) as [H1 H2]; [constructor|]. split; auto.
    intros x. rewrite H2, in_map_iff. split.
    - intros [[]|(i & <- & Hi)]. apply in_seq in Hi. exists i. split; auto; lia.
    - intros (i & Hi & ->). right. exists i. split; auto. apply in_seq. lia. }
  destruct Hs1 as [Hs1 Hs1i].
  destruct (fold_insert_ok monos _ Hs1) as [Hs0 Hs0i]. fold (nodes0 monos) in Hs0, Hs0i. fold s0 in Hs0, Hs0i.
  assert (Hok0 : Forall okn s0).
  { apply Forall_forall. intros x Hx. apply Hs0i in Hx as [Hx|Hx]; [|rewrite Forall_forall in Hm; auto].
    apply Hs1i in Hx as (i & Hi & ->). split; [discriminate|]. repeat constructor; auto. }
  assert (Hsing0 : forall i, i < n -> In [i] s0) by (intros i Hi; apply Hs0i; left; apply Hs1i; eauto).
  destruct (complete_nodes_ok s0 [] 0) as (s & Ec & Hss & Hok & Hinc & Hlen & Hall & H1); auto; [intros x []|].
  simpl in Ec, Hinc, Hlen, H1.
  assert (Hsing : forall i, i < n -> In [i] s) by auto.
  destruct (ss_split s Hss Hok Hsing) as (rest & Es & Hrest).
  destruct (find_edges_ok s Hss Hall rest (map (fun i => [i]) (seq 0 n)) [] Es) as (edges & Ee & HLe & He).
  { intros x Hx. specialize (Hrest x Hx). lia. }
  rewrite map_length, seq_length in He. simpl in Ee.
  exists s, edges, (length s - length s0). split.
  - constructor; auto.
    + exists rest. auto.
    + intros x Hx. apply Hinc. apply Hs0i. auto.
    + rewrite naux_count by auto. f_equal. apply filter_ext_in. intros x Hx.
      destruct (in_dec (list_eq_dec Nat.eq_dec) x s0) as [Hi|Hi]; destruct (in_dec (list_eq_dec Nat.eq_dec) x monos) as [Hi'|Hi'].
      * rewrite andb_false_r. reflexivity.
      * apply Hs0i in Hi as [Hi|Hi]; [|contradiction]. apply Hs1i in Hi as (i & _ & ->). reflexivity.
      * exfalso. apply Hi. apply Hs0i. auto.
      * destruct (Nat.eqb_spec (length x) 1) as [E1|]; auto. exfalso. apply Hi. auto.
  - intros N cs HL. unfold make_mpoly. rewrite map_loop_ok by lia. cbn [bind].
    destruct (ins_all_ok monos cs ltac:(lia) []) as (Hk1 & Hk2 & Hk3); [constructor|]. simpl in Hk2, Hk3.
    set (m := ins_all monos cs []) in *.
    replace (fold_left (fun s m => set_insert m s) (map fst m) (fold_left (fun s i => set_insert [i] s) (seq 0 n) [])) with s0.
    2:{ destruct (fold_insert_ok (map fst m) _ Hs1) as [Ha Hb]. apply ss_ext; auto. intros x. rewrite Hb, Hs0i, Hk2. intuition. }
    rewrite Ec. cbn [bind].
    replace (find_edges srt s s s []) with (Some edges).
    2:{ rewrite <- Ee. transitivity (find_edges srt (map (fun i => [i]) (seq 0 n) ++ rest) s s []); [|f_equal; auto].
        symmetry. apply find_edges_skip. intros x Hx. apply in_map_iff in Hx as (i & <- & _). reflexivity. }
    cbn [bind].
    destruct (coeff_loop_ok s m) as (nc & j & E & HLn & Hn); auto.
    { intros x Hx. apply Hk2 in Hx as [[]|Hx]. apply Hinc. apply Hs0i. auto. }
    rewrite E. cbn [bind]. exists nc. split; [reflexivity|]. split; auto. intros q Hq. rewrite Hn by auto. rewrite Hk3. reflexivity.
Qed.
End Ctor.
