(** Proofs about the combinatorial tools: products, combinations, binomials. *)
From Coq Require Import List Arith ZArith Lia Permutation Sorted Bool Factorial.
From Verif Require Import Base BaseLemmas Segs ToolsModel ToolsSpec ToolsProofs.
Import ListNotations.

(** ** product *)
Section Product.
Context {A : Type}.

Lemma fold_push {X B} (f : X -> B) (l : list X) acc : fold_left (fun acc x => acc ++ [f x]) l acc = acc ++ map f l.
Proof. revert acc; induction l as [|x l IH]; intros acc; simpl; [rewrite app_nil_r; auto|]. rewrite IH, <- app_assoc. reflexivity. Qed.

Lemma fold_push_many {X B} (f : X -> list B) (l : list X) acc : fold_left (fun acc x => acc ++ f x) l acc = acc ++ flat_map f l.
Proof. revert acc; induction l as [|x l IH]; intros acc; simpl; [rewrite app_nil_r; auto|]. rewrite IH, <- app_assoc. reflexivity. Qed.

Definition pstep (outs : list (list A)) (input : list A) : list (list A) :=
  flat_map (fun o => map (fun i => o ++ [i]) input) outs.

Lemma fold_left_ext {X Y} (f g : X -> Y -> X) l a : (forall a y, f a y = g a y) -> fold_left f l a = fold_left g l a.
Proof. intros H. revert a; induction l as [|y l IH]; intros a; simpl; auto. rewrite H. apply IH. Qed.

Lemma product_pstep inputs : product inputs = fold_left pstep inputs [[]].
Proof.
  unfold product. apply fold_left_ext. intros outs input. unfold pstep.
  rewrite (fold_left_ext _ (fun acc o => acc ++ map (fun i => o ++ [i]) input)).
  - rewrite (fold_push_many (fun o => map (fun i => o ++ [i]) input)). reflexivity.
  - intros acc o. apply (fold_push (fun i => o ++ [i])).
Qed.

Lemma product_nth_gen (inputs : list (list A)) : forall outs js t r o,
  nth_error outs r = Some o -> Forall2 (fun input jx => nth_error input (fst jx) = Some (snd jx)) inputs (combine js t) ->
  length js = length t ->
  nth_error (fold_left pstep inputs outs) (rank_from r inputs js) = Some (o ++ t).
Proof.
  induction inputs as [|input inputs IH]; intros outs js t r o Hr HF HL; inversion HF as [|? [j x] ? ? H1 H2 E1 E2]; subst.
  - destruct js, t; simpl in *; try lia; try discriminate. rewrite app_nil_r. exact Hr.
  - destruct js as [|j' js], t as [|x' t]; simpl in *; try discriminate. injection E2 as E3 E4 E5. subst.
    rewrite (IH _ js t _ (o ++ [x'])); auto.
    + rewrite <- app_assoc. reflexivity.
    + unfold pstep. rewrite nth_error_flat_map_const with (c := length input) (x := o); auto.
      * rewrite nth_error_map, H1. reflexivity.
      * intros y _. apply map_length.
      * apply nth_error_Some. congruence.
Qed.

Lemma product_length_gen (inputs outs : list (list A)) : length (fold_left pstep inputs outs) = length outs * fold_right Nat.mul 1 (map (@length _) inputs).
Proof.
  revert outs; induction inputs as [|input inputs IH]; intros outs; simpl; [lia|].
  rewrite IH. unfold pstep at 1. rewrite length_flat_map_const with (c := length input) by (intros; apply map_length). lia.
Qed.

Lemma product_in_gen inputs : forall outs t, In t (fold_left pstep inputs outs) <->
  exists o u, In o outs /\ t = o ++ u /\ Forall2 (fun x input => In x input) u inputs.
Proof.
  induction inputs as [|input inputs IH]; intros outs t; simpl.
  - split.
    + intros H. exists t, []. rewrite app_nil_r. auto.
    + intros (o & u & Ho & -> & HF). inversion HF; subst. rewrite app_nil_r. auto.
  - rewrite IH. split.
    + intros (o & u & Ho & -> & HF). apply in_flat_map in Ho as (o' & Ho' & Hi).
      apply in_map_iff in Hi as (x & <- & Hx). exists o', (x :: u). rewrite <- app_assoc. auto.
    + intros (o & u & Ho & -> & HF). inversion HF as [|x ? u' ? Hx HF']; subst.
      exists (o ++ [x]), u'. rewrite <- app_assoc. split; auto.
      apply in_flat_map. exists o. split; auto. apply in_map_iff. eauto.
Qed.

Lemma pstep_nodup outs input : NoDup outs -> NoDup input -> NoDup (pstep outs input).
Proof.
  intros H1 H2. apply NoDup_flat_map; auto.
  - intros o _. apply FinFun.Injective_map_NoDup; auto. intros a b E. apply app_inj_tail in E. tauto.
  - intros o1 o2 z _ _ Hz1 Hz2. apply in_map_iff in Hz1 as (a & <- & _). apply in_map_iff in Hz2 as (b & E & _).
    apply app_inj_tail in E. symmetry; tauto.
Qed.

Lemma product_nodup inputs outs : NoDup outs -> Forall (@NoDup A) inputs -> NoDup (fold_left pstep inputs outs).
Proof.
  intros Ho HF. revert outs Ho. induction HF as [|input inputs Hi HF IH]; intros outs Ho; simpl; auto.
  apply IH. apply pstep_nodup; auto.
Qed.
End Product.

Lemma for_repeat {A} (x : A) n : for_ n (fun _ l => Some (l ++ [x])) [] = Some (repeat x n).
Proof.
  rewrite (for_push_tab n _ (fun _ => [x])); auto. f_equal. simpl.
  generalize 0. induction n as [|n IH]; intros s; simpl; auto. f_equal. apply IH.
Qed.

Lemma for_iota {A} (f : nat -> A) d n : for_ n (fun i v => wr v i (f i)) (repeat d n) = Some (tab n f).
Proof.
  rewrite for_trace with (st := fun k => tab k f ++ repeat d (n - k)) (s1 := tab n f).
  - reflexivity.
  - simpl. rewrite Nat.sub_0_r. reflexivity.
  - rewrite Nat.sub_diag. simpl. rewrite app_nil_r. reflexivity.
  - intros k Hk. rewrite wr_some by (rewrite app_length, length_tab, repeat_length; lia).
    f_equal. replace (n - k) with (S (n - S k)) by lia. cbn [repeat].
    rewrite upd_app_mid by (symmetry; apply length_tab).
    rewrite tab_S, <- app_assoc. reflexivity.
Qed.

Lemma product_repeat_eq {A} (input : list A) r : product_repeat input r = product (repeat input (Z.to_nat r)).
Proof. unfold product_repeat. rewrite for_repeat. reflexivity. Qed.

Lemma generate_indices_eq dim max : (0 <= max)%Z ->
  generate_indices dim max = Some (product (repeat (map Z.of_nat (seq 0 (Z.to_nat max))) (Z.to_nat dim))).
Proof.
  intros H. unfold generate_indices. destruct (Z.ltb_spec max 0); [lia|].
  rewrite for_iota. cbn [bind]. rewrite for_repeat. reflexivity.
Qed.

Lemma Forall2_repeat_r {A B} (P : A -> B -> Prop) u b n : Forall2 P u (repeat b n) <-> length u = n /\ Forall (fun x => P x b) u.
Proof.
  revert u; induction n as [|n IH]; intros u; simpl.
  - split.
    + intros H; inversion H; auto.
    + intros [H _]. destruct u; simpl in *; [constructor|lia].
  - split.
    + intros H; inversion H as [|x ? u' ? Hx Hu]; subst. apply IH in Hu as [E HF]. simpl. split; [lia|constructor; auto].
    + intros [HL HF]. destruct u as [|x u]; simpl in *; [lia|]. inversion HF; subst. constructor; auto. apply IH. split; [lia|auto].
Qed.

(** ** combinations *)
Lemma combinations_eq {A} (s : list A) (d : A) :
  combinations s 2 = Some (map (fun p => [nth (fst p) s d; nth (snd p) s d])
    (flat_map (fun i => map (fun j => (i, j)) (seq (S i) (length s - S i))) (seq 0 (length s)))).
Proof.
  unfold combinations. simpl (negb _). cbv iota.
  rewrite (for_push_tab _ _ (fun i => map (fun j => [nth i s d; nth j s d]) (seq (S i) (length s - S i)))).
  - f_equal. simpl. rewrite map_flat_map. apply flat_map_ext_in. intros i _. rewrite map_map. reflexivity.
  - intros i cs Hi. rewrite (for_push_range _ _ _ (fun j => [[nth i s d; nth j s d]])).
    + replace (i + 1) with (S i) by lia. reflexivity.
    + intros j ps Hj. rewrite !(rd_some _ _ d) by lia. reflexivity.
Qed.

Definition pairs (n : nat) : list (nat * nat) := flat_map (fun i => map (fun j => (i, j)) (seq (S i) (n - S i))) (seq 0 n).

Lemma pairs_in n i j : In (i, j) (pairs n) <-> i < j < n.
Proof.
  unfold pairs. rewrite in_flat_map. split.
  - intros (i' & Hi & Hj). apply in_seq in Hi. apply in_map_iff in Hj as (j' & E & Hj). injection E as -> ->.
    apply in_seq in Hj. lia.
  - intros H. exists i. rewrite in_seq. split; [lia|]. apply in_map_iff. exists j. split; auto. apply in_seq. lia.
Qed.

Lemma pairs_nodup n : NoDup (pairs n).
Proof.
  unfold pairs. apply NoDup_flat_map.
  - apply seq_NoDup.
  - intros i _. apply FinFun.Injective_map_NoDup; [|apply seq_NoDup]. intros a b E. congruence.
  - intros x y z _ _ Hx Hy. apply in_map_iff in Hx as (a & <- & _). apply in_map_iff in Hy as (b & E & _). congruence.
Qed.

(** ** binomial coefficients *)
Lemma fact_simpl n : fact (S n) = S n * fact n.
Proof. reflexivity. Qed.

Lemma binomial_ok fuel n k : (n < Z.of_nat fuel)%Z -> (0 < fuel) ->
  exists b, binomial_coefficient fuel n k = Some b /\
    ((k < 0 \/ n < k)%Z -> b = 0%Z) /\
    ((0 <= k <= n)%Z -> (b * (Z.of_nat (fact (Z.to_nat k)) * Z.of_nat (fact (Z.to_nat (n-k)))) = Z.of_nat (fact (Z.to_nat n)))%Z).
Proof.
  revert n k; induction fuel as [|fuel IH]; intros n k Hn Hf; [lia|]. cbn [binomial_coefficient].
  destruct (Z.ltb_spec k 0) as [H|H1]; cbn [orb].
  { exists 0%Z. repeat split; intros; lia. }
  destruct (Z.gtb_spec k n) as [H|H2]; cbn [orb].
  { exists 0%Z. repeat split; intros; lia. }
  destruct (Z.eqb_spec k 0) as [->|H3]; cbn [orb].
  { exists 1%Z. repeat split; intros; try lia. rewrite Z.sub_0_r. change (Z.to_nat 0) with 0. cbn [fact]. lia. }
  destruct (Z.eqb_spec k n) as [->|H4]; cbn [orb].
  { exists 1%Z. repeat split; intros; try lia. rewrite Z.sub_diag. change (Z.to_nat 0) with 0. cbn [fact]. lia. }
  destruct (IH (n-1)%Z (k-1)%Z) as (a & -> & _ & Ha); [lia|lia|].
  destruct (IH (n-1)%Z k) as (b & -> & _ & Hb); [lia|lia|].
  cbn [bind]. exists (a + b)%Z. split; auto. split; [lia|]. intros _.
  specialize (Ha ltac:(lia)). specialize (Hb ltac:(lia)).
  replace (n - 1 - (k - 1))%Z with (n - k)%Z in Ha by lia.
  replace (Z.to_nat n) with (S (Z.to_nat (n-1))) by lia.
  replace (Z.to_nat k) with (S (Z.to_nat (k-1))) in * by lia.
  replace (Z.to_nat (n-k)) with (S (Z.to_nat (n-1-k))) in * by lia.
  rewrite !fact_simpl in *. rewrite !Nat2Z.inj_mul in *.
  set (F1 := Z.of_nat (fact (Z.to_nat (k-1)))) in *. set (F2 := Z.of_nat (fact (Z.to_nat (n-1-k)))) in *.
  set (F := Z.of_nat (fact (Z.to_nat (n-1)))) in *.
  rewrite !Nat2Z.inj_succ in *. rewrite !Z2Nat.id in * by lia.
  nia.
Qed.
