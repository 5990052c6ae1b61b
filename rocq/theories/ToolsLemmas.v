(** Lemmas behind the property theorems of the combinatorial tools. *)
From Coq Require Import List Arith ZArith Lia Permutation Sorted Bool Factorial.
From Verif Require Import Base BaseLemmas Segs ToolsModel ToolsSpec ToolsProofs ToolsProofs2 ToolsProofs3.
Import ListNotations.

Lemma lemma_C29 (A : Type) (srt : list (list (list A)) -> list (list (list A))) (v : list A) (d : A) :
  sort_contract (@length _) srt -> v <> [] ->
  exists ps Ps, partitions srt v = Some ps /\
    Sorted (fun a b => length a <= length b) ps /\
    Permutation ps (map (map (map (fun i => nth i v d))) Ps) /\
    (forall P, In P Ps -> set_partition (length v) P) /\
    (forall E, equivalence_on (length v) E -> length (filter (induces (length v) E) Ps) = 1).
Proof.
  intros Hs Hv. rewrite (partitions_ok srt v d Hv). set (n := length v - 1). eexists. exists (pparts n). split; [reflexivity|].
  destruct (Hs (map (map (map (fun i => nth i v d))) (pparts n))) as [HP HS].
  split; auto. split; [symmetry; auto|].
  assert (E : length v = S n) by (unfold n; destruct v; [congruence|simpl; lia]).
  clearbody n. split.
  - intros P HPP. rewrite E. apply pparts_valid; auto.
  - intros R HR. rewrite E. apply pparts_count. rewrite <- E. auto.
Qed.

Lemma In_false m : In false m <-> alltrue m = false.
Proof.
  induction m as [|b m IH]; simpl; [intuition discriminate|]. destruct b; simpl; rewrite <- ?IH; intuition. discriminate.
Qed.

Lemma lemma_C30 (A : Type) (srt : list (list (list A)) -> list (list (list A))) (v : list A) :
  sort_contract (@length _) srt ->
  exists ps Ms, two_part_partitions srt v = Some ps /\
    NoDup Ms /\
    (forall m, In m Ms <-> length m = length v /\ hd false m = true /\ In false m) /\
    Permutation ps (map (fun m => [pick m v; pick (map negb m) v]) Ms) /\
    length ps = 2 ^ (length v - 1) - 1.
Proof.
  intros Hs. destruct v as [|v0 v'].
  - exists [], []. split; [reflexivity|]. split; [constructor|]. split; [|split; auto].
    intros m. split; [intros []|]. intros (HL & Hh & _). destruct m; simpl in *; [discriminate|lia].
  - set (v := v0 :: v'). assert (Hv : v <> []) by discriminate.
    rewrite (two_part_ok srt v Hv). eexists. exists (filter (fun m => negb (alltrue m)) (masks (length v - 1))).
    split; [reflexivity|].
    destruct (Hs (map (fun m => [pick m v; pick (map negb m) v]) (filter (fun m => negb (alltrue m)) (masks (length v - 1))))) as [HP _].
    split; [apply NoDup_filter, masks_nodup|]. split; [|split].
    + intros m. rewrite filter_In, masks_spec, negb_true_iff, In_false. unfold v. simpl. rewrite Nat.sub_0_r. tauto.
    + symmetry. exact HP.
    + rewrite <- (Permutation_length HP), map_length. apply nfilter_alltrue.
Qed.

Lemma lemma_C32_product (A : Type) (inputs : list (list A)) :
  length (product inputs) = fold_right Nat.mul 1 (map (@length _) inputs) /\
  (forall js t, length js = length inputs -> length t = length inputs ->
     Forall2 (fun input jx => nth_error input (fst jx) = Some (snd jx)) inputs (combine js t) ->
     nth_error (product inputs) (rank_from 0 inputs js) = Some t) /\
  (forall t, In t (product inputs) <-> Forall2 (@In A) t inputs).
Proof.
  rewrite product_pstep. split; [|split].
  - rewrite product_length_gen. simpl. lia.
  - intros js t H1 H2 HF. apply product_nth_gen with (o := []); auto. congruence.
  - intros t. rewrite product_in_gen. split.
    + intros (o & u & [<-|[]] & -> & H). exact H.
    + intros H. exists [], t. simpl. auto.
Qed.

Lemma lemma_C32_repeat (A : Type) (input : list A) (r : Z) :
  product_repeat input r = product (repeat input (Z.to_nat r)).
Proof. apply product_repeat_eq. Qed.

Lemma fold_mul_repeat {A} (x : list A) n : fold_right Nat.mul 1 (map (@length _) (repeat x n)) = length x ^ n.
Proof. induction n as [|n IH]; simpl; auto. Qed.

Lemma lemma_C32_indices (dim max : Z) : (0 <= dim)%Z -> (0 <= max)%Z ->
  exists l, generate_indices dim max = Some l /\ NoDup l /\
    (forall t, In t l <-> Z.of_nat (length t) = dim /\ Forall (fun x => 0 <= x < max)%Z t) /\
    Z.of_nat (length l) = (max ^ dim)%Z.
Proof.
  intros Hd Hm. rewrite generate_indices_eq by auto. eexists. split; [reflexivity|].
  rewrite product_pstep. split; [|split].
  - apply product_nodup; [repeat constructor; auto|]. apply Forall_forall. intros x Hx. apply repeat_spec in Hx as ->.
    apply FinFun.Injective_map_NoDup; [intros a b E; lia|apply seq_NoDup].
  - intros t. rewrite product_in_gen. split.
    + intros (o & u & [<-|[]] & -> & H). apply Forall2_repeat_r in H as [HL HF]. simpl. split; [lia|].
      eapply Forall_impl; [|exact HF]. intros x Hx. apply in_map_iff in Hx as (k & <- & Hk). apply in_seq in Hk. lia.
    + intros [HL HF]. exists [], t. split; [simpl; auto|]. split; auto. apply Forall2_repeat_r. split; [lia|].
      eapply Forall_impl; [|exact HF]. intros x Hx. simpl in Hx. apply in_map_iff. exists (Z.to_nat x). split; [lia|]. apply in_seq. lia.
  - rewrite product_length_gen. simpl length. rewrite Nat.mul_1_l, fold_mul_repeat, map_length, seq_length.
    rewrite Nat2Z.inj_pow, !Z2Nat.id by lia. reflexivity.
Qed.

Lemma lemma_C32_combinations (A : Type) (s : list A) (d : A) :
  (exists P, NoDup P /\ (forall i j, In (i, j) P <-> i < j < length s) /\
     combinations s 2 = Some (map (fun p => [nth (fst p) s d; nth (snd p) s d]) P)) /\
  (forall k, k <> 2%Z -> combinations s k = None).
Proof.
  split.
  - exists (pairs (length s)). split; [apply pairs_nodup|]. split; [apply pairs_in|]. apply combinations_eq.
  - intros k Hk. unfold combinations. destruct (Z.eqb_spec k 2); [congruence|reflexivity].
Qed.

Lemma lemma_C33 (n k : Z) : exists b,
  (forall fuel, (0 < fuel) -> (n < Z.of_nat fuel)%Z -> binomial_coefficient fuel n k = Some b) /\
  ((k < 0 \/ n < k)%Z -> b = 0%Z) /\
  ((0 <= k <= n)%Z -> (b * (Z.of_nat (fact (Z.to_nat k)) * Z.of_nat (fact (Z.to_nat (n - k)))) = Z.of_nat (fact (Z.to_nat n)))%Z).
Proof.
  destruct (binomial_ok (S (Z.to_nat n)) n k) as (b & Hb & H1 & H2); [lia|lia|].
  exists b. split; [|split; auto]. intros fuel Hf Hn.
  destruct (binomial_ok fuel n k Hn Hf) as (b' & Hb' & H1' & H2'). rewrite Hb'. f_equal.
  destruct (Z.ltb_spec k 0); [rewrite H1, H1' by lia; auto|].
  destruct (Z.ltb_spec n k); [rewrite H1, H1' by lia; auto|].
  specialize (H2 ltac:(lia)). specialize (H2' ltac:(lia)).
  pose proof (lt_O_fact (Z.to_nat k)). pose proof (lt_O_fact (Z.to_nat (n-k))).
  rewrite <- H2 in H2'. apply Z.mul_reg_r in H2'; auto. nia.
Qed.

Lemma lemma_C31 (n : nat) : exists r,
  (forall fuel, fact n <= fuel -> permutations fuel n = Some r) /\
  StronglySorted lexlt r /\ (forall m, In m r <-> Permutation (seq 0 n) m) /\ length r = fact n.
Proof.
  destruct (permutations_ok n (fact n) (le_n _)) as (r & Hr & H1 & H2 & H3).
  exists r. split; auto. intros fuel Hf.
  assert (Hmono : forall f f' v ps q, f <= f' -> permutations_loop f v ps = Some q -> permutations_loop f' v ps = Some q).
  { induction f as [|f IH]; intros f' v ps q Hle H; [discriminate|]. destruct f' as [|f']; [lia|]. cbn [permutations_loop] in *.
    destruct (next_permutation v) as [[v' more]|]; cbn [bind] in *; [|discriminate]. destruct more; auto. apply IH; auto. lia. }
  unfold permutations in *. destruct (for_ n (fun i v => wr v i i) (repeat 0 n)) as [v|]; cbn [bind] in *; [|discriminate].
  eapply Hmono; eauto.
Qed.
