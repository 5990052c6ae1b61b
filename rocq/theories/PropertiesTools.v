(** Property theorems for the combinatorial tools: C29, C30, C31, C32, C33.
    Model: ToolsModel.v.  Specification vocabulary: ToolsSpec.v. *)
From Coq Require Import List Arith ZArith Lia Permutation Sorted Factorial.
From Verif Require Import Base ToolsModel ToolsSpec ToolsLemmas.
Import ListNotations.

(** insertion sort by size: one [std::sort] meeting the contract, for the examples *)
Fixpoint isort_ins {A} (p : list (list A)) (l : list (list (list A))) : list (list (list A)) :=
  match l with [] => [p] | q :: l' => if length p <=? length q then p :: l else q :: isort_ins p l' end.
Definition isort {A} (l : list (list (list A))) : list (list (list A)) := fold_right isort_ins [] l.

Lemma isort_contract {A} : sort_contract (@length (list A)) isort.
Proof.
  assert (H1 : forall p l, Permutation (p :: l) (@isort_ins A p l)).
  { intros p l; induction l as [|q l IH]; simpl; auto. destruct (length p <=? length q); auto.
    rewrite perm_swap. constructor. exact IH. }
  assert (H2 : forall p l, Sorted (fun a b => length a <= length b) l -> Sorted (fun a b => length a <= length b) (@isort_ins A p l)).
  { intros p l; induction l as [|q l IH]; simpl; intros Hs; [repeat constructor|].
    destruct (Nat.leb_spec (length p) (length q)); [repeat (constructor; auto)|].
    inversion Hs as [|? ? Hs1 Hh]; subst. constructor; auto.
    destruct l as [|q' l]; simpl; [constructor; lia|]. inversion Hh; subst. destruct (length p <=? length q'); constructor; lia. }
  intros l. induction l as [|p l [IH1 IH2]]; simpl; [split; auto|]. split; [|auto]. rewrite <- H1. constructor. exact IH1.
Qed.

(** ** C29: every set partition exactly once, by number of blocks.
    Positions carry the identity, so repeated values are covered; a partition is identified with the
    equivalence relation it induces. *)
Theorem C29_partitions : forall (A : Type) (srt : list (list (list A)) -> list (list (list A))) (v : list A) (d : A),
  sort_contract (@length _) srt -> v <> [] ->
  exists ps Ps, partitions srt v = Some ps /\
    Sorted (fun a b => length a <= length b) ps /\
    Permutation ps (map (map (map (fun i => nth i v d))) Ps) /\
    (forall P, In P Ps -> set_partition (length v) P) /\
    (forall E, equivalence_on (length v) E -> length (filter (induces (length v) E) Ps) = 1).
Proof. exact lemma_C29. Qed.
Print Assumptions C29_partitions.

Example C29_example : partitions isort [7; 7; 9] =
  Some [[[7; 7; 9]]; [[7; 9]; [7]]; [[7]; [7; 9]]; [[7; 7]; [9]]; [[7]; [7]; [9]]].
Proof. vm_compute. reflexivity. Qed.
Example C29_example_hyp : sort_contract (@length (list nat)) isort /\ [7; 7; 9] <> [] /\
  equivalence_on 3 (fun i j => Nat.eqb (i mod 2) (j mod 2)).
Proof.
  split; [apply isort_contract|]. split; [discriminate|]. split; [|split].
  - intros; apply Nat.eqb_refl.
  - intros i j _ _ H. apply Nat.eqb_eq in H. rewrite H. apply Nat.eqb_refl.
  - intros i j k _ _ _ H1 H2. apply Nat.eqb_eq in H1, H2. rewrite H1, H2. apply Nat.eqb_refl.
Qed.

(** ** C30: every split into two non-empty parts exactly once *)
Theorem C30_two_part_partitions : forall (A : Type) (srt : list (list (list A)) -> list (list (list A))) (v : list A),
  sort_contract (@length _) srt ->
  exists ps Ms, two_part_partitions srt v = Some ps /\
    NoDup Ms /\
    (forall m, In m Ms <-> length m = length v /\ hd false m = true /\ In false m) /\
    Permutation ps (map (fun m => [pick m v; pick (map negb m) v]) Ms) /\
    length ps = 2 ^ (length v - 1) - 1.
Proof. exact lemma_C30. Qed.
Print Assumptions C30_two_part_partitions.

Example C30_example : two_part_partitions isort [5; 6; 7] = Some [[[5; 7]; [6]]; [[5]; [6; 7]]; [[5; 6]; [7]]].
Proof. vm_compute. reflexivity. Qed.

(** ** C31: all permutations, in strictly increasing lexicographic order *)
Theorem C31_permutations : forall n : nat, exists r,
  (forall fuel, fact n <= fuel -> permutations fuel n = Some r) /\
  StronglySorted lexlt r /\ (forall m, In m r <-> Permutation (seq 0 n) m) /\ length r = fact n.
Proof. exact lemma_C31. Qed.
Print Assumptions C31_permutations.

Example C31_example : permutations 10 3 = Some [[0;1;2]; [0;2;1]; [1;0;2]; [1;2;0]; [2;0;1]; [2;1;0]].
Proof. vm_compute. reflexivity. Qed.

(** ** C32: products, index tuples, combinations *)
Theorem C32_product : forall (A : Type) (inputs : list (list A)),
  length (product inputs) = fold_right Nat.mul 1 (map (@length _) inputs) /\
  (forall js t, length js = length inputs -> length t = length inputs ->
     Forall2 (fun input jx => nth_error input (fst jx) = Some (snd jx)) inputs (combine js t) ->
     nth_error (product inputs) (rank_from 0 inputs js) = Some t) /\
  (forall t, In t (product inputs) <-> Forall2 (@In A) t inputs).
Proof. exact lemma_C32_product. Qed.
Print Assumptions C32_product.

Theorem C32_product_repeat : forall (A : Type) (input : list A) (r : Z),
  product_repeat input r = product (repeat input (Z.to_nat r)).
Proof. exact lemma_C32_repeat. Qed.
Print Assumptions C32_product_repeat.

Theorem C32_generate_indices : forall dim max : Z, (0 <= dim)%Z -> (0 <= max)%Z ->
  exists l, generate_indices dim max = Some l /\ NoDup l /\
    (forall t, In t l <-> Z.of_nat (length t) = dim /\ Forall (fun x => 0 <= x < max)%Z t) /\
    Z.of_nat (length l) = (max ^ dim)%Z.
Proof. exact lemma_C32_indices. Qed.
Print Assumptions C32_generate_indices.

Theorem C32_combinations : forall (A : Type) (s : list A) (d : A),
  (exists P, NoDup P /\ (forall i j, In (i, j) P <-> i < j < length s) /\
     combinations s 2 = Some (map (fun p => [nth (fst p) s d; nth (snd p) s d]) P)) /\
  (forall k, k <> 2%Z -> combinations s k = None).
Proof. exact lemma_C32_combinations. Qed.
Print Assumptions C32_combinations.

Example C32_example : product [[1; 2]; [3]; [4; 5]] = [[1;3;4]; [1;3;5]; [2;3;4]; [2;3;5]] /\
  rank_from 0 [[1; 2]; [3]; [4; 5]] [1; 0; 0] = 2 /\
  generate_indices 2 3 = Some [[0;0]; [0;1]; [0;2]; [1;0]; [1;1]; [1;2]; [2;0]; [2;1]; [2;2]]%Z /\
  combinations [7; 8; 9] 2 = Some [[7;8]; [7;9]; [8;9]].
Proof. vm_compute. auto. Qed.

(** ** C33: binomial coefficients *)
Theorem C33_binomial : forall n k : Z, exists b,
  (forall fuel, 0 < fuel -> (n < Z.of_nat fuel)%Z -> binomial_coefficient fuel n k = Some b) /\
  ((k < 0 \/ n < k)%Z -> b = 0%Z) /\
  ((0 <= k <= n)%Z -> (b * (Z.of_nat (fact (Z.to_nat k)) * Z.of_nat (fact (Z.to_nat (n - k)))) = Z.of_nat (fact (Z.to_nat n)))%Z).
Proof. exact lemma_C33. Qed.
Print Assumptions C33_binomial.

Example C33_example : binomial_coefficient 8 7 3 = Some 35%Z /\ binomial_coefficient 3 (-2) (-1) = Some 0%Z.
Proof. vm_compute. auto. Qed.
