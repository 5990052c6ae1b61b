(** Property theorems about the exported polynomials: C63 (M0), C64 (M1).
    Model: ExportPolyModel.v.  Vocabulary: ExportPolySpec.v, MpSpec.v.
    [Um l corr] is (num_eta, U_matrix.flatten()) of the MACE package for output degree l and order corr, [Wt l] = (weights, weights_max) of the PyTorch
    module; [contraction] is the symmetric contraction of MACE, a sum over all index tuples. *)
From Coq Require Import List Arith ZArith QArith Reals Permutation Lia Lra.
From Verif Require Import Base BaseLemmas Instances MpModel MpSpec ExportPolyModel ExportPolySpec ExportPolyThms.
Import ListNotations.
Local Open Scope R_scope.

(** ** C63: layer 0.  For every element [i], output (l, row) and channel [k] the exported terms are the contraction of the model with the weights of
    that element and channel, except that entries of U up to 1e-12 count as zero; the monomials are well formed, listed once, and the same for
    all elements and channels *)
Theorem C63_M0 : forall (K l_max L_max : nat) (mn an : list nat) (Um : nat -> nat -> nat * list R) (Wt : nat -> list (list (list (list R))) * list (list (list R))),
  let n := ((l_max + 1) * (l_max + 1))%nat in
  NoDup mn -> incl an mn ->
  (forall l, (l <= L_max)%nat -> length (fst (Wt l)) = 2%nat /\ shapes_ok (2 * l + 1) n 3 (length mn) K (Um l) (order_weights 3 (Wt l))) ->
  exists C M, export_M0 (N:=RNum) K l_max L_max 3 mn an Um Wt = Some (C, M) /\
    length C = length an /\ length M = ((L_max + 1) * (L_max + 1))%nat /\
    forall i z, (i < length an)%nat -> (z < length mn)%nat -> nth z mn 0%nat = nth i an 0%nat ->
    length (nth i C []) = ((L_max + 1) * (L_max + 1))%nat /\
    forall l row, (l <= L_max)%nat -> (row < 2 * l + 1)%nat ->
    length (nth (l * l + row) (nth i C []) []) = K /\
    forall k, (k < K)%nat ->
    poly_of n (nth k (nth (l * l + row) (nth i C []) []) []) (nth (l * l + row) M []) (contraction 3 n row (fun corr => cut (Um l corr)) (weight (order_weights 3 (Wt l)) z k)).
Proof. exact lemma_M0. Qed.
Print Assumptions C63_M0.

(** The polynomial evaluator of libsymmetrix, built from the exported terms, computes the contraction of the model *)
Theorem C63_M0_evaluated : forall srt, (forall l : list (list (list nat)), Permutation l (srt l)) ->
  forall (K l_max L_max : nat) (mn an : list nat) (Um : nat -> nat -> nat * list R) (Wt : nat -> list (list (list (list R))) * list (list (list R))),
  let n := ((l_max + 1) * (l_max + 1))%nat in
  NoDup mn -> incl an mn ->
  (forall l, (l <= L_max)%nat -> length (fst (Wt l)) = 2%nat /\ shapes_ok (2 * l + 1) n 3 (length mn) K (Um l) (order_weights 3 (Wt l))) ->
  (forall l corr, (l <= L_max)%nat -> (1 <= corr <= 3)%nat -> no_small (Um l corr)) ->
  exists C M, export_M0 (N:=RNum) K l_max L_max 3 mn an Um Wt = Some (C, M) /\
    forall i z l row k x, (i < length an)%nat -> (z < length mn)%nat -> nth z mn 0%nat = nth i an 0%nat -> (l <= L_max)%nat -> (row < 2 * l + 1)%nat -> (k < K)%nat -> length x = n ->
    exists Ci Clm cs ms p p', nth_error C i = Some Ci /\ nth_error Ci (l * l + row) = Some Clm /\ nth_error Clm k = Some cs /\ nth_error M (l * l + row) = Some ms /\
      make_mpoly (N:=RNum) srt n cs ms = Some p /\
      mp_evaluate (N:=RNum) p x = Some (p', contraction 3 n row (Um l) (weight (order_weights 3 (Wt l)) z k) x).
Proof. exact lemma_M0_eval. Qed.
Print Assumptions C63_M0_evaluated.

(** Models of other correlation orders are rejected by an exception: below 3, and above 3 if some entry of U of order 4 is not small *)
Theorem C63_M0_low : forall (K l_max L_max correlation : nat) (mn an : list nat) (Um : nat -> nat -> nat * list R) (Wt : nat -> list (list (list (list R))) * list (list (list R))),
  an <> [] -> (correlation < 3)%nat -> length (fst (Wt 0%nat)) = (correlation - 1)%nat -> export_M0 (N:=RNum) K l_max L_max correlation mn an Um Wt = None.
Proof. exact lemma_M0_low. Qed.
Print Assumptions C63_M0_low.
Theorem C63_M0_high : forall (K l_max L_max correlation : nat) (mn an : list nat) (Um : nat -> nat -> nat * list R) (Wt : nat -> list (list (list (list R))) * list (list (list R))),
  let n := ((l_max + 1) * (l_max + 1))%nat in
  an <> [] -> (0 < K)%nat -> (3 < correlation)%nat ->
  (forall corr, (1 <= corr <= correlation)%nat -> length (snd (Um 0%nat corr)) = (1 * n ^ corr * fst (Um 0%nat corr))%nat) ->
  (exists u, In u (snd (Um 0%nat 4%nat)) /\ 1 / 10 ^ 12 < Rabs u) ->
  export_M0 (N:=RNum) K l_max L_max correlation mn an Um Wt = None.
Proof. exact lemma_M0_high. Qed.
Print Assumptions C63_M0_high.

(** Example: l_max = 3, L_max = 1, two elements in the model of which one is exported, three channels, two paths of every order; entries 0, 1, -1 of U *)
Definition ex_U (rows n corr : nat) : nat * list R := (2%nat, tab (rows * n ^ corr * 2) (fun j => IZR (Z.of_nat (j mod 3) - 1))).
Definition ex_W (q : nat) : list (list (list R)) := tab 2 (fun z => tab 2 (fun eta => tab 3 (fun k => INR (z + 2 * eta + k + q)))).
Definition ex_Wt : list (list (list (list R))) * list (list (list R)) := ([ex_W 2; ex_W 1], ex_W 3).
Lemma ex_no_small rows n corr : no_small (ex_U rows n corr).
Proof.
  intros u Hu. unfold ex_U in Hu. cbn [snd] in Hu. unfold tab in Hu. apply in_map_iff in Hu. destruct Hu as (j & <- & _). pose proof (Nat.mod_upper_bound j 3 ltac:(lia)) as Hm.
  assert (H : 1 / 10 ^ 12 < 1). { apply (Rmult_lt_reg_r (10 ^ 12)); [apply pow_lt; lra|]. unfold Rdiv. rewrite Rmult_assoc, Rinv_l by (apply pow_nonzero; lra). replace (10 ^ 12) with 1000000000000 by ring. lra. }
  destruct (j mod 3)%nat as [|[|[|m]]]; [right; cbn; rewrite Rabs_left by lra; lra|left; reflexivity|right; cbn; rewrite Rabs_right by lra; lra|lia].
Qed.
Lemma ex_shapes rows n : shapes_ok rows n 3 2 3 (ex_U rows n) (order_weights 3 ex_Wt).
Proof.
  split.
  - intros corr _. apply length_tab.
  - intros corr Hc. assert (corr = 1 \/ corr = 2 \/ corr = 3)%nat as [->|[->| ->]] by lia; reflexivity.
  - intros corr z Hc Hz. assert (z = 0 \/ z = 1)%nat as [->| ->] by lia; assert (corr = 1 \/ corr = 2 \/ corr = 3)%nat as [->|[->| ->]] by lia; reflexivity.
  - intros corr z eta Hc Hz He. change (fst (ex_U rows n corr)) with 2%nat in He. assert (eta = 0 \/ eta = 1)%nat as [->| ->] by lia; assert (z = 0 \/ z = 1)%nat as [->| ->] by lia;
    assert (corr = 1 \/ corr = 2 \/ corr = 3)%nat as [->|[->| ->]] by lia; reflexivity.
Qed.
Example C63_example : NoDup [1; 8]%nat /\ incl [8]%nat [1; 8]%nat /\
  (forall l, (l <= 1)%nat -> length (fst ex_Wt) = 2%nat /\ shapes_ok (2 * l + 1) 16 3 2 3 (ex_U (2 * l + 1) 16) (order_weights 3 ex_Wt)) /\
  (forall l corr, (l <= 1)%nat -> (1 <= corr <= 3)%nat -> no_small (ex_U (2 * l + 1) 16 corr)).
Proof.
  split; [repeat constructor; cbn; intuition discriminate|]. split; [intros a Ha; right; exact Ha|]. split; [intros l _; split; [reflexivity|apply ex_shapes]|intros l corr _ _; apply ex_no_small].
Qed.
(** a run: l_max = 1, L_max = 0 and order 3 only through the path x0 x1 x2 (listed in two orders) and a tiny entry that is dropped *)
Definition run_U (l corr : nat) : nat * list Q :=
  (1%nat, match corr with
  | 1%nat => [2; 0; 0; 0]
  | 2%nat => [0; 0; 0; 0;  0; 3; 0; 0;  0; 0; 0; 0;  0; 0; 0; 1 # 10000000000000]
  | _ => map (fun j => if (j =? 6)%nat then 5%Q else if (j =? 36)%nat then 7%Q else 0%Q) (seq 0 64)
  end)%Q.
Example C63_run : export_M0 (N:=QNum) 1 1 0 3 [1; 8]%nat [8]%nat run_U (fun _ => ([[[[10]]; [[100]]]; [[[1]]; [[1000]]]], [[[1]]; [[10]]]))%Q =
  Some ([[[[2000; 300; 120]]]]%Q, [[[0]; [1; 1]; [0; 1; 2]]]%nat).
Proof. vm_compute. reflexivity. Qed.

(** ** C64: layer 1 of a model with correlation order 3 (what is missing: other correlation orders, see below) *)
Theorem C64_M1_partial : forall (K l_max : nat) (mn an : list nat) (Um : nat -> nat * list R) (Wt : list (list (list (list R))) * list (list (list R))),
  let n := ((l_max + 1) * (l_max + 1))%nat in
  NoDup mn -> incl an mn -> length (fst Wt) = 2%nat -> shapes_ok 1 n 3 (length mn) K Um (order_weights 3 Wt) ->
  exists C M, export_M1 (N:=RNum) K l_max mn an Um Wt = Some (C, M) /\ length C = length an /\
    forall i z, (i < length an)%nat -> (z < length mn)%nat -> nth z mn 0%nat = nth i an 0%nat ->
    length (nth i C []) = K /\
    forall k, (k < K)%nat -> poly_of n (nth k (nth i C []) []) M (contraction 3 n 0 (fun corr => cut (Um corr)) (weight (order_weights 3 Wt) z k)).
Proof. exact lemma_M1. Qed.
Print Assumptions C64_M1_partial.
Theorem C64_M1_evaluated_partial : forall srt, (forall l : list (list (list nat)), Permutation l (srt l)) ->
  forall (K l_max : nat) (mn an : list nat) (Um : nat -> nat * list R) (Wt : list (list (list (list R))) * list (list (list R))),
  let n := ((l_max + 1) * (l_max + 1))%nat in
  NoDup mn -> incl an mn -> length (fst Wt) = 2%nat -> shapes_ok 1 n 3 (length mn) K Um (order_weights 3 Wt) ->
  (forall corr, (1 <= corr <= 3)%nat -> no_small (Um corr)) ->
  exists C M, export_M1 (N:=RNum) K l_max mn an Um Wt = Some (C, M) /\
    forall i z k x, (i < length an)%nat -> (z < length mn)%nat -> nth z mn 0%nat = nth i an 0%nat -> (k < K)%nat -> length x = n ->
    exists Ci cs p p', nth_error C i = Some Ci /\ nth_error Ci k = Some cs /\ make_mpoly (N:=RNum) srt n cs M = Some p /\
      mp_evaluate (N:=RNum) p x = Some (p', contraction 3 n 0 Um (weight (order_weights 3 Wt) z k) x).
Proof. exact lemma_M1_eval. Qed.
Print Assumptions C64_M1_evaluated_partial.
Example C64_example : NoDup [1; 8]%nat /\ incl [8]%nat [1; 8]%nat /\ length (fst ex_Wt) = 2%nat /\ shapes_ok 1 16 3 2 3 (ex_U 1 16) (order_weights 3 ex_Wt) /\
  (forall corr, (1 <= corr <= 3)%nat -> no_small (ex_U 1 16 corr)).
Proof.
  split; [repeat constructor; cbn; intuition discriminate|]. split; [intros a Ha; right; exact Ha|]. split; [reflexivity|]. split; [apply ex_shapes|intros corr _; apply ex_no_small].
Qed.

(** The full statement, for every correlation order of the second product of the model, is false: for order 4 the exporter takes the weights of the orders
    2, 3, 4 for those of the orders 1, 2, 3 and drops order 4, without an error.  In the witness the model computes 5 x0 + 7 x0^2 and the exported
    polynomial is 7 x0. *)
Theorem C64_M1_refuted : ~ (forall (correlation K : nat) (mn an : list nat) (Um : nat -> nat * list R) (Wt : list (list (list (list R))) * list (list (list R))) C M,
  NoDup mn -> incl an mn -> length (fst Wt) = (correlation - 1)%nat -> shapes_ok 1 16 correlation (length mn) K Um (order_weights correlation Wt) ->
  (forall corr, (1 <= corr <= correlation)%nat -> no_small (Um corr)) ->
  export_M1 (N:=RNum) K 3 mn an Um Wt = Some (C, M) ->
  forall i z k, (i < length an)%nat -> (z < length mn)%nat -> nth z mn 0%nat = nth i an 0%nat -> (k < K)%nat ->
  forall x, poly (nth k (nth i C []) []) M x = contraction correlation 16 0 Um (weight (order_weights correlation Wt) z k) x).
Proof. exact lemma_M1_refuted. Qed.
Print Assumptions C64_M1_refuted.
