(** Property theorems for the splines: C11, C12, C13, C14, C45.
    Model: SplineModel.v.  [RNum] is the instance of the scalars by the standard library's reals;
    theorems quantified over [N : Num] hold for every scalar type, in particular IEEE doubles. *)
From Coq Require Import List Arith ZArith QArith Reals Lia Lra.
From Verif Require Import Base Instances SplineModel SplineProofs SplineR.
Import ListNotations.
Local Open Scope R_scope.

(** ** C11: the spline interpolates the nodal values and derivatives *)
Theorem C11_spline_interpolates : forall (h : R) (vs ds : list R),
  0 < h -> (2 <= length vs)%nat -> length ds = length vs ->
  exists s, make_spline h vs ds = Some s /\
  (* at every node but the last, exactly *)
  (forall i, (i < length vs - 1)%nat ->
     cs_evaluate s (h * INR i) = Ret (nth i vs 0) /\
     cs_evaluate_deriv s (h * INR i) = Ret (nth i vs 0, nth i ds 0)) /\
  (* at every node but the first (the last included), as the limit from the left *)
  (forall i, (0 < i <= length vs - 1)%nat -> forall eps, 0 < eps ->
     exists del, 0 < del /\ forall r, h * INR i - del < r < h * INR i ->
       exists y y', cs_evaluate s r = Ret y /\ cs_evaluate_deriv s r = Ret (y, y') /\
         Rabs (y - nth i vs 0) < eps /\ Rabs (y' - nth i ds 0) < eps).
Proof. exact lemma_C11. Qed.
Print Assumptions C11_spline_interpolates.

Example C11_example :
  exists s, make_spline (1/2) [1; 3; 2] [0; -1; 5] = Some s /\
    cs_evaluate_deriv s (1/2 * INR 1) = Ret (3, -1).
Proof.
  destruct (C11_spline_interpolates (1/2) [1;3;2] [0;-1;5]) as (s & Hs & H & _);
    [lra | simpl; lia | reflexivity |].
  exists s. split; auto. apply (H 1%nat). simpl; lia.
Qed.

(** the same spline run on rationals between the nodes *)
Example C11_example_run :
  (s <- make_spline (N:=QNum) (1#2)%Q [1#1; 3#1; 2#1]%Q [0#1; -1#1; 5#1]%Q ;;
   to_option (cs_evaluate_deriv s (3#4)%Q)) = Some (17#8, -4#1)%Q.
Proof. vm_compute. reflexivity. Qed.

(** ** C12: the reported derivative is the derivative of the reported value, across nodes too *)
Theorem C12_spline_derivative : forall (h : R) (vs ds : list R) (r : R),
  0 < h -> (2 <= length vs)%nat -> length ds = length vs -> 0 < r < h * INR (length vs - 1) ->
  exists s y y', make_spline h vs ds = Some s /\
    cs_evaluate_deriv s r = Ret (y, y') /\
    derivable_pt_lim (fun t => match cs_evaluate s t with Ret y => y | _ => 0 end) r y'.
Proof. exact lemma_C12_scalar. Qed.
Print Assumptions C12_spline_derivative.

Theorem C12_spline_set_derivative : forall (h : R) (vs ds : list (list R)) n (r : R) (a b : list R),
  0 < h -> (2 <= n)%nat -> (1 <= length vs)%nat -> length ds = length vs ->
  (forall row, In row vs -> length row = n) -> (forall row, In row ds -> length row = n) ->
  0 < r < h * INR (n - 1) ->
  (* previous contents of the output spans: arbitrary *)
  length a = length vs -> length b = length vs ->
  exists s V D, make_spline_set h vs ds = Some s /\
    css_evaluate_derivs s r a 0 b 0 = Some (V, D) /\
    length V = length vs /\ length D = length vs /\
    forall j, (j < length vs)%nat ->
      derivable_pt_lim
        (fun t => nth j (match css_evaluate_derivs s t a 0 b 0 with Some (v, _) => v | None => [] end) 0)
        r (nth j D 0).
Proof. exact lemma_C12_set. Qed.
Print Assumptions C12_spline_set_derivative.

(** at a node (r = 1/2 = h * 1): the derivative exists and is the one in the table *)
Example C12_example :
  exists s, make_spline (1/2) [1; 3; 2] [0; -1; 5] = Some s /\
    derivable_pt_lim (fun t => match cs_evaluate s t with Ret y => y | _ => 0 end) (1/2) (-1).
Proof.
  destruct (C12_spline_derivative (1/2) [1;3;2] [0;-1;5] (1/2)) as (s & y & y' & Hs & He & Hd);
    [lra | simpl; lia | reflexivity | simpl; lra |].
  destruct C11_example as (s' & Hs' & He'). rewrite Hs in Hs'. injection Hs' as <-.
  replace (1/2 * INR 1) with (1/2) in He' by (simpl; lra).
  rewrite He in He'. injection He' as _ ->. exists s. auto.
Qed.

Example C12_set_example :
  exists s V D, make_spline_set (1/2) [[1; 3; 2]; [4; 5; 6]] [[0; -1; 5]; [7; 8; 9]] = Some s /\
    css_evaluate_derivs s (3/4) [11; 12] 0 [13; 14] 0 = Some (V, D) /\ length V = 2%nat.
Proof.
  destruct (C12_spline_set_derivative (1/2) [[1; 3; 2]; [4; 5; 6]] [[0; -1; 5]; [7; 8; 9]] 3 (3/4) [11;12] [13;14])
    as (s & V & D & H1 & H2 & H3 & _); try reflexivity; try (simpl; lra); try (simpl; lia).
  - simpl. intros row [<-|[<-|[]]]; reflexivity.
  - simpl. intros row [<-|[<-|[]]]; reflexivity.
  - exists s, V, D. auto.
Qed.

(** ** C13: the evaluators agree *)
(** scalar evaluators, for every scalar type, every coefficient table and every r: same outcome
    (value, exception or out-of-bounds), the same value, and the divided derivative is the derivative / r *)
Theorem C13_scalar_evaluators_agree : forall (N : Num) (s : cubic_spline (N:=N)) (r : N),
  match cs_evaluate_deriv s r with
  | Ret (y, d) => cs_evaluate s r = Ret y /\ cs_evaluate_deriv_divided s r = Ret (y, ndiv d r)
  | Throws => cs_evaluate s r = Throws /\ cs_evaluate_deriv_divided s r = Throws
  | UB => cs_evaluate s r = UB /\ cs_evaluate_deriv_divided s r = UB
  end.
Proof. exact @lemma_C13_gen. Qed.
Print Assumptions C13_scalar_evaluators_agree.

(** spline j of a set against the scalar spline built from row j, over the reals *)
Theorem C13_set_agrees_with_scalar : forall (h : R) (vs ds : list (list R)) n (r : R) (a b : list R) j,
  0 < h -> (2 <= n)%nat -> length ds = length vs ->
  (forall row, In row vs -> length row = n) -> (forall row, In row ds -> length row = n) ->
  0 <= r < h * INR (n - 1) ->
  length a = length vs -> length b = length vs -> (j < length vs)%nat ->
  exists S s V D V', make_spline_set h vs ds = Some S /\
    make_spline h (nth j vs []) (nth j ds []) = Some s /\
    css_evaluate_derivs S r a 0 b 0 = Some (V, D) /\
    css_evaluate S r a 0 = Some V' /\
    cs_evaluate s r = Ret (nth j V' 0) /\
    cs_evaluate_deriv s r = Ret (nth j V 0, nth j D 0).
Proof. exact lemma_C13_set. Qed.
Print Assumptions C13_set_agrees_with_scalar.

(** ... and the values bit for bit, for every scalar type *)
Theorem C13_set_values_bitwise : forall (N : Num) (h : N) (vs ds : list (list N)) n (r : N) (a : list N) j i,
  length ds = length vs ->
  (forall row, In row vs -> length row = n) -> (forall row, In row ds -> length row = n) ->
  ntrunc (ndiv r h) = Z.of_nat i -> (i < n - 1)%nat ->
  length a = length vs -> (j < length vs)%nat ->
  exists S s V y, make_spline_set h vs ds = Some S /\
    make_spline h (nth j vs []) (nth j ds []) = Some s /\
    css_evaluate S r a 0 = Some V /\ nth_error V j = Some y /\ cs_evaluate s r = Ret y.
Proof. exact @lemma_C13_set_bits. Qed.
Print Assumptions C13_set_values_bitwise.

Example C13_example :
  (s <- make_spline (N:=QNum) (1#2)%Q [1#1; 3#1; 2#1]%Q [0#1; -1#1; 5#1]%Q ;;
   to_option (cs_evaluate_deriv_divided s (3#4)%Q)) = Some (17#8, -16#3)%Q /\
  (s <- make_spline_set (N:=QNum) (1#2)%Q [[4#1; 5#1; 6#1]; [1#1; 3#1; 2#1]]%Q [[7#1; 8#1; 9#1]; [0#1; -1#1; 5#1]]%Q ;;
   css_evaluate_derivs s (3#4)%Q [11#1;12#1]%Q 0 [13#1;14#1]%Q 0) = Some ([87#16; 17#8], [-5#4; -4#1])%Q.
Proof. split; vm_compute; reflexivity. Qed.

(** ** C14: domain guard *)
(** For every real r the scalar evaluators never read out of bounds; they answer on [0,(n-1)h) and throw
    for r <= -h and for r >= (n-1)h.  Partial: the property also asks that they throw on (-h,0). *)
Theorem C14_domain_guard_partial : forall (h : R) (vs ds : list R) (r : R),
  0 < h -> (2 <= length vs)%nat -> length ds = length vs ->
  exists s, make_spline h vs ds = Some s /\
    (0 <= r < h * INR (length vs - 1) -> exists y, cs_evaluate s r = Ret y) /\
    (r <= - h \/ h * INR (length vs - 1) <= r -> cs_evaluate s r = Throws) /\
    cs_evaluate s r <> UB /\ cs_evaluate_deriv s r <> UB /\ cs_evaluate_deriv_divided s r <> UB.
Proof. exact lemma_C14. Qed.
Print Assumptions C14_domain_guard_partial.

(** negative arguments in (-h,0) are accepted (truncation is toward zero) *)
Theorem C14_negative_accepted_refuted : forall (h : R) (vs ds : list R) (r : R),
  0 < h -> (2 <= length vs)%nat -> length ds = length vs -> - h < r < 0 ->
  exists s y, make_spline h vs ds = Some s /\ cs_evaluate s r = Ret y.
Proof. exact lemma_C14_neg. Qed.
Print Assumptions C14_negative_accepted_refuted.

(** the spline set has no guard: every argument at or beyond the last node reads outside the table *)
Theorem C14_set_unguarded_refuted : forall (h : R) (vs ds : list (list R)) n (r : R) (a b : list R),
  0 < h -> (2 <= n)%nat -> (1 <= length vs)%nat -> length ds = length vs ->
  (forall row, In row vs -> length row = n) -> (forall row, In row ds -> length row = n) ->
  h * INR (n - 1) <= r ->
  exists s, make_spline_set h vs ds = Some s /\
    css_evaluate s r a 0 = None /\ css_evaluate_derivs s r a 0 b 0 = None.
Proof. exact lemma_C14_set. Qed.
Print Assumptions C14_set_unguarded_refuted.

Example C14_example :
  (exists s, make_spline (1/2) [1; 3; 2] [0; -1; 5] = Some s /\ cs_evaluate s 1 = Throws) /\
  (exists s y, make_spline (1/2) [1; 3; 2] [0; -1; 5] = Some s /\ cs_evaluate s (-1/4) = Ret y).
Proof.
  split.
  - destruct (C14_domain_guard_partial (1/2) [1;3;2] [0;-1;5] 1) as (s & Hs & _ & H & _);
      [lra | simpl; lia | reflexivity |].
    exists s. split; auto. apply H. right. simpl. lra.
  - apply C14_negative_accepted_refuted; simpl; try lra; try lia; reflexivity.
Qed.

(** ** C45: Kokkos scalar spline guards *)
(** Partial: value evaluation is always guarded; value+derivative evaluation is safe below the last node. *)
Theorem C45_kokkos_guard_partial : forall (h : R) (vs ds : list R) (r : R),
  0 < h -> (2 <= length vs)%nat -> length ds = length vs ->
  exists s, make_spline h vs ds = Some s /\ csk_evaluate s r <> UB /\
   (r < h * INR (length vs - 1) ->
     csk_evaluate_deriv s r <> UB /\ csk_evaluate_deriv_divided s r <> UB).
Proof. exact lemma_C45_ok. Qed.
Print Assumptions C45_kokkos_guard_partial.

(** In the whole interval of length h beyond the last node both derivative evaluators pass their
    own range check and read outside the coefficient table, where the value evaluator throws. *)
Theorem C45_kokkos_guard_refuted : forall (h : R) (vs ds : list R) (r : R),
  0 < h -> (2 <= length vs)%nat -> length ds = length vs ->
  h * INR (length vs - 1) <= r < h * INR (length vs) ->
  exists s, make_spline h vs ds = Some s /\
    csk_evaluate s r = Throws /\
    csk_evaluate_deriv s r = UB /\ csk_evaluate_deriv_divided s r = UB.
Proof. exact lemma_C45_bad. Qed.
Print Assumptions C45_kokkos_guard_refuted.

Example C45_example :
  exists s, make_spline (1/2) [1; 3; 2] [0; -1; 5] = Some s /\
    csk_evaluate s 1 = Throws /\ csk_evaluate_deriv s 1 = UB /\ csk_evaluate_deriv_divided s 1 = UB.
Proof. apply C45_kokkos_guard_refuted; simpl; try lra; try lia; reflexivity. Qed.
