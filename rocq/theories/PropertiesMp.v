(** Property theorems for multivariate polynomials: C15-C20.
    Model: MpModel.v (constructor on ToolsModel.two_part_partitions).  Specification vocabulary: MpSpec.v.
    [srt] stands for the std::sort inside _two_part_partitions: any function that permutes its argument. *)
From Coq Require Import List Arith ZArith QArith Reals Lia Lra Permutation.
From Verif Require Import Base Instances ToolsModel MpModel MpSpec MpThms.
Import ListNotations.
Local Open Scope R_scope.

(** ** C15: evaluation computes the polynomial *)
Theorem C15_poly_value : forall (srt : list (list (list nat)) -> list (list (list nat))),
  (forall l, Permutation l (srt l)) ->
  forall (n : nat) (cs : list R) (ms : list (list nat)) (x : list R),
  monos_ok n ms -> NoDup ms -> length cs = length ms -> length x = n ->
  exists p p', make_mpoly (N:=RNum) srt n cs ms = Some p /\
    mp_evaluate p x = Some (p', poly cs ms x) /\ mp_evaluate_simple p x = Some (poly cs ms x).
Proof. exact lemma_C15. Qed.
Print Assumptions C15_poly_value.

(** 2 x0^2 x1 + 5 x1 x0 + 7 x2 x2 x0 x1 at (2, 3, 5) is 24 + 30 + 1050 *)
Definition ex_ms : list (list nat) := [[0; 0; 1]; [1; 0]; [2; 2; 0; 1]]%nat.
Example ex_ms_ok : monos_ok 3 ex_ms /\ NoDup ex_ms.
Proof.
  split.
  - repeat constructor; try discriminate.
  - unfold ex_ms. repeat constructor; simpl; intuition discriminate.
Qed.
Example C15_example : exists p p', make_mpoly (N:=RNum) (fun l => l) 3 [2; 5; 7] ex_ms = Some p /\
    mp_evaluate p [2; 3; 5] = Some (p', 1104).
Proof.
  destruct (C15_poly_value (fun l => l) (fun l => Permutation_refl l) 3 [2; 5; 7] ex_ms [2; 3; 5]) as (p & p' & E & E1 & _);
    try apply ex_ms_ok; auto.
  exists p, p'. split; auto. rewrite E1. do 2 f_equal. unfold poly, mono. simpl. ring.
Qed.
Example C15_example_run :
  (p <- make_mpoly (N:=QNum) (fun l => l) 3 [2; 5; 7]%Q ex_ms ;; '(_, f) <- mp_evaluate p [2; 3; 5]%Q ;; Some f) = Some (1104#1)%Q.
Proof. vm_compute. reflexivity. Qed.

(** ** C16: the gradient is the vector of partial derivatives *)
Theorem C16_poly_gradient : forall (srt : list (list (list nat)) -> list (list (list nat))),
  (forall l, Permutation l (srt l)) ->
  forall (n : nat) (cs : list R) (ms : list (list nat)) (x : list R),
  monos_ok n ms -> NoDup ms -> length cs = length ms -> length x = n ->
  exists p p' g, make_mpoly (N:=RNum) srt n cs ms = Some p /\
    mp_evaluate_gradient p x = Some (p', (poly cs ms x, g)) /\
    mp_evaluate_gradient_simple p x = Some (poly cs ms x, g) /\
    length g = n /\
    forall k, (k < n)%nat -> derivable_pt_lim (fun s => poly cs ms (upd x k s)) (nth k x 0) (nth k g 0).
Proof. exact lemma_C16. Qed.
Print Assumptions C16_poly_gradient.

Example C16_example :
  (p <- make_mpoly (N:=QNum) (fun l => l) 3 [2; 5; 7]%Q ex_ms ;;
   '(_, (_, g)) <- mp_evaluate_gradient p [2; 3; 5]%Q ;; Some g) = Some [564#1; 368#1; 420#1]%Q.
Proof. vm_compute. reflexivity. Qed.

(** ** C17: batches, for every scalar arithmetic *)
Theorem C17_poly_batch : forall (srt : list (list (list nat)) -> list (list (list nat))),
  (forall l, Permutation l (srt l)) ->
  forall (N : Num) (n : nat) (cs : list N) (ms : list (list nat)),
  monos_ok n ms -> length cs = length ms ->
  forall (p : mpoly) (X : list (list N)) j x,
  make_mpoly srt n cs ms = Some p -> (forall r, In r X -> length r = n) -> nth_error X j = Some x ->
  exists p1 p2 v g vs gs,
    mp_evaluate_gradient p x = Some (p1, (v, g)) /\
    mp_evaluate_batch p (concat X) (length X) = Some (p2, (vs, gs)) /\
    length vs = length X /\ length gs = (length X * n)%nat /\
    nth_error vs j = Some v /\ firstn n (skipn (j * n) gs) = g.
Proof. exact lemma_C17. Qed.
Print Assumptions C17_poly_batch.

Example C17_example :
  (p <- make_mpoly (N:=QNum) (fun l => l) 3 [2; 5; 7]%Q ex_ms ;;
   '(_, r) <- mp_evaluate_batch p [1; 1; 1; 2; 3; 5]%Q 2 ;; Some r) = Some ([14#1; 1104#1], [16#1; 14#1; 14#1; 564#1; 368#1; 420#1])%Q.
Proof. vm_compute. reflexivity. Qed.

(** ** C18: results do not depend on earlier calls, for every scalar arithmetic.
    Missing from the full property: histories containing a batch of size zero, for which it is false (below). *)
Theorem C18_poly_history_partial : forall (srt : list (list (list nat)) -> list (list (list nat))),
  (forall l, Permutation l (srt l)) ->
  forall (N : Num) (n : nat) (cs : list N) (ms : list (list nat)),
  monos_ok n ms -> length cs = length ms ->
  forall (hist : list (@mp_call N)) c,
  List.Forall (mp_call_ok n) hist -> List.Forall nonempty_batch hist -> mp_call_ok n c ->
  exists p0 p1 r p2 p3, make_mpoly srt n cs ms = Some p0 /\ run_mp_calls p0 hist = Some p1 /\
    run_mp_call p1 c = Some (p2, r) /\ run_mp_call p0 c = Some (p3, r).
Proof. exact lemma_C18. Qed.
Print Assumptions C18_poly_history_partial.

Example C18_example :
  (p <- make_mpoly (N:=QNum) (fun l => l) 3 [2; 5; 7]%Q ex_ms ;;
   p <- run_mp_calls p [MpBatch [[1; 1; 1]; [2; 3; 5]]; MpGrad [7; 7; 7]; MpBatch [[1; 1; 1]]]%Q ;;
   '(_, r) <- run_mp_call p (MpGrad [2; 3; 5]%Q) ;; Some r) = Some ([1104#1], [564#1; 368#1; 420#1])%Q.
Proof. vm_compute. reflexivity. Qed.

(** After an empty batch the node buffers are empty and the next scalar evaluation writes out of bounds. *)
Theorem C18_poly_history_refuted :
  ~ (forall (N : Num) (n : nat) (cs : list N) (ms : list (list nat)),
     monos_ok n ms -> length cs = length ms ->
     forall (hist : list (@mp_call N)) c, List.Forall (mp_call_ok n) hist -> mp_call_ok n c ->
     exists p0 p1 r p2 p3, make_mpoly (fun l => l) n cs ms = Some p0 /\ run_mp_calls p0 hist = Some p1 /\
       run_mp_call p1 c = Some (p2, r) /\ run_mp_call p0 c = Some (p3, r)).
Proof.
  intros H. destruct (H QNum 1%nat [1#1]%Q [[0]]%nat) with (hist := [@MpBatch QNum []]) (c := @MpEval QNum [1#1]%Q)
    as (p0 & p1 & r & p2 & p3 & E0 & E1 & E2 & _).
  - repeat constructor; discriminate.
  - reflexivity.
  - repeat constructor. intros x [].
  - reflexivity.
  - vm_compute in E0. injection E0 as <-. vm_compute in E1. injection E1 as <-. vm_compute in E2. discriminate.
Qed.
Print Assumptions C18_poly_history_refuted.

(** ** C19: the constructor's graph, independent of the coefficients and of the scalar arithmetic *)
Theorem C19_poly_graph : forall (srt : list (list (list nat)) -> list (list (list nat))),
  (forall l, Permutation l (srt l)) ->
  forall (n : nat) (ms : list (list nat)), monos_ok n ms ->
  exists nodes edges aux,
    (forall (N : Num) (cs : list N), length cs = length ms -> exists p, make_mpoly srt n cs ms = Some p /\
       mp_nodes p = nodes /\ mp_edges p = edges /\ mp_naux p = length aux) /\
    NoDup nodes /\ length nodes = (n + length edges)%nat /\
    (forall i, (i < n)%nat -> nth_error nodes i = Some [i]) /\ incl ms nodes /\
    (forall i a b, nth_error edges i = Some (a, b) -> (a < n + i)%nat /\ (b < n + i)%nat /\
       exists u v w, nth_error nodes a = Some u /\ nth_error nodes b = Some v /\ nth_error nodes (n + i) = Some w /\
         Permutation (u ++ v) w) /\
    NoDup aux /\ (forall v, In v aux <-> In v nodes /\ ~ In v ms /\ ~ (exists i, (i < n)%nat /\ v = [i])).
Proof. exact lemma_C19. Qed.
Print Assumptions C19_poly_graph.

Example C19_example :
  (p <- make_mpoly (N:=QNum) (fun l => l) 3 [2; 5; 7]%Q ex_ms ;; Some (mp_nodes p, mp_edges p, mp_naux p)) =
  Some ([[0]; [1]; [2]; [0; 0]; [1; 0]; [2; 2]; [0; 0; 1]; [2; 2; 0]; [2; 2; 0; 1]],
        [(0, 0); (1, 0); (2, 2); (3, 1); (5, 0); (7, 1)], 3)%nat.
Proof. vm_compute. reflexivity. Qed.

(** ** C20: repeated monomials.  Only the first term of each monomial is used by evaluate and evaluate_gradient;
    the full property (all terms are summed) is false, see below. *)
Theorem C20_poly_repeated_partial : forall (srt : list (list (list nat)) -> list (list (list nat))),
  (forall l, Permutation l (srt l)) ->
  forall (n : nat) (cs : list R) (ms : list (list nat)) (x : list R),
  monos_ok n ms -> length cs = length ms -> length x = n ->
  exists p p' p'' g, make_mpoly (N:=RNum) srt n cs ms = Some p /\
    mp_evaluate p x = Some (p', let '(cs', ms') := first_terms [] cs ms in poly cs' ms' x) /\
    mp_evaluate_gradient p x = Some (p'', (let '(cs', ms') := first_terms [] cs ms in poly cs' ms' x, g)) /\
    mp_evaluate_simple p x = Some (poly cs ms x).
Proof. exact lemma_C20. Qed.
Print Assumptions C20_poly_repeated_partial.

(** 1 x0 + 2 x0 at x0 = 1 evaluates to 1, not 3 *)
Theorem C20_poly_repeated_refuted :
  ~ (forall (n : nat) (cs : list R) (ms : list (list nat)) (x : list R),
     monos_ok n ms -> length cs = length ms -> length x = n ->
     exists p p', make_mpoly (N:=RNum) (fun l => l) n cs ms = Some p /\ mp_evaluate p x = Some (p', poly cs ms x)).
Proof.
  intros H. destruct (H 1%nat [1; 2] [[0]; [0]]%nat [1]) as (p & p' & E & Ev); auto.
  { repeat constructor; discriminate. }
  destruct (C20_poly_repeated_partial (fun l => l) (fun l => Permutation_refl l) 1 [1; 2] [[0]; [0]]%nat [1])
    as (q & q' & q'' & g & E1 & E2 & _); auto.
  { repeat constructor; discriminate. }
  rewrite E in E1. injection E1 as <-. rewrite Ev in E2. injection E2 as _ E2.
  cbn in E2. unfold poly, mono in E2. simpl in E2. lra.
Qed.
Print Assumptions C20_poly_repeated_refuted.

Example C20_example : first_terms [] [1; 2; 3; 4] [[0]; [1]; [0]; [0; 1]]%nat = ([1; 2; 4], [[0]; [1]; [0; 1]]%nat).
Proof. reflexivity. Qed.
