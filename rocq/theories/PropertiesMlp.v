(** Property theorems for the multilayer perceptron: C21, C22, C23, C24.
    Model: MlpModel.v (on BlasModel.v).  Specification vocabulary: MlpSpec.v. *)
From Coq Require Import List Arith ZArith QArith Reals Lia Lra.
From Verif Require Import Base Instances MlpModel MlpSpec MlpR.
Import ListNotations.
Local Open Scope R_scope.

(** ** C21: evaluation computes the network function *)
Theorem C21_mlp_value : forall (d0 : nat) (Ws : list (list (list R))) (c : R) (x : list R),
  (1 <= d0)%nat -> (1 <= length Ws)%nat -> layers_ok d0 Ws -> length x = d0 ->
  exists m m1 m2 g, make_mlp (N:=RNum) (net_shape d0 Ws) (net_weights Ws) c = Some m /\
    mlp_evaluate m x = Some (m1, network c Ws x) /\
    mlp_evaluate_gradient m x = Some (m2, (network c Ws x, g)).
Proof. exact lemma_C21. Qed.
Print Assumptions C21_mlp_value.

(** a 2-3-1 network; the specification evaluated by hand *)
Definition ex_net : list (list (list R)) := [[[1; 2]; [3; 4]; [0; -1]]; [[5; 6; 7]]].
Example ex_net_ok : layers_ok 2 ex_net /\ net_shape 2 ex_net = [2; 3; 1]%nat.
Proof. simpl. repeat split; auto; intros row [<-|H]; try reflexivity;
  repeat (destruct H as [<-|H]; try reflexivity); contradiction. Qed.

Example C21_example :
  exists m m1, make_mlp (N:=RNum) [2; 3; 1]%nat [[1; 2; 3; 4; 0; -1]; [5; 6; 7]] 2 = Some m /\
    mlp_evaluate m [1; -1] =
      Some (m1, [5 * (2 * -1 / (1 + exp 1)) + 6 * (2 * -1 / (1 + exp 1)) + 7 * (2 * 1 / (1 + exp (-1)))]).
Proof.
  destruct (C21_mlp_value 2 ex_net 2 [1; -1]) as (m & m1 & m2 & g & Em & Ev & _);
    [lia | simpl; lia | apply ex_net_ok | reflexivity |].
  exists m, m1. split; [exact Em|]. rewrite Ev. do 2 f_equal.
  unfold network, ex_net, dotR, silu. cbn [map combine fold_right fst snd]. f_equal.
  replace (1 * 1 + (2 * -1 + 0)) with (-1) by ring.
  replace (3 * 1 + (4 * -1 + 0)) with (-1) by ring.
  replace (0 * 1 + (-1 * -1 + 0)) with 1 by ring.
  replace (- -1) with 1 by ring. replace (Ropp 1) with (-1) by ring. ring.
Qed.

(** ** C22: the reported gradient is the Jacobian of the network, row-major *)
Theorem C22_mlp_jacobian : forall (d0 : nat) (Ws : list (list (list R))) (c : R) (x : list R),
  (1 <= d0)%nat -> (1 <= length Ws)%nat -> layers_ok d0 Ws -> length x = d0 ->
  exists m m' v J, make_mlp (N:=RNum) (net_shape d0 Ws) (net_weights Ws) c = Some m /\
    mlp_evaluate_gradient m x = Some (m', (v, J)) /\
    length v = nth (length Ws) (net_shape d0 Ws) 0%nat /\ length J = (length v * d0)%nat /\
    forall o k, (o < length v)%nat -> (k < d0)%nat ->
      derivable_pt_lim (fun s => nth o (network c Ws (upd x k s)) 0) (nth k x 0)
        (nth (o * d0 + k) J 0).
Proof. exact lemma_C22_net. Qed.
Print Assumptions C22_mlp_jacobian.

Example C22_example :
  exists m m' v J, make_mlp (N:=RNum) [2; 3; 1]%nat [[1; 2; 3; 4; 0; -1]; [5; 6; 7]] 2 = Some m /\
    mlp_evaluate_gradient m [1; -1] = Some (m', (v, J)) /\ length J = 2%nat /\
    derivable_pt_lim (fun s => nth 0 (network 2 ex_net [1; s]) 0) (-1) (nth 1 J 0).
Proof.
  destruct (C22_mlp_jacobian 2 ex_net 2 [1; -1]) as (m & m' & v & J & Em & Eg & Hv & HJ & HD);
    [lia | simpl; lia | apply ex_net_ok | reflexivity |].
  exists m, m', v, J. split; [exact Em|]. split; [exact Eg|].
  rewrite Hv in HJ. split; [exact HJ|].
  apply (HD 0%nat 1%nat); [rewrite Hv; simpl; lia|lia].
Qed.

(** run on rationals at the origin, where [exp] is only needed at 0: J = 1/2 scale W2 W1 *)
Example C22_example_run :
  (m <- make_mlp (N:=QNum) [2; 3; 1]%nat [[1; 2; 3; 4; 0; -1]; [5; 6; 7]]%Q (2#1)%Q ;;
   '(_, (_, J)) <- mlp_evaluate_gradient m [0; 0]%Q ;; Some J) = Some [23#1; 27#1]%Q.
Proof. vm_compute. reflexivity. Qed.

(** ** C23: batches equal row-wise evaluation, for every scalar arithmetic *)
Theorem C23_mlp_batch : forall (N : Num) (d0 : nat) (Ws : list (list (list N))) (scale : N),
  (1 <= d0)%nat -> (1 <= length Ws)%nat -> layers_ok d0 Ws ->
  forall (m : mlp) (X : list (list N)) i x,
  make_mlp (net_shape d0 Ws) (net_weights Ws) scale = Some m ->
  (forall r, In r X -> length r = d0) -> nth_error X i = Some x ->
  let o := nth (length Ws) (net_shape d0 Ws) 0%nat in
  exists m1 m2 m3 m4 v vs g gs w ws,
    mlp_evaluate m x = Some (m1, v) /\
    mlp_evaluate_batch m (concat X) (length X) = Some (m2, vs) /\
    length vs = (length X * o)%nat /\ firstn o (skipn (i * o) vs) = v /\
    mlp_evaluate_gradient m x = Some (m3, (w, g)) /\
    mlp_evaluate_gradient_batch m (concat X) (length X) = Some (m4, (ws, gs)) /\
    length ws = (length X * o)%nat /\ firstn o (skipn (i * o) ws) = w /\
    length gs = (length X * (o * d0))%nat /\ firstn (o * d0) (skipn (i * (o * d0)) gs) = g.
Proof. exact @lemma_C23. Qed.
Print Assumptions C23_mlp_batch.

Example C23_example :
  (m <- make_mlp (N:=QNum) [2; 2; 2]%nat [[1; 2; 3; 4]; [5; 6; 7; 8]]%Q (1#1)%Q ;;
   '(_, vs) <- mlp_evaluate_batch m [1; 2; 0; 1; 3; -1]%Q 3 ;;
   '(_, v) <- mlp_evaluate m [0; 1]%Q ;;
   '(_, (_, gs)) <- mlp_evaluate_gradient_batch m [1; 2; 0; 1; 3; -1]%Q 3 ;;
   '(_, (_, g)) <- mlp_evaluate_gradient m [3; -1]%Q ;;
   Some (firstn 2 (skipn 2 vs), v, firstn 4 (skipn 8 gs), g))
  = Some ([-12#1; -16#1], [-12#1; -16#1], [-41#1; -154#3; -163#3; -610#9], [-41#1; -154#3; -163#3; -610#9])%Q.
Proof. vm_compute. reflexivity. Qed.

(** ** C24: results do not depend on the history of the object, for every scalar arithmetic *)
Theorem C24_mlp_history : forall (N : Num) (d0 : nat) (Ws : list (list (list N))) (scale : N),
  (1 <= d0)%nat -> (1 <= length Ws)%nat -> layers_ok d0 Ws ->
  forall (hist : list mlp_call) (c : mlp_call),
  Forall (call_ok d0) hist -> call_ok d0 c ->
  exists m0 m1 r m2 m3, make_mlp (net_shape d0 Ws) (net_weights Ws) scale = Some m0 /\
    run_calls m0 hist = Some m1 /\
    run_call m1 c = Some (m2, r) /\ run_call m0 c = Some (m3, r).
Proof. exact @lemma_C24. Qed.
Print Assumptions C24_mlp_history.

Example C24_example :
  (m <- make_mlp (N:=QNum) [2; 2; 2]%nat [[1; 2; 3; 4]; [5; 6; 7; 8]]%Q (1#1)%Q ;;
   m' <- run_calls m [CallGradBatch [[1; 1]; [2; 3]; [4; 5]]; CallBatch []; CallGrad [7; 7]; CallBatch [[1; 1]; [2; 3]]]%Q ;;
   '(_, r) <- run_call m' (CallGrad [3; -1]%Q) ;; Some (snd r)) = Some [-41#1; -154#3; -163#3; -610#9]%Q.
Proof. vm_compute. reflexivity. Qed.
