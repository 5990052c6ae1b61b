(** Specification of the multilayer perceptron, independent of the implementation model. *)
From Coq Require Import List Arith Reals.
From Verif Require Import Base MlpModel.
Import ListNotations.
Local Open Scope R_scope.

(** A network is its list of weight matrices (each a list of rows); [d] is the input dimension. *)
Fixpoint layers_ok {A} (d : nat) (Ws : list (list (list A))) : Prop :=
  match Ws with
  | [] => True
  | W :: r => (1 <= length W)%nat /\ (forall row, In row W -> length row = d) /\ layers_ok (length W) r
  end.

Definition net_shape {A} (d : nat) (Ws : list (list (list A))) : list nat := d :: map (@length _) Ws.
(** row-major storage *)
Definition net_weights {A} (Ws : list (list (list A))) : list (list A) := map (@concat _) Ws.

Definition dotR (u v : list R) : R := fold_right Rplus 0 (map (fun p => fst p * snd p) (combine u v)).
Definition silu (c x : R) : R := c * x / (1 + exp (- x)).

Fixpoint network (c : R) (Ws : list (list (list R))) (x : list R) : list R :=
  match Ws with
  | [] => x
  | [W] => map (fun row => dotR row x) W
  | W :: r => network c r (map (silu c) (map (fun row => dotR row x) W))
  end.

(** API calls on a perceptron object; a batch is given by its rows. *)
Section Calls.
Context {N : Num}.
Inductive mlp_call :=
| CallEval (x : list N)
| CallGrad (x : list N)
| CallBatch (X : list (list N))
| CallGradBatch (X : list (list N)).

Definition call_ok (d : nat) (c : mlp_call) : Prop :=
  match c with
  | CallEval x | CallGrad x => length x = d
  | CallBatch X | CallGradBatch X => forall x, In x X -> length x = d
  end.

(** values and (possibly empty) gradient *)
Definition run_call (m : mlp (N:=N)) (c : mlp_call) : option (mlp (N:=N) * (list N * list N)) :=
  match c with
  | CallEval x => '(m', v) <- mlp_evaluate m x ;; Some (m', (v, []))
  | CallGrad x => mlp_evaluate_gradient m x
  | CallBatch X => '(m', v) <- mlp_evaluate_batch m (concat X) (length X) ;; Some (m', (v, []))
  | CallGradBatch X => mlp_evaluate_gradient_batch m (concat X) (length X)
  end.

Fixpoint run_calls (m : mlp (N:=N)) (cs : list mlp_call) : option (mlp (N:=N)) :=
  match cs with
  | [] => Some m
  | c :: r => '(m', _) <- run_call m c ;; run_calls m' r
  end.
End Calls.
