(** Calls on a polynomial object of the Kokkos class, and the call on the object of the CPU class that each stands for. *)
From Coq Require Import List Arith ZArith Bool Reals.
From Verif Require Import Base Instances MpModel KkSem KkSpec MpKkModel.
Import ListNotations.

(** calls from Python; [g] is the array that receives the gradient *)
Inductive mpkk_call :=
| QEval (x : list R)
| QSimple (x : list R)
| QGrad (x g : list R)
| QGradSimple (x g : list R).

Definition mpkk_cmds (host : bool) (q : mpkk RNum) (c : mpkk_call) : list (hcmd RNum) :=
  match c with
  | QEval x => k_evaluate host q x
  | QSimple x => k_evaluate_simple q x
  | QGrad x g => bind_g (N:=RNum) g :: k_evaluate_gradient host q x
  | QGradSimple x g => bind_g (N:=RNum) g :: k_evaluate_gradient_simple q x
  end.

(** no variable occurs in two different terms *)
Definition separate (ms : list (list nat)) : Prop :=
  forall i i' v, In v (nth i ms []) -> In v (nth i' ms []) -> i = i'.

(** arrays of the right lengths; the gradient of the simple evaluation only for separate terms *)
Definition mpkk_call_ok (n : nat) (ms : list (list nat)) (c : mpkk_call) : Prop :=
  match c with
  | QEval x | QSimple x => length x = n
  | QGrad x g => length x = n /\ length g = n
  | QGradSimple x g => length x = n /\ length g = n /\ separate ms
  end.

(** the value returned and the array [g] afterwards *)
Definition mpkk_f (m : mem RNum) : R := val m (qF, []).
Definition mpkk_g (m : mem RNum) : list R := kk_view m qG.

(** memory [m] after the call has the results of the same call on the object [p] of class MultivariatePolynomial *)
Definition same_result (p : mpoly (N:=RNum)) (c : mpkk_call) (m : mem RNum) : Prop :=
  match c with
  | QEval x => exists p', mp_evaluate p x = Some (p', mpkk_f m)
  | QSimple x => mp_evaluate_simple p x = Some (mpkk_f m)
  | QGrad x _ => exists p', mp_evaluate_gradient p x = Some (p', (mpkk_f m, mpkk_g m))
  | QGradSimple x _ => mp_evaluate_gradient_simple p x = Some (mpkk_f m, mpkk_g m)
  end.
