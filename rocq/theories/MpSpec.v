(** Specification of polynomials in several variables, independent of the implementation model. *)
From Coq Require Import List Arith Reals.
From Verif Require Import Base MpModel.
Import ListNotations.
Local Open Scope R_scope.

(** the product of the listed variables, e.g. [[0;0;2]] is x0^2 x2 *)
Definition mono (x : list R) (m : list nat) : R := fold_right Rmult 1 (map (fun i => nth i x 0) m).
Definition poly (cs : list R) (ms : list (list nat)) (x : list R) : R :=
  fold_right Rplus 0 (map (fun p => fst p * mono x (snd p)) (combine cs ms)).

(** monomials over the variables 0..n-1 *)
Definition monos_ok (n : nat) (ms : list (list nat)) : Prop :=
  Forall (fun m => m <> [] /\ Forall (fun i => (i < n)%nat) m) ms.

(** the terms whose monomial has not been listed before *)
Fixpoint first_terms (seen : list (list nat)) (cs : list R) (ms : list (list nat)) : list R * list (list nat) :=
  match cs, ms with
  | c :: cs, m :: ms =>
    if in_dec (list_eq_dec Nat.eq_dec) m seen then first_terms seen cs ms
    else let '(cs', ms') := first_terms (m :: seen) cs ms in (c :: cs', m :: ms')
  | _, _ => ([], [])
  end.

(** API calls on a polynomial object; a batch is given by its rows. *)
Section Calls.
Context {N : Num}.
Inductive mp_call :=
| MpEval (x : list N)
| MpGrad (x : list N)
| MpBatch (X : list (list N)).

Definition mp_call_ok (n : nat) (c : mp_call) : Prop :=
  match c with
  | MpEval x | MpGrad x => length x = n
  | MpBatch X => forall x, In x X -> length x = n
  end.
Definition nonempty_batch (c : mp_call) : Prop := match c with MpBatch [] => False | _ => True end.

Definition run_mp_call (p : mpoly (N:=N)) (c : mp_call) : option (mpoly (N:=N) * (list N * list N)) :=
  match c with
  | MpEval x => '(p', f) <- mp_evaluate p x ;; Some (p', ([f], []))
  | MpGrad x => '(p', (f, g)) <- mp_evaluate_gradient p x ;; Some (p', ([f], g))
  | MpBatch X => mp_evaluate_batch p (concat X) (length X)
  end.

Fixpoint run_mp_calls (p : mpoly (N:=N)) (cs : list mp_call) : option (mpoly (N:=N)) :=
  match cs with
  | [] => Some p
  | c :: r => '(p', _) <- run_mp_call p c ;; run_mp_calls p' r
  end.
End Calls.
