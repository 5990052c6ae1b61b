(** Calls on an object of class CubicSplineSetKokkos, and the call on the object of class CubicSplineSet that each stands for. *)
From Coq Require Import List Arith ZArith Bool Reals.
From Verif Require Import Base Instances SplineModel KkSem KkModel KkSpec SplKkModel.
Import ListNotations.

(** [a], [b]: previous contents of the output arrays or views *)
Inductive kss_call :=
| SEval (r : R) (a : list R)                      (* evaluate(r, View) *)
| SDerivs (r : R) (a b : list R)                  (* evaluate_derivs(r, View, View) *)
| SMany (rs : list R) (k w : nat) (a b : list nat -> R)   (* evaluate_derivs(View, View, View); the last two with k rows of w elements *)
| SSpan (r : R) (a : list R)                      (* evaluate(r, span) *)
| SDerivsSpan (r : R) (a b : list R).             (* evaluate_derivs(r, span, span) *)

Definition kss_cmds (host : bool) (s : kss RNum) (c : kss_call) : list (hcmd RNum) :=
  match c with
  | SEval r a => [as_view (N:=RNum) sOv a; HRun (kss_evaluate (N:=RNum) s r sOv)]
  | SDerivs r a b => [as_view (N:=RNum) sOv a; as_view (N:=RNum) sOd b; HRun (kss_evaluate_derivs (N:=RNum) s r sOv sOd)]
  | SMany rs k w a b =>
      [hop (N:=RNum) (fun m => set_view m sOv [k; w] a); hop (N:=RNum) (fun m => set_view m sOd [k; w] b);
       HRun (kss_evaluate_many (N:=RNum) s rs)]
  | SSpan r a => as_view (N:=RNum) sOv a :: kss_evaluate_span (N:=RNum) host s r
  | SDerivsSpan r a b => as_view (N:=RNum) sOv a :: as_view (N:=RNum) sOd b :: kss_evaluate_derivs_span (N:=RNum) host s r
  end.

(** arguments within the [n] nodes; arrays with room for [num] splines; spans only where the host can see the views *)
Definition kss_call_ok (host : bool) (h : R) (n num : nat) (c : kss_call) : Prop :=
  let inside r := (0 <= r < h * INR (n - 1))%R in
  match c with
  | SEval r a => inside r /\ num <= length a
  | SDerivs r a b => inside r /\ num <= length a /\ num <= length b
  | SMany rs k w _ _ => (forall r, In r rs -> inside r) /\ length rs <= k /\ num <= w
  | SSpan r a => host = true /\ inside r /\ num <= length a
  | SDerivsSpan r a b => host = true /\ inside r /\ num <= length a /\ num <= length b
  end.

(** row [i] of a view with rows of [w] elements *)
Definition row_of (f : list nat -> R) (w i : nat) : list R := map (fun j => f [i; j]) (seq 0 w).

(** the output views of memory [m] after the call hold what the same call on the object [S] of class CubicSplineSet stores,
    elements that it does not store included *)
Definition kss_same (S : spline_set (N:=RNum)) (c : kss_call) (m : mem RNum) : Prop :=
  match c with
  | SEval r a | SSpan r a => css_evaluate S r a 0 = Some (kk_view m sOv)
  | SDerivs r a b | SDerivsSpan r a b => css_evaluate_derivs S r a 0 b 0 = Some (kk_view m sOv, kk_view m sOd)
  | SMany rs k w a b =>
      (forall i, i < length rs ->
        css_evaluate_derivs S (nth i rs 0%R) (row_of a w i) 0 (row_of b w i) 0 =
          Some (row_of (fun idx => val m (sOv, idx)) w i, row_of (fun idx => val m (sOd, idx)) w i)) /\
      (forall i, length rs <= i < k ->
        row_of (fun idx => val m (sOv, idx)) w i = row_of a w i /\ row_of (fun idx => val m (sOd, idx)) w i = row_of b w i)
  end.
