(** Model of libsymmetrix/source/cubic_spline.cpp, cubic_spline_set.cpp and (bounds checks of)
    cubic_spline_kokkos.cpp. *)
From Coq Require Import List Arith ZArith.
From Verif Require Import Base.
Import ListNotations.

(** Outcome of a C++ call: normal return, a thrown exception, or undefined behaviour. *)
Inductive outcome (A : Type) : Type :=
| Ret (a : A)
| Throws
| UB.
Arguments Ret {A} _.
Arguments Throws {A}.
Arguments UB {A}.

Definition to_option {A} (o : outcome A) : option A :=
  match o with Ret a => Some a | _ => None end.
Definition of_option {A} (o : option A) : outcome A :=
  match o with Some a => Ret a | None => UB end.

Section Spline.
Context {N : Num}.
Local Open Scope num_scope.

(** cubic_spline.cpp:57-71 CubicSpline::generate_coefficients.
    [nodal_values.size()-1] is computed in size_t; for an empty vector it wraps around and the
    allocation of 4*(2^64-1) doubles throws, modelled by [None]. *)
Definition generate_coefficients (h : N) (nodal_values nodal_derivs : list N) : option (list N) :=
  check (negb (length nodal_values =? 0)%nat) ;;
  let n := length nodal_values in
  for_ (n - 1) (fun i c =>
      v0 <- rd nodal_values i ;;
      c <- wr c (4*i) v0 ;;
      d0 <- rd nodal_derivs i ;;
      c <- wr c (4*i+1) d0 ;;
      c0 <- rd c (4*i) ;;
      c1 <- rd c (4*i+1) ;;
      v1 <- rd nodal_values (i+1) ;;
      d1 <- rd nodal_derivs (i+1) ;;
      c <- wr c (4*i+2) ((nofZ (-3) * c0 - nofZ 2 * h * c1 + nofZ 3 * v1 - h * d1) / (h * h)) ;;
      wr c (4*i+3) ((nofZ 2 * c0 + h * c1 - nofZ 2 * v1 + h * d1) / (h * h * h)))
    (repeat nzero (4*(n-1))).

(** cubic_spline.hpp:7-30 class CubicSpline (members h, c). *)
Record cubic_spline := mkCS { cs_h : N; cs_c : list N }.

(** cubic_spline.cpp:6-13 constructor. *)
Definition make_spline (h : N) (vs ds : list N) : option cubic_spline :=
  c <- generate_coefficients h vs ds ;; Some (mkCS h c).

(** cubic_spline.cpp:15-27.  [static_cast<int>] of an out-of-range double (undefined in C++) is not modelled. *)
Definition cs_evaluate (s : cubic_spline) (r : N) : outcome N :=
  let i := ntrunc (r / cs_h s) in
  if ((i <? 0) || (Z.of_nat (length (cs_c s) / 4) <=? i))%Z%bool then Throws else
  let x := r - cs_h s * nofZ i in
  let xx := x * x in
  let xxx := xx * x in
  let i4 := (4 * i)%Z in
  of_option (
    c0 <- rdZ (cs_c s) i4 ;;
    c1 <- rdZ (cs_c s) (i4+1) ;;
    c2 <- rdZ (cs_c s) (i4+2) ;;
    c3 <- rdZ (cs_c s) (i4+3) ;;
    Some (c0 + c1 * x + c2 * xx + c3 * xxx)).

(** cubic_spline.cpp:29-41. *)
Definition cs_evaluate_deriv (s : cubic_spline) (r : N) : outcome (N * N) :=
  let i := ntrunc (r / cs_h s) in
  if ((i <? 0) || (Z.of_nat (length (cs_c s) / 4) <=? i))%Z%bool then Throws else
  let x := r - cs_h s * nofZ i in
  let xx := x * x in
  let xxx := xx * x in
  let i4 := (4 * i)%Z in
  of_option (
    c0 <- rdZ (cs_c s) i4 ;;
    c1 <- rdZ (cs_c s) (i4+1) ;;
    c2 <- rdZ (cs_c s) (i4+2) ;;
    c3 <- rdZ (cs_c s) (i4+3) ;;
    Some (c0 + c1 * x + c2 * xx + c3 * xxx, c1 + nofZ 2 * c2 * x + nofZ 3 * c3 * xx)).

(** cubic_spline.cpp:43-55. *)
Definition cs_evaluate_deriv_divided (s : cubic_spline) (r : N) : outcome (N * N) :=
  let i := ntrunc (r / cs_h s) in
  if ((i <? 0) || (Z.of_nat (length (cs_c s) / 4) <=? i))%Z%bool then Throws else
  let x := r - cs_h s * nofZ i in
  let xx := x * x in
  let xxx := xx * x in
  let i4 := (4 * i)%Z in
  of_option (
    c0 <- rdZ (cs_c s) i4 ;;
    c1 <- rdZ (cs_c s) (i4+1) ;;
    c2 <- rdZ (cs_c s) (i4+2) ;;
    c3 <- rdZ (cs_c s) (i4+3) ;;
    Some (c0 + c1 * x + c2 * xx + c3 * xxx, (c1 + nofZ 2 * c2 * x + nofZ 3 * c3 * xx) / r)).

(** ** CubicSplineSet *)

(** cubic_spline_set.hpp:6-29 (members num_splines, h, num_nodes, c). *)
Record spline_set := mkCSS { css_num : nat; css_h : N; css_nodes : nat; css_c : list N }.

(** cubic_spline_set.cpp:5-25 constructor.  [nodal_values[0]] on an empty outer vector is
    undefined behaviour; [num_nodes-1] with num_nodes=0 makes the allocation fail. *)
Definition make_spline_set (h : N) (vs ds : list (list N)) : option spline_set :=
  row0 <- rd vs 0 ;;
  let num_nodes := length row0 in
  let num_splines := length vs in
  check (negb (num_nodes =? 0)%nat) ;;
  c <- for_ (num_nodes - 1) (fun i c =>
        for_ num_splines (fun j c =>
          vj <- rd vs j ;;
          dj <- rd ds j ;;
          v0 <- rd vj i ;;
          c <- wr c ((4*i)*num_splines+j) v0 ;;
          d0 <- rd dj i ;;
          c <- wr c ((4*i+1)*num_splines+j) d0 ;;
          v1 <- rd vj (i+1) ;;
          d1 <- rd dj (i+1) ;;
          c <- wr c ((4*i+2)*num_splines+j) ((nofZ (-3) * v0 - nofZ 2 * h * d0 + nofZ 3 * v1 - h * d1) / (h * h)) ;;
          wr c ((4*i+3)*num_splines+j) ((nofZ 2 * v0 + h * d0 - nofZ 2 * v1 + h * d1) / (h * h * h))) c)
      (repeat nzero (4*num_splines*(num_nodes-1))) ;;
  Some (mkCSS num_splines h num_nodes c).

(** cubic_spline_set.cpp:27-48 evaluate.  The span [values] is a vector together with the offset
    [vb] at which it starts.  There is no bounds check on [i]: reading outside [c] is [None]. *)
Definition css_evaluate (s : spline_set) (r : N) (values : list N) (vb : nat) : option (list N) :=
  let i := ntrunc (r / css_h s) in
  let x := r - css_h s * nofZ i in
  let xx := x * x in
  let xxx := xx * x in
  let n := css_num s in
  let c_i := (4 * i * Z.of_nat n)%Z in
  values <- for_ n (fun j v =>
      c <- rdZ (css_c s) (c_i + Z.of_nat j) ;; wr v (vb+j) c) values ;;
  let c_i := (c_i + Z.of_nat n)%Z in
  values <- for_ n (fun j v =>
      c <- rdZ (css_c s) (c_i + Z.of_nat j) ;; addto v (vb+j) (c * x)) values ;;
  let c_i := (c_i + Z.of_nat n)%Z in
  values <- for_ n (fun j v =>
      c <- rdZ (css_c s) (c_i + Z.of_nat j) ;; addto v (vb+j) (c * xx)) values ;;
  let c_i := (c_i + Z.of_nat n)%Z in
  for_ n (fun j v =>
      c <- rdZ (css_c s) (c_i + Z.of_nat j) ;; addto v (vb+j) (c * xxx)) values.

(** cubic_spline_set.cpp:50-84 evaluate_derivs. *)
Definition css_evaluate_derivs (s : spline_set) (r : N)
    (values : list N) (vb : nat) (derivs : list N) (db : nat) : option (list N * list N) :=
  let i := ntrunc (r / css_h s) in
  let x := r - css_h s * nofZ i in
  let xx := x * x in
  let xxx := xx * x in
  let two_x := nofZ 2 * x in
  let three_xx := nofZ 3 * xx in
  let n := css_num s in
  let c_i := (4 * i * Z.of_nat n)%Z in
  values <- for_ n (fun j v =>
      c <- rdZ (css_c s) (c_i + Z.of_nat j) ;; wr v (vb+j) c) values ;;
  let c_i := (c_i + Z.of_nat n)%Z in
  values <- for_ n (fun j v =>
      c <- rdZ (css_c s) (c_i + Z.of_nat j) ;; addto v (vb+j) (x * c)) values ;;
  let c_i := (c_i + Z.of_nat n)%Z in
  values <- for_ n (fun j v =>
      c <- rdZ (css_c s) (c_i + Z.of_nat j) ;; addto v (vb+j) (xx * c)) values ;;
  let c_i := (c_i + Z.of_nat n)%Z in
  values <- for_ n (fun j v =>
      c <- rdZ (css_c s) (c_i + Z.of_nat j) ;; addto v (vb+j) (xxx * c)) values ;;
  let c_i := ((4 * i + 1) * Z.of_nat n)%Z in
  derivs <- for_ n (fun j v =>
      c <- rdZ (css_c s) (c_i + Z.of_nat j) ;; wr v (db+j) c) derivs ;;
  let c_i := (c_i + Z.of_nat n)%Z in
  derivs <- for_ n (fun j v =>
      c <- rdZ (css_c s) (c_i + Z.of_nat j) ;; addto v (db+j) (two_x * c)) derivs ;;
  let c_i := (c_i + Z.of_nat n)%Z in
  derivs <- for_ n (fun j v =>
      c <- rdZ (css_c s) (c_i + Z.of_nat j) ;; addto v (db+j) (three_xx * c)) derivs ;;
  Some (values, derivs).

(** ** CubicSplineKokkos.  The host mirror of [c] is assumed to alias [c] (host execution space); see DESIGN.md.
    [num_coeffs] is a size_t; [i] is known to be >= 0 when it is compared. *)

(** cubic_spline_kokkos.cpp:26-48 (guard [i >= num_coeffs/4], line 30). *)
Definition csk_evaluate (s : cubic_spline) (r : N) : outcome N :=
  let i := ntrunc (r / cs_h s) in
  if ((i <? 0) || (Z.of_nat (length (cs_c s) / 4) <=? i))%Z%bool then Throws else
  let x := r - cs_h s * nofZ i in
  let xx := x * x in
  let xxx := xx * x in
  let i4 := (4 * i)%Z in
  of_option (
    c0 <- rdZ (cs_c s) i4 ;;
    c1 <- rdZ (cs_c s) (i4+1) ;;
    c2 <- rdZ (cs_c s) (i4+2) ;;
    c3 <- rdZ (cs_c s) (i4+3) ;;
    Some (c0 + c1 * x + c2 * xx + c3 * xxx)).

(** cubic_spline_kokkos.cpp:50-73 (guard [i > num_coeffs/4], line 54). *)
Definition csk_evaluate_deriv (s : cubic_spline) (r : N) : outcome (N * N) :=
  let i := ntrunc (r / cs_h s) in
  if ((i <? 0) || (Z.of_nat (length (cs_c s) / 4) <? i))%Z%bool then Throws else
  let x := r - cs_h s * nofZ i in
  let xx := x * x in
  let xxx := xx * x in
  let i4 := (4 * i)%Z in
  of_option (
    c0 <- rdZ (cs_c s) i4 ;;
    c1 <- rdZ (cs_c s) (i4+1) ;;
    c2 <- rdZ (cs_c s) (i4+2) ;;
    c3 <- rdZ (cs_c s) (i4+3) ;;
    Some (c0 + c1 * x + c2 * xx + c3 * xxx, c1 + nofZ 2 * c2 * x + nofZ 3 * c3 * xx)).

(** cubic_spline_kokkos.cpp:75-95 (guard [i > num_coeffs], line 79). *)
Definition csk_evaluate_deriv_divided (s : cubic_spline) (r : N) : outcome (N * N) :=
  let i := ntrunc (r / cs_h s) in
  if ((i <? 0) || (Z.of_nat (length (cs_c s)) <? i))%Z%bool then Throws else
  let x := r - cs_h s * nofZ i in
  let xx := x * x in
  let xxx := xx * x in
  let i4 := (4 * i)%Z in
  of_option (
    c0 <- rdZ (cs_c s) i4 ;;
    c1 <- rdZ (cs_c s) (i4+1) ;;
    c2 <- rdZ (cs_c s) (i4+2) ;;
    c3 <- rdZ (cs_c s) (i4+3) ;;
    Some (c0 + c1 * x + c2 * xx + c3 * xxx, (c1 + nofZ 2 * c2 * x + nofZ 3 * c3 * xx) / r)).

End Spline.
