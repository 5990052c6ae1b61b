(** Base library: scalars, option-valued memory accesses, C-style loops.

    Nothing in this file models a particular function of /repo; it is the
    vocabulary in which the models are written:
    - [Num]      : the scalar type ([double], or Kokkos' [Precision]) WITHOUT laws;
    - [rd], [wr] : checked accesses to [std::vector]/[std::span] ([None] = undefined behaviour);
    - [for_]     : [for (int i=0; i<n; ++i)];  [for_range lo hi] : [for (int i=lo; i<hi; ++i)];
    - [for_down] : [for (int i=n-1; i>=0; --i)]. *)
From Coq Require Import List Arith ZArith Lia.
Import ListNotations.

(** ** Scalars *)
Record Num : Type := mkNum {
  carrier :> Type;
  nlit  : Z -> positive -> carrier;      (* decimal literal num/den, e.g. 0.529 = nlit 529 1000 *)
  nadd  : carrier -> carrier -> carrier;
  nsub  : carrier -> carrier -> carrier;
  nmul  : carrier -> carrier -> carrier;
  ndiv  : carrier -> carrier -> carrier;
  nopp  : carrier -> carrier;
  nleb  : carrier -> carrier -> bool;    (* operator<= *)
  nltb  : carrier -> carrier -> bool;    (* operator<  *)
  ntrunc : carrier -> Z;                 (* static_cast<int> *)
  nexp  : carrier -> carrier;            (* std::exp *)
  nsqrt : carrier -> carrier;            (* std::sqrt *)
  npow  : carrier -> carrier -> carrier; (* std::pow(double,double) *)
  npowi : carrier -> Z -> carrier;       (* std::pow(double,int) *)
  npi   : carrier                        (* std::numbers::pi *)
}.

Arguments nlit {n} _ _.
Arguments nadd {n} _ _.
Arguments nsub {n} _ _.
Arguments nmul {n} _ _.
Arguments ndiv {n} _ _.
Arguments nopp {n} _.
Arguments nleb {n} _ _.
Arguments nltb {n} _ _.
Arguments ntrunc {n} _.
Arguments nexp {n} _.
Arguments nsqrt {n} _.
Arguments npow {n} _ _.
Arguments npowi {n} _ _.
Arguments npi {n}.

Definition nzero {N : Num} : N := nlit 0 1.
Definition none {N : Num} : N := nlit 1 1.
(** implicit conversion int -> double *)
Definition nofZ {N : Num} (z : Z) : N := nlit z 1.
Definition nofnat {N : Num} (n : nat) : N := nofZ (Z.of_nat n).

Declare Scope num_scope.
Delimit Scope num_scope with num.
Infix "+" := nadd : num_scope.
Infix "-" := nsub : num_scope.
Infix "*" := nmul : num_scope.
Infix "/" := ndiv : num_scope.
Notation "- x" := (nopp x) : num_scope.

(** ** Partiality: [None] is undefined behaviour or a thrown exception *)
Definition bind {A B} (x : option A) (f : A -> option B) : option B :=
  match x with Some a => f a | None => None end.
Notation "x <- e ;; f" := (bind e (fun x => f))
  (at level 61, e at next level, right associativity).
Notation "' pat <- e ;; f" := (bind e (fun x => match x with pat => f end))
  (at level 61, pat pattern, e at next level, right associativity).
Notation "'check' b ;; f" := (if b then f else None)
  (at level 61, b at next level, right associativity).

(** ** Memory *)
Definition rd {A} (a : list A) (i : nat) : option A := nth_error a i.

Fixpoint upd {A} (a : list A) (i : nat) (v : A) : list A :=
  match a, i with
  | [], _ => []
  | _ :: t, O => v :: t
  | x :: t, S i' => x :: upd t i' v
  end.

Definition wr {A} (a : list A) (i : nat) (v : A) : option (list A) :=
  if i <? length a then Some (upd a i v) else None.

(** read with a C++ [int] index: negative indices are out of bounds *)
Definition rdZ {A} (a : list A) (i : Z) : option A :=
  if (i <? 0)%Z then None else rd a (Z.to_nat i).

(** [v.resize(n)] / [v.resize(n, d)] *)
Definition resize {A} (d : A) (a : list A) (n : nat) : list A :=
  firstn n a ++ repeat d (n - length a).

(** [a[i] += v] *)
Definition addto {N : Num} (a : list N) (i : nat) (v : N) : option (list N) :=
  x <- rd a i ;; wr a i (x + v)%num.

(** [a[i] -= v] *)
Definition subto {N : Num} (a : list N) (i : nat) (v : N) : option (list N) :=
  x <- rd a i ;; wr a i (x - v)%num.

(** [std::fill(v.begin(), v.end(), d)] *)
Definition fill {A} (d : A) (a : list A) : list A := repeat d (length a).

(** ** Loops *)
Fixpoint for_from {S} (n i : nat) (body : nat -> S -> option S) (s : S) : option S :=
  match n with
  | O => Some s
  | Datatypes.S n' => s' <- body i s ;; for_from n' (Datatypes.S i) body s'
  end.

Definition for_ {S} (n : nat) (body : nat -> S -> option S) (s : S) : option S :=
  for_from n 0 body s.

Definition for_range {S} (lo hi : nat) (body : nat -> S -> option S) (s : S) : option S :=
  for_from (hi - lo) lo body s.

Definition for_down {S} (n : nat) (body : nat -> S -> option S) (s : S) : option S :=
  for_ n (fun k => body (n - 1 - k)) s.
