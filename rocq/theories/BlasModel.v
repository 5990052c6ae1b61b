(** Model of the CBLAS routines called by the repository (external library, see DESIGN.md).
    Every call site in /repo uses CblasRowMajor, alpha = 1.0 and unit increments for gemv/ddot;
    pointers are a vector together with an offset.  Inner products are accumulated left to right
    starting from 0.0; a BLAS is free to reassociate, which is invisible over the reals.
    Leading dimensions smaller than max(1,cols) are rejected by CBLAS (xerbla): [None]. *)
From Coq Require Import List Arith ZArith.
From Verif Require Import Base.
Import ListNotations.

Section Blas.
Context {N : Num}.
Local Open Scope num_scope.

(** cblas_dgemm(NoTrans, NoTrans), beta = 0.0: C(m,n) = A(m,k) B(k,n). *)
Definition dgemm_nn (m n k : nat) (a : list N) (ao lda : nat) (b : list N) (bo ldb : nat)
    (c : list N) (co ldc : nat) : option (list N) :=
  check ((Nat.max 1 k <=? lda) && (Nat.max 1 n <=? ldb) && (Nat.max 1 n <=? ldc))%bool ;;
  for_ m (fun i c =>
    for_ n (fun j c =>
      s <- for_ k (fun p s =>
        x <- rd a (ao + (i*lda+p)) ;;
        y <- rd b (bo + (p*ldb+j)) ;;
        Some (s + x * y)) nzero ;;
      wr c (co + (i*ldc+j)) s) c) c.

(** cblas_dgemm(NoTrans, Trans), beta = 0.0: C(m,n) = A(m,k) B(n,k)^T.
    (The order of the two factors of a product is irrelevant for IEEE numbers.) *)
Definition dgemm_nt (m n k : nat) (a : list N) (ao lda : nat) (b : list N) (bo ldb : nat)
    (c : list N) (co ldc : nat) : option (list N) :=
  check ((Nat.max 1 k <=? lda) && (Nat.max 1 k <=? ldb) && (Nat.max 1 n <=? ldc))%bool ;;
  for_ m (fun i c =>
    for_ n (fun j c =>
      s <- for_ k (fun p s =>
        x <- rd a (ao + (i*lda+p)) ;;
        y <- rd b (bo + (j*ldb+p)) ;;
        Some (s + y * x)) nzero ;;
      wr c (co + (i*ldc+j)) s) c) c.

(** cblas_dgemv(NoTrans): y(m) = A(m,n) x(n) + beta y, beta = 0.0 ([acc = false]) or 1.0. *)
Definition dgemv_n (acc : bool) (m n : nat) (a : list N) (lda : nat) (x : list N) (xo : nat)
    (y : list N) (yo : nat) : option (list N) :=
  check (Nat.max 1 n <=? lda) ;;
  for_ m (fun i y =>
    s <- for_ n (fun p s =>
      u <- rd a (i*lda+p) ;;
      v <- rd x (xo + p) ;;
      Some (s + u * v)) nzero ;;
    if acc then addto y (yo + i) s else wr y (yo + i) s) y.

(** cblas_dgemv(Trans): y(n) = A(m,n)^T x(m) + beta y. *)
Definition dgemv_t (acc : bool) (m n : nat) (a : list N) (lda : nat) (x : list N) (xo : nat)
    (y : list N) (yo : nat) : option (list N) :=
  check (Nat.max 1 n <=? lda) ;;
  for_ n (fun j y =>
    s <- for_ m (fun p s =>
      u <- rd a (p*lda+j) ;;
      v <- rd x (xo + p) ;;
      Some (s + u * v)) nzero ;;
    if acc then addto y (yo + j) s else wr y (yo + j) s) y.

(** cblas_ddot with unit increments. *)
Definition ddot (n : nat) (x y : list N) : option N :=
  for_ n (fun p s =>
    u <- rd x p ;;
    v <- rd y p ;;
    Some (s + u * v)) nzero.

(** cblas_dcopy(n, x+xo, incx, y+yo, incy). *)
Definition dcopy (n : nat) (x : list N) (xo incx : nat) (y : list N) (yo incy : nat) : option (list N) :=
  for_ n (fun p y => u <- rd x (xo + p*incx) ;; wr y (yo + p*incy) u) y.

(** [std::copy(src.begin(), src.end(), dst.begin()+off)]. *)
Definition copy_to (src dst : list N) (off : nat) : option (list N) :=
  for_ (length src) (fun p y => u <- rd src p ;; wr y (off + p) u) dst.

End Blas.
