(** Model of libsymmetrix/source/cubic_spline_kokkos.{hpp,cpp} and cubic_spline_set_kokkos.{hpp,cpp}.

    - Views live in the memory of KkSem.v (an object has a memory of its own): [c] is [sC], the arguments nodal_values and
      nodal_derivs are [sV] and [sD], the arguments values and derivs of the evaluators are [sOv] and [sOd].
    - [host] says whether the memory of the default execution space is accessible from the host.  If it is,
      [Kokkos::create_mirror_view] returns the view itself, otherwise a new view filled with zeros.
    - The team barriers of evaluate_derivs (cubic_spline_set_kokkos.cpp:140-185) are the ends of the parallel loops. *)
From Coq Require Import List Arith ZArith Bool.
From Verif Require Import Base SplineModel KkSem KkModel.
Import ListNotations.

Section SplKk.
Context {N : Num}.
Local Open Scope num_scope.
Variable host : bool.

Definition sC : buf := bNv 0.
Definition sV : buf := bNd 0.
Definition sD : buf := bNd 1.
Definition sOv : buf := bNv 1.
Definition sOd : buf := bNv 2.
Definition sH : buf := bNv 3.       (* host mirror of c, if it is a view of its own *)
Definition sTv : buf := bNv 4.      (* test_view, test_view_values *)
Definition sTd : buf := bNv 5.      (* test_view_derivs *)

(** a vector as a view *)
Definition as_view (b : buf) (l : list N) : hcmd N :=
  hop (fun m => set_view m b [length l] (fun idx => nth (nth 0 idx 0) l nzero)).

(** ** CubicSplineKokkos *)

(** cubic_spline_kokkos.cpp:117-130; [n] is nodal_values.size() *)
Definition kcs_kernel (h : N) (n : nat) : prog N unit :=
  par_for (n - 1) (fun i =>
    v0 <~ get sV [i] ;;
    _ <~ put sC [(4*i)%nat] v0 ;;
    d0 <~ get sD [i] ;;
    _ <~ put sC [(4*i+1)%nat] d0 ;;
    v0 <~ get sV [i] ;;
    d0 <~ get sD [i] ;;
    v1 <~ get sV [(i+1)%nat] ;;
    d1 <~ get sD [(i+1)%nat] ;;
    _ <~ put sC [(4*i+2)%nat] ((nofZ (-3) * v0 - nofZ 2 * h * d0 + nofZ 3 * v1 - h * d1) / (h * h)) ;;
    v0 <~ get sV [i] ;;
    d0 <~ get sD [i] ;;
    v1 <~ get sV [(i+1)%nat] ;;
    d1 <~ get sD [(i+1)%nat] ;;
    put sC [(4*i+3)%nat] ((nofZ 2 * v0 + h * d0 - nofZ 2 * v1 + h * d1) / (h * h * h))).

(** cubic_spline_kokkos.cpp:16-24, the constructor from views.  The size_t [size()-1] wraps around for an empty view and
    the allocation of c throws: [None]. *)
Definition kcs_new_views (h : N) (n : nat) : list (hcmd N) :=
  [HOp (fun m => if (n =? 0)%nat then None else Some (realloc sC [(4 * (n - 1))%nat] m)); HRun (kcs_kernel h n)].

(** cubic_spline_kokkos.cpp:6-14 and 97-115, the constructor from vectors: both are copied to new views of the device *)
Definition kcs_new (h : N) (vs ds : list N) : list (hcmd N) :=
  [HOp (fun m => if (length vs =? 0)%nat then None else Some (realloc sC [(4 * (length vs - 1))%nat] m));
   as_view sV vs; as_view sD ds; HRun (kcs_kernel h (length vs))].

(** h_c(k), where h_c = Kokkos::create_mirror_view(c) (cubic_spline_kokkos.cpp:38, 62, 87); nothing is copied *)
Definition h_c (m : mem N) (k : Z) : option N :=
  k <- zidx k ;;
  if inb (dims m sC) [k] then Some (if host then val m (sC, [k]) else nzero) else None.

(** num_coeffs *)
Definition kcs_num (m : mem N) : nat := extent m sC 0.

(** cubic_spline_kokkos.cpp:26-48 *)
Definition kcs_evaluate (h : N) (m : mem N) (r : N) : outcome N :=
  let i := ntrunc (r / h) in
  if ((i <? 0) || (Z.of_nat (kcs_num m / 4) <=? i))%Z%bool then Throws else
  let x := r - h * nofZ i in
  let xx := x * x in
  let xxx := xx * x in
  let i4 := (4 * i)%Z in
  of_option (
    c0 <- h_c m i4 ;;
    c1 <- h_c m (i4+1) ;;
    c2 <- h_c m (i4+2) ;;
    c3 <- h_c m (i4+3) ;;
    Some (c0 + c1 * x + c2 * xx + c3 * xxx)).

(** cubic_spline_kokkos.cpp:50-73; the guard is [i > num_coeffs / 4] *)
Definition kcs_evaluate_deriv (h : N) (m : mem N) (r : N) : outcome (N * N) :=
  let i := ntrunc (r / h) in
  if ((i <? 0) || (Z.of_nat (kcs_num m / 4) <? i))%Z%bool then Throws else
  let x := r - h * nofZ i in
  let xx := x * x in
  let xxx := xx * x in
  let i4 := (4 * i)%Z in
  of_option (
    c0 <- h_c m i4 ;;
    c1 <- h_c m (i4+1) ;;
    c2 <- h_c m (i4+2) ;;
    c3 <- h_c m (i4+3) ;;
    Some (c0 + c1 * x + c2 * xx + c3 * xxx, c1 + nofZ 2 * c2 * x + nofZ 3 * c3 * xx)).

(** cubic_spline_kokkos.cpp:75-95; the guard is [i > num_coeffs] *)
Definition kcs_evaluate_deriv_divided (h : N) (m : mem N) (r : N) : outcome (N * N) :=
  let i := ntrunc (r / h) in
  if ((i <? 0) || (Z.of_nat (kcs_num m) <? i))%Z%bool then Throws else
  let x := r - h * nofZ i in
  let xx := x * x in
  let xxx := xx * x in
  let i4 := (4 * i)%Z in
  of_option (
    c0 <- h_c m i4 ;;
    c1 <- h_c m (i4+1) ;;
    c2 <- h_c m (i4+2) ;;
    c3 <- h_c m (i4+3) ;;
    Some (c0 + c1 * x + c2 * xx + c3 * xxx, (c1 + nofZ 2 * c2 * x + nofZ 3 * c3 * xx) / r)).

(** ** CubicSplineSetKokkos *)

(** cubic_spline_set_kokkos.hpp:11-13 *)
Record kss := mkKss { ks_h : N; ks_nodes : nat; ks_num : nat }.

(** cubic_spline_set_kokkos.cpp:11-13; [nodal_values[0]] of an empty vector is undefined *)
Definition kss_of (h : N) (vs : list (list N)) : option kss :=
  row0 <- rd vs 0 ;; Some (mkKss h (length row0) (length vs)).

Definition at2 (t : list (list N)) (j i : nat) : option N := row <- rd t j ;; rd row i.

(** cubic_spline_set_kokkos.cpp:18-28, loops on the host that fill [b] *)
Definition kss_fill (s : kss) (vs ds : list (list N)) (b : buf) : prog N unit :=
  let h := ks_h s in
  for_p (ks_nodes s - 1) (fun i _ =>
    for_p (ks_num s) (fun j _ =>
      v0 <~ lift (at2 vs j i) ;;
      _ <~ put b [i; 0; j] v0 ;;
      d0 <~ lift (at2 ds j i) ;;
      _ <~ put b [i; 1; j] d0 ;;
      v1 <~ lift (at2 vs j (i+1)) ;;
      d1 <~ lift (at2 ds j (i+1)) ;;
      _ <~ put b [i; 2; j] ((nofZ (-3) * v0 - nofZ 2 * h * d0 + nofZ 3 * v1 - h * d1) / (h * h)) ;;
      put b [i; 3; j] ((nofZ 2 * v0 + h * d0 - nofZ 2 * v1 + h * d1) / (h * h * h))) tt) tt.

(** cubic_spline_set_kokkos.cpp:5-31, the constructor from vectors; [num_nodes-1] must not be negative *)
Definition kss_new (s : kss) (vs ds : list (list N)) : list (hcmd N) :=
  let ext := [(ks_nodes s - 1)%nat; 4%nat; ks_num s] in
  HOp (fun m => if (ks_nodes s =? 0)%nat then None else Some (realloc sC ext m)) ::
  if host then [HRun (kss_fill s vs ds sC)]
  else [hop (realloc sH ext); HRun (kss_fill s vs ds sH); HOp (copy_view sC sH)].

(** cubic_spline_set_kokkos.cpp:33-53, the functor *)
Definition kss_functor (h : N) (i j : nat) : prog N unit :=
  v0 <~ get sV [j; i] ;;
  _ <~ put sC [i; 0; j] v0 ;;
  d0 <~ get sD [j; i] ;;
  _ <~ put sC [i; 1; j] d0 ;;
  v0 <~ get sV [j; i] ;;
  d0 <~ get sD [j; i] ;;
  v1 <~ get sV [j; (i+1)%nat] ;;
  d1 <~ get sD [j; (i+1)%nat] ;;
  _ <~ put sC [i; 2; j] ((nofZ (-3) * v0 - nofZ 2 * h * d0 + nofZ 3 * v1 - h * d1) / (h * h)) ;;
  v0 <~ get sV [j; i] ;;
  d0 <~ get sD [j; i] ;;
  v1 <~ get sV [j; (i+1)%nat] ;;
  d1 <~ get sD [j; (i+1)%nat] ;;
  put sC [i; 3; j] ((nofZ 2 * v0 + h * d0 - nofZ 2 * v1 + h * d1) / (h * h * h)).

(** cubic_spline_set_kokkos.cpp:56-74, the constructor from views.  [Kokkos::realloc(c, num_nodes-1, num_splines)] gives two
    extents for a view of rank 3: the third is [third] (Kokkos is not part of /repo). *)
Definition kss_new_views (third : nat) (h : N) (nodes num : nat) : list (hcmd N) :=
  [HOp (fun m => if (nodes =? 0)%nat then None else Some (realloc sC [(nodes - 1)%nat; num; third] m));
   HRun (par_for (nodes - 1) (fun i => par_for num (fun j => kss_functor h i j)))].

Section Object.
Variable s : kss.
Notation h := (ks_h s).

(** c(i,q,j) *)
Definition c_at (i : Z) (q j : nat) : prog N N := i <~ lift (zidx i) ;; get sC [i; q; j].

(** cubic_spline_set_kokkos.cpp:76-97; [b] is the view [values] *)
Definition kss_evaluate (r : N) (b : buf) : prog N unit :=
  let i := ntrunc (r / h) in
  let x := r - h * nofZ i in
  let xx := x * x in
  let xxx := xx * x in
  par_for (ks_num s) (fun j =>
    c0 <~ c_at i 0 j ;;
    c1 <~ c_at i 1 j ;;
    c2 <~ c_at i 2 j ;;
    c3 <~ c_at i 3 j ;;
    put b [j] (c0 + c1 * x + c2 * xx + c3 * xxx)).

(** cubic_spline_set_kokkos.cpp:99-125 *)
Definition kss_evaluate_derivs (r : N) (b bd : buf) : prog N unit :=
  let i := ntrunc (r / h) in
  let x := r - h * nofZ i in
  let xx := x * x in
  let xxx := xx * x in
  let two_x := nofZ 2 * x in
  let three_xx := nofZ 3 * xx in
  par_for (ks_num s) (fun j =>
    c0 <~ c_at i 0 j ;;
    c1 <~ c_at i 1 j ;;
    c2 <~ c_at i 2 j ;;
    c3 <~ c_at i 3 j ;;
    _ <~ put b [j] (c0 + c1 * x + c2 * xx + c3 * xxx) ;;
    put bd [j] (c1 + two_x * c2 + three_xx * c3)).

(** cubic_spline_set_kokkos.cpp:127-188, one team per element of [rs], its vector lanes over the splines *)
Definition kss_evaluate_many (rs : list N) : prog N unit :=
  par_for (length rs) (fun i =>
    r <~ lift (rd rs i) ;;
    let ii := ntrunc (r / h) in
    let x := r - h * nofZ ii in
    let xx := x * x in
    let xxx := xx * x in
    let two_x := nofZ 2 * x in
    let three_xx := nofZ 3 * xx in
    _ <~ par_for (ks_num s) (fun j => c <~ c_at ii 0 j ;; put sOv [i; j] c) ;;
    _ <~ par_for (ks_num s) (fun j => c <~ c_at ii 1 j ;; plus_eq sOv [i; j] (c * x)) ;;
    _ <~ par_for (ks_num s) (fun j => c <~ c_at ii 2 j ;; plus_eq sOv [i; j] (c * xx)) ;;
    _ <~ par_for (ks_num s) (fun j => c <~ c_at ii 3 j ;; plus_eq sOv [i; j] (c * xxx)) ;;
    _ <~ par_for (ks_num s) (fun j => c <~ c_at ii 1 j ;; put sOd [i; j] c) ;;
    _ <~ par_for (ks_num s) (fun j => c <~ c_at ii 2 j ;; plus_eq sOd [i; j] (c * two_x)) ;;
    par_for (ks_num s) (fun j => c <~ c_at ii 3 j ;; plus_eq sOd [i; j] (c * three_xx))).

(** cubic_spline_set_kokkos.cpp:191-221.  The span becomes an unmanaged view of the default memory space, which is only
    allowed if that is the memory of the host; the mirror of test_view is then test_view itself. *)
Definition kss_evaluate_span (r : N) : list (hcmd N) :=
  [hop (fun m => realloc sTv [extent m sOv 0] m);
   HOp (fun m => if host then copy_view sTv sOv m else None);
   HRun (kss_evaluate r sTv);
   HOp (copy_view sOv sTv)].

(** cubic_spline_set_kokkos.cpp:223-261 *)
Definition kss_evaluate_derivs_span (r : N) : list (hcmd N) :=
  [hop (fun m => realloc sTv [extent m sOv 0] m);
   hop (fun m => realloc sTd [extent m sOd 0] m);
   HOp (fun m => if host then copy_view sTv sOv m else None);
   HOp (copy_view sTd sOd);
   HRun (kss_evaluate_derivs r sTv sTd);
   HOp (copy_view sOv sTv);
   HOp (copy_view sOd sTd)].
End Object.
End SplKk.
Arguments kss : clear implicits.
