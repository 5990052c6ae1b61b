(** Model of libsymmetrix/source/multivariate_polynomial_kokkos.{hpp,cpp} and of its Python binding
    symmetrix/source/cpp/multivariate_polynomial_kokkos.cpp.

    - The views [coefficients], [monomials], [edges], [node_coefficients] and the argument [x] are never written after
      construction: they are lists.  [node_values], [node_adjoints], the argument [g] and the returned variable [f] live in the
      memory of KkSem.v, under the names [bNv 0], [bNv 1], [bNd 0] and [bNd 1] (this object has a memory of its own).
    - [host] says whether the memory of the default execution space is accessible from the host.  If it is,
      [Kokkos::create_mirror_view] returns the view itself, otherwise a new view filled with zeros; and if it is not, an access
      to a view in a loop that runs on the host is undefined behaviour.
    - The view [nodes] is only written; its construction matters because it may be out of bounds. *)
From Coq Require Import List Arith ZArith Bool.
From Verif Require Import Base ToolsModel MpModel KkSem KkModel.
Import ListNotations.

Section MpKk.
Context {N : Num}.
Local Open Scope num_scope.
Variable host : bool.

Definition qVals : buf := bNv 0.
Definition qAdjs : buf := bNv 1.
Definition qG : buf := bNd 0.
Definition qF : buf := bNd 1.

(** multivariate_polynomial_kokkos.hpp:23-34 *)
Record mpkk := mkMpKk {
  q_nvars : nat;
  q_coeffs : list N;
  q_width : nat;                  (* monomials.extent(1) *)
  q_monos : list (list Z);
  q_edges : list (nat * nat);
  q_ncoeffs : list N;
  q_vals : list N;                (* initial contents of node_values and node_adjoints *)
  q_adjs : list N
}.

(** an element of a matrix *)
Definition wr2 {A} (t : list (list A)) (i j : nat) (v : A) : option (list (list A)) :=
  row <- rd t i ;; row <- wr row j v ;; wr t i row.

(** multivariate_polynomial_kokkos.cpp:21-29 and 34-40: a matrix of [length rows] by [W] elements, filled with -1; the host
    mirror receives the rows and is copied back *)
Definition int_table (W : nat) (rows : list (list nat)) : option (list (list Z)) :=
  let mirror := repeat (repeat (if host then (-1)%Z else 0%Z) W) (length rows) in
  for_ (length rows) (fun i t =>
    m <- rd rows i ;;
    for_ (length m) (fun j t => q <- rd m j ;; wr2 t i j (Z.of_nat q)) t) mirror.

(** multivariate_polynomial_kokkos.cpp:9-50 *)
Definition make_mpkk (srt : list (list (list nat)) -> list (list (list nat)))
  (num_variables : nat) (coefficients : list N) (monomials : list (list nat)) : option mpkk :=
  let W := fold_left (fun w m => if w <? length m then length m else w) monomials 0 in
  table <- int_table W monomials ;;
  mp <- make_mpoly srt num_variables coefficients monomials ;;
  _ <- int_table W (mp_nodes mp) ;;
  Some (mkMpKk num_variables coefficients W table (mp_edges mp) (mp_ncoeffs mp) (mp_nvals mp) (mp_nadjs mp)).

(** the views of a new object; [f] has rank 0 *)
Definition mpkk_mem (q : mpkk) : mem N :=
  let m := mkMem (fun _ => []) (fun _ => nzero) in
  let m := set_view m qVals [length (q_vals q)] (fun idx => nth (nth 0 idx 0) (q_vals q) nzero) in
  set_view m qAdjs [length (q_adjs q)] (fun idx => nth (nth 0 idx 0) (q_adjs q) nzero).

Section Object.
Variable q : mpkk.

(** multivariate_polynomial_kokkos.cpp:130-139 *)
Definition k_init_forward (x : list N) : prog N unit :=
  par_for (q_nvars q) (fun i => xi <~ lift (rd x i) ;; put qVals [i] xi).

(** multivariate_polynomial_kokkos.cpp:141-149, a loop on the host *)
Definition k_forward_pass : prog N unit :=
  pguard host (for_p (length (q_edges q)) (fun i _ =>
    '(i0, i1) <~ lift (rd (q_edges q) i) ;;
    v0 <~ get qVals [i0] ;;
    v1 <~ get qVals [i1] ;;
    put qVals [(q_nvars q + i)%nat] (v0 * v1)) tt).

(** KokkosBlas::dot(node_coefficients, node_values) *)
Definition k_dot : prog N unit :=
  f <~ par_reduce [] (length (q_ncoeffs q)) (fun i =>
    c <~ lift (rd (q_ncoeffs q) i) ;;
    v <~ get qVals [i] ;;
    Ret (c * v)) ;;
  put qF [] f.

(** multivariate_polynomial_kokkos.cpp:151-159 *)
Definition k_init_backward : prog N unit :=
  par_for (length (q_ncoeffs q)) (fun i => c <~ lift (rd (q_ncoeffs q) i) ;; put qAdjs [i] c).

(** multivariate_polynomial_kokkos.cpp:161-169, a loop on the host, downwards *)
Definition k_backward_pass : prog N unit :=
  pguard host (for_p (length (q_edges q)) (fun k _ =>
    let i := (length (q_edges q) - 1 - k)%nat in
    '(i0, i1) <~ lift (rd (q_edges q) i) ;;
    a <~ get qAdjs [(q_nvars q + i)%nat] ;;
    v1 <~ get qVals [i1] ;;
    _ <~ plus_eq qAdjs [i0] (a * v1) ;;
    a <~ get qAdjs [(q_nvars q + i)%nat] ;;
    v0 <~ get qVals [i0] ;;
    plus_eq qAdjs [i1] (a * v0)) tt).

(** multivariate_polynomial_kokkos.cpp:171-181 *)
Definition k_extract_gradient : list (hcmd N) :=
  [hop (fill_view qG nzero);
   HRun (par_for (q_nvars q) (fun i => a <~ get qAdjs [i] ;; put qG [i] a))].

(** multivariate_polynomial_kokkos.cpp:52-58 *)
Definition k_evaluate (x : list N) : list (hcmd N) :=
  [HRun (k_init_forward x); HRun k_forward_pass; HRun k_dot].

(** multivariate_polynomial_kokkos.cpp:80-91 *)
Definition k_evaluate_gradient (x : list N) : list (hcmd N) :=
  [HRun (k_init_forward x); HRun k_forward_pass; HRun k_dot; HRun k_init_backward; HRun k_backward_pass] ++ k_extract_gradient.

(** x(z) *)
Definition at_z (x : list N) (z : Z) : option N := k <- zidx z ;; rd x k.

(** multivariate_polynomial_kokkos.cpp:68-73; the flag is [break] *)
Definition k_monomial (x : list N) (i : nat) : option N :=
  row <- rd (q_monos q) i ;;
  z <- rd row 0 ;;
  x0 <- at_z x z ;;
  '(mon, _) <- for_range 1 (q_width q) (fun j st =>
    let '(mon, stop) := st in
    if (stop : bool) then Some (mon, stop) else
    z <- rd row j ;;
    if (z =? -1)%Z then Some (mon, true) else
    xz <- at_z x z ;; Some (mon * xz, false)) (x0, false) ;;
  Some mon.

(** multivariate_polynomial_kokkos.cpp:60-78 (and 97-110) *)
Definition k_simple (x : list N) : prog N unit :=
  f <~ par_reduce [] (length (q_coeffs q)) (fun i =>
    mon <~ lift (k_monomial x i) ;;
    c <~ lift (rd (q_coeffs q) i) ;;
    Ret (c * mon)) ;;
  put qF [] f.
Definition k_evaluate_simple (x : list N) : list (hcmd N) := [HRun (k_simple x)].

(** multivariate_polynomial_kokkos.cpp:118-123 *)
Definition k_deriv (x : list N) (i j : nat) : option N :=
  row <- rd (q_monos q) i ;;
  '(d, _) <- for_ (q_width q) (fun k st =>
    let '(d, stop) := st in
    if (stop : bool) then Some (d, stop) else
    z <- rd row k ;;
    if (z =? -1)%Z then Some (d, true) else
    if (j =? k)%nat then Some (d, false) else
    xz <- at_z x z ;; Some (d * xz, false)) (none, false) ;;
  Some d.

(** multivariate_polynomial_kokkos.cpp:93-128; the [+=] on line 124 is not atomic *)
Definition k_gradient_simple (x : list N) : prog N unit :=
  par_for (length (q_coeffs q)) (fun i =>
    _ <~ for_p (q_width q) (fun j (stop : bool) =>
      if stop then Ret stop else
      row <~ lift (rd (q_monos q) i) ;;
      z <~ lift (rd row j) ;;
      if (z =? -1)%Z then Ret true else
      d <~ lift (k_deriv x i j) ;;
      c <~ lift (rd (q_coeffs q) i) ;;
      v <~ lift (zidx z) ;;
      _ <~ plus_eq qG [v] (c * d) ;;
      Ret false) false ;;
    Ret tt).
Definition k_evaluate_gradient_simple (x : list N) : list (hcmd N) :=
  [HRun (k_simple x); hop (fill_view qG nzero); HRun (k_gradient_simple x)].

(** symmetrix/source/cpp/multivariate_polynomial_kokkos.cpp:30-31 and 42-43: the argument [g] becomes a view *)
Definition bind_g (g : list N) : hcmd N :=
  hop (fun m => set_view m qG [length g] (fun idx => nth (nth 0 idx 0) g nzero)).
End Object.
End MpKk.
Arguments mpkk : clear implicits.
