(** Model of libsymmetrix/source/multilayer_perceptron.cpp. *)
From Coq Require Import List Arith ZArith.
From Verif Require Import Base BlasModel.
Import ListNotations.

Section Mlp.
Context {N : Num}.
Local Open Scope num_scope.

(** multilayer_perceptron.hpp:25-33 (data members; the three node arrays are scratch buffers). *)
Record mlp := mkMLP {
  ml_shape : list nat;
  ml_weights : list (list N);
  ml_scale : N;
  ml_values : list (list N);
  ml_derivs : list (list N);
  ml_acts : list (list N)
}.

(** multilayer_perceptron.cpp:12-27 constructor.  [shape.back()] of an empty shape is not reached. *)
Definition make_mlp (shape : list nat) (weights : list (list N)) (scale : N) : option mlp :=
  let n := length shape in
  '(nv, nd, na) <- for_ n (fun i st =>
      let '(nv, nd, na) := st in
      s <- rd shape i ;;
      last <- rd shape (n-1) ;;
      Some (nv ++ [repeat nzero s], nd ++ [repeat nzero (last*s)%nat], na ++ [repeat nzero s]))
    ([], [], []) ;;
  Some (mkMLP shape weights scale nv nd na).

(** multilayer_perceptron.cpp:29-74 evaluate.  [shape.size()-2] is unsigned: fewer than two layers
    are out of bounds. *)
Definition mlp_evaluate (m : mlp) (input : list N) : option (mlp * list N) :=
  let shape := ml_shape m in
  let n := length shape in
  check (2 <=? n)%nat ;;
  (* 34-36 *)
  vs <- for_ n (fun i vs =>
      s <- rd shape i ;;
      v <- rd vs i ;;
      wr vs i (resize nzero v s)) (ml_values m) ;;
  (* 37 *)
  v0 <- rd vs 0 ;;
  v0 <- copy_to input v0 0 ;;
  vs <- wr vs 0 v0 ;;
  (* 39-57 *)
  vs <- for_ (n-2) (fun l vs =>
      s1 <- rd shape (l+1) ;;
      s0 <- rd shape l ;;
      w <- rd (ml_weights m) l ;;
      x <- rd vs l ;;
      y <- rd vs (l+1) ;;
      y <- dgemv_n false s1 s0 w s0 x 0 y 0 ;;
      y <- for_ s1 (fun i y =>
          x <- rd y i ;;
          wr y i (ml_scale m * x / (none + nexp (- x)))) y ;;
      wr vs (l+1) y) vs ;;
  (* 59-72 *)
  s1 <- rd shape (n-1) ;;
  s0 <- rd shape (n-2) ;;
  w <- rd (ml_weights m) (length (ml_weights m) - 1) ;;
  x <- rd vs (length vs - 2) ;;
  y <- rd vs (length vs - 1) ;;
  y <- dgemv_n false s1 s0 w s0 x 0 y 0 ;;
  vs <- wr vs (length vs - 1) y ;;
  (* 73 *)
  out <- rd vs (length vs - 1) ;;
  Some (mkMLP shape (ml_weights m) (ml_scale m) vs (ml_derivs m) (ml_acts m), out).

(** multilayer_perceptron.cpp:76-150 evaluate_gradient. *)
Definition mlp_evaluate_gradient (m : mlp) (input : list N) : option (mlp * (list N * list N)) :=
  let shape := ml_shape m in
  let n := length shape in
  check (2 <=? n)%nat ;;
  (* 82-86 *)
  '(vs, na, ds) <- for_ n (fun i st =>
      let '(vs, na, ds) := st in
      s <- rd shape i ;;
      last <- rd shape (n-1) ;;
      v <- rd vs i ;; vs <- wr vs i (resize nzero v s) ;;
      v <- rd na i ;; na <- wr na i (resize nzero v s) ;;
      v <- rd ds i ;; ds <- wr ds i (resize nzero v (last*s)) ;;
      Some (vs, na, ds)) (ml_values m, ml_acts m, ml_derivs m) ;;
  (* 87 *)
  v0 <- rd vs 0 ;;
  v0 <- copy_to input v0 0 ;;
  vs <- wr vs 0 v0 ;;
  (* 89-110 *)
  '(vs, na) <- for_ (n-2) (fun l st =>
      let '(vs, na) := st in
      s1 <- rd shape (l+1) ;;
      s0 <- rd shape l ;;
      w <- rd (ml_weights m) l ;;
      x <- rd vs l ;;
      y <- rd vs (l+1) ;;
      a <- rd na (l+1) ;;
      y <- dgemv_n false s1 s0 w s0 x 0 y 0 ;;
      '(y, a) <- for_ s1 (fun i st =>
          let '(y, a) := st in
          x <- rd y i ;;
          let sigmoid := none / (none + nexp (- x)) in
          y <- wr y i (ml_scale m * x * sigmoid) ;;
          a <- wr a i (ml_scale m * sigmoid + ml_scale m * x * sigmoid * (none - sigmoid)) ;;
          Some (y, a)) (y, a) ;;
      vs <- wr vs (l+1) y ;;
      na <- wr na (l+1) a ;;
      Some (vs, na)) (vs, na) ;;
  (* 111-124 *)
  s1 <- rd shape (n-1) ;;
  s0 <- rd shape (n-2) ;;
  w <- rd (ml_weights m) (length (ml_weights m) - 1) ;;
  x <- rd vs (length vs - 2) ;;
  y <- rd vs (length vs - 1) ;;
  y <- dgemv_n false s1 s0 w s0 x 0 y 0 ;;
  vs <- wr vs (length vs - 1) y ;;
  (* 126 *)
  ds <- wr ds (length ds - 2) w ;;
  (* 127-148 *)
  ds <- for_down (n-2) (fun l ds =>
      s1 <- rd shape (l+1) ;;
      s0 <- rd shape l ;;
      last <- rd shape (n-1) ;;
      a <- rd na (l+1) ;;
      d1 <- rd ds (l+1) ;;
      d1 <- for_ last (fun i d1 =>
          for_ s1 (fun j d1 =>
            d <- rd d1 (i*s1+j) ;;
            aj <- rd a j ;;
            wr d1 (i*s1+j) (d * aj)) d1) d1 ;;
      ds <- wr ds (l+1) d1 ;;
      w <- rd (ml_weights m) l ;;
      d0 <- rd ds l ;;
      d0 <- dgemm_nn last s0 s1 d1 0 s1 w 0 s0 d0 0 s0 ;;
      wr ds l d0) ds ;;
  (* 149 *)
  out <- rd vs (length vs - 1) ;;
  g <- rd ds 0 ;;
  Some (mkMLP shape (ml_weights m) (ml_scale m) vs ds na, (out, g)).

(** multilayer_perceptron.cpp:152-202 evaluate_batch. *)
Definition mlp_evaluate_batch (m : mlp) (input : list N) (batch : nat) : option (mlp * list N) :=
  let shape := ml_shape m in
  let n := length shape in
  check (2 <=? n)%nat ;;
  vs <- for_ n (fun i vs =>
      s <- rd shape i ;;
      v <- rd vs i ;;
      wr vs i (resize nzero v (batch*s))) (ml_values m) ;;
  v0 <- rd vs 0 ;;
  v0 <- copy_to input v0 0 ;;
  vs <- wr vs 0 v0 ;;
  vs <- for_ (n-2) (fun l vs =>
      s1 <- rd shape (l+1) ;;
      s0 <- rd shape l ;;
      w <- rd (ml_weights m) l ;;
      x <- rd vs l ;;
      y <- rd vs (l+1) ;;
      y <- dgemm_nt batch s1 s0 x 0 s0 w 0 s0 y 0 s1 ;;
      y <- for_ (length y) (fun i y =>
          x <- rd y i ;;
          wr y i (ml_scale m * x / (none + nexp (- x)))) y ;;
      wr vs (l+1) y) vs ;;
  s1 <- rd shape (n-1) ;;
  s0 <- rd shape (n-2) ;;
  w <- rd (ml_weights m) (length (ml_weights m) - 1) ;;
  x <- rd vs (length vs - 2) ;;
  y <- rd vs (length vs - 1) ;;
  y <- dgemm_nt batch s1 s0 x 0 s0 w 0 s0 y 0 s1 ;;
  vs <- wr vs (length vs - 1) y ;;
  out <- rd vs (length vs - 1) ;;
  Some (mkMLP shape (ml_weights m) (ml_scale m) vs (ml_derivs m) (ml_acts m), out).

(** multilayer_perceptron.cpp:204-287 evaluate_gradient_batch. *)
Definition mlp_evaluate_gradient_batch (m : mlp) (input : list N) (batch : nat)
    : option (mlp * (list N * list N)) :=
  let shape := ml_shape m in
  let n := length shape in
  check (2 <=? n)%nat ;;
  '(vs, na, ds) <- for_ n (fun i st =>
      let '(vs, na, ds) := st in
      s <- rd shape i ;;
      last <- rd shape (n-1) ;;
      v <- rd vs i ;; vs <- wr vs i (resize nzero v (batch*s)) ;;
      v <- rd na i ;; na <- wr na i (resize nzero v (batch*s)) ;;
      v <- rd ds i ;; ds <- wr ds i (resize nzero v (batch*last*s)) ;;
      Some (vs, na, ds)) (ml_values m, ml_acts m, ml_derivs m) ;;
  v0 <- rd vs 0 ;;
  v0 <- copy_to input v0 0 ;;
  vs <- wr vs 0 v0 ;;
  '(vs, na) <- for_ (n-2) (fun l st =>
      let '(vs, na) := st in
      s1 <- rd shape (l+1) ;;
      s0 <- rd shape l ;;
      w <- rd (ml_weights m) l ;;
      x <- rd vs l ;;
      y <- rd vs (l+1) ;;
      a <- rd na (l+1) ;;
      y <- dgemm_nt batch s1 s0 x 0 s0 w 0 s0 y 0 s1 ;;
      '(y, a) <- for_ (length y) (fun i st =>
          let '(y, a) := st in
          x <- rd y i ;;
          let sigmoid := none / (none + nexp (- x)) in
          y <- wr y i (ml_scale m * x * sigmoid) ;;
          a <- wr a i (ml_scale m * sigmoid + ml_scale m * x * sigmoid * (none - sigmoid)) ;;
          Some (y, a)) (y, a) ;;
      vs <- wr vs (l+1) y ;;
      na <- wr na (l+1) a ;;
      Some (vs, na)) (vs, na) ;;
  s1 <- rd shape (n-1) ;;
  s0 <- rd shape (n-2) ;;
  w <- rd (ml_weights m) (length (ml_weights m) - 1) ;;
  x <- rd vs (length vs - 2) ;;
  y <- rd vs (length vs - 1) ;;
  y <- dgemm_nt batch s1 s0 x 0 s0 w 0 s0 y 0 s1 ;;
  vs <- wr vs (length vs - 1) y ;;
  (* 258-260 *)
  dl <- rd ds (length ds - 2) ;;
  dl <- for_ batch (fun i dl => copy_to w dl (i * length w)) dl ;;
  ds <- wr ds (length ds - 2) dl ;;
  (* 261-285 *)
  ds <- for_down (n-2) (fun l ds =>
      s1 <- rd shape (l+1) ;;
      s0 <- rd shape l ;;
      last <- rd shape (n-1) ;;
      a <- rd na (l+1) ;;
      d1 <- rd ds (l+1) ;;
      d1 <- for_ batch (fun i d1 =>
          for_ last (fun j d1 =>
            for_ s1 (fun p d1 =>
              d <- rd d1 (i*last*s1+j*s1+p) ;;
              ap <- rd a (i*s1+p) ;;
              wr d1 (i*last*s1+j*s1+p) (d * ap)) d1) d1) d1 ;;
      ds <- wr ds (l+1) d1 ;;
      w <- rd (ml_weights m) l ;;
      d0 <- rd ds l ;;
      d0 <- dgemm_nn (batch*last) s0 s1 d1 0 s1 w 0 s0 d0 0 s0 ;;
      wr ds l d0) ds ;;
  out <- rd vs (length vs - 1) ;;
  g <- rd ds 0 ;;
  Some (mkMLP shape (ml_weights m) (ml_scale m) vs ds na, (out, g)).

End Mlp.
