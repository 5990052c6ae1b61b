(** Model of libsymmetrix/source/multivariate_polynomial.cpp.

    Variables are natural numbers (the C++ [int]s are used as indices; negative ones are out of the model).
    [std::set]/[std::map] are lists kept sorted by the comparator; [std::sort] inside
    [_two_part_partitions] is the parameter [srt] (see ToolsModel.v). *)
From Coq Require Import List Arith ZArith Bool.
From Verif Require Import Base BlasModel ToolsModel.
Import ListNotations.

(** multivariate_polynomial.cpp:24-32 lex_less; [v1 < v2] is std::lexicographical_compare *)
Fixpoint vec_less (v1 v2 : list nat) : bool :=
  match v1, v2 with
  | _, [] => false
  | [], _ :: _ => true
  | x :: a, y :: b => if x <? y then true else if y <? x then false else vec_less a b
  end.
Definition lex_less (v1 v2 : list nat) : bool :=
  if length v1 <? length v2 then true
  else if length v2 <? length v1 then false
  else vec_less v1 v2.

(** std::set<std::vector<int>,lex_less> *)
Fixpoint set_insert (k : list nat) (s : list (list nat)) : list (list nat) :=
  match s with
  | [] => [k]
  | x :: t => if lex_less k x then k :: s else if lex_less x k then x :: set_insert k t else s
  end.
Definition set_contains (s : list (list nat)) (k : list nat) : bool :=
  existsb (fun x => negb (lex_less k x) && negb (lex_less x k)) s.
(** the element an iterator standing on [k] moves to when incremented *)
Fixpoint set_next (s : list (list nat)) (k : list nat) : option (list nat) :=
  match s with
  | [] => None
  | x :: t => if lex_less k x then Some x else set_next t k
  end.

(** std::map<std::vector<int>,double,lex_less>::insert: an existing key keeps its value *)
Fixpoint map_insert {V} (k : list nat) (v : V) (m : list (list nat * V)) : list (list nat * V) :=
  match m with
  | [] => [(k, v)]
  | (x, w) :: t => if lex_less k x then (k, v) :: m else if lex_less x k then (x, w) :: map_insert k v t else m
  end.

Section Constructor.
Variable srt : list (list (list nat)) -> list (list (list nat)).

(** multivariate_polynomial.cpp:55-62 find_parents *)
Fixpoint find_parents_in (s : list (list nat)) (ps : list (list (list nat))) : option (list (list nat)) :=
  match ps with
  | [] => Some []
  | p :: ps' =>
    p0 <- rd p 0 ;;
    if set_contains s p0 then
      p1 <- rd p 1 ;;
      if set_contains s p1 then Some p else find_parents_in s ps'
    else find_parents_in s ps'
  end.
Definition find_parents (node : list nat) (s : list (list nat)) : option (list (list nat)) :=
  ps <- two_part_partitions srt node ;;
  find_parents_in s ps.

(** multivariate_polynomial.cpp:66-72; pop_back of an empty vector is undefined ([None]), so the loop
    runs at most [length node] times: [fuel] is never the limit. *)
Fixpoint add_ancestors (fuel : nat) (node : list nat) (s : list (list nat)) (naux : nat)
  : option (list (list nat) * nat) :=
  factors <- find_parents node s ;;
  if length factors =? 0 then
    match fuel with
    | O => None
    | S fuel' =>
      if length node =? 0 then None else
      let node := removelast node in
      add_ancestors fuel' node (set_insert node s) (naux + 1)
    end
  else Some (s, naux).

(** multivariate_polynomial.cpp:63-73; [cur] is the iterator (None = end()); [fuel] bounds the steps *)
Fixpoint complete_nodes (fuel : nat) (cur : option (list nat)) (s : list (list nat)) (naux : nat)
  : option (list (list nat) * nat) :=
  match cur with
  | None => Some (s, naux)
  | Some node =>
    match fuel with
    | O => None
    | S fuel' =>
      if length node =? 1 then complete_nodes fuel' (set_next s node) s naux
      else '(s, naux) <- add_ancestors (S (length node)) node s naux ;;
           complete_nodes fuel' (set_next s node) s naux
    end
  end.

(** std::distance(nodes.begin(), std::find(nodes.begin(), nodes.end(), v)) *)
Fixpoint find_index (nodes : list (list nat)) (v : list nat) : nat :=
  match nodes with
  | [] => 0
  | x :: t => if list_eq_dec Nat.eq_dec x v then 0 else S (find_index t v)
  end.

(** multivariate_polynomial.cpp:77-88 *)
Fixpoint find_edges (todo s nodes : list (list nat)) (edges : list (nat * nat)) : option (list (nat * nat)) :=
  match todo with
  | [] => Some edges
  | node :: todo' =>
    if length node =? 1 then find_edges todo' s nodes edges
    else
      factors <- find_parents node s ;;
      f0 <- rd factors 0 ;;
      f1 <- rd factors 1 ;;
      find_edges todo' s nodes (edges ++ [(find_index nodes f0, find_index nodes f1)])
  end.

(** multivariate_polynomial.cpp:94-96: while (monomials[i] != nodes[j]) j += 1; running off [nodes] is
    out of bounds ([None]) *)
Fixpoint seek (fuel : nat) (nodes : list (list nat)) (m : list nat) (j : nat) : option nat :=
  n <- rd nodes j ;;
  if list_eq_dec Nat.eq_dec m n then Some j
  else match fuel with O => None | S fuel' => seek fuel' nodes m (j + 1) end.
End Constructor.

Section MP.
Context {N : Num}.
Local Open Scope num_scope.
Variable srt : list (list (list nat)) -> list (list (list nat)).

(** multivariate_polynomial.hpp:22-33 *)
Record mpoly := mkMP {
  mp_nvars : nat;
  mp_coeffs : list N;
  mp_monos : list (list nat);
  mp_naux : nat;
  mp_nodes : list (list nat);
  mp_edges : list (nat * nat);
  mp_ncoeffs : list N;
  mp_nvals : list N;
  mp_nadjs : list N
}.

(** multivariate_polynomial.cpp:10-101.  The constructor's parameters shadow the members, so the members
    [coefficients], [monomials] keep the original terms. *)
Definition make_mpoly (num_variables : nat) (coefficients : list N) (monomials : list (list nat)) : option mpoly :=
  (* 36-38 *)
  map <- for_ (length monomials) (fun i m =>
      mi <- rd monomials i ;;
      ci <- rd coefficients i ;;
      Some (map_insert mi ci m)) [] ;;
  (* 39-44 *)
  let monomials' := List.map fst map in
  let coefficients' := List.map snd map in
  (* 47-51 *)
  let s := fold_left (fun s i => set_insert [i] s) (seq 0 num_variables) [] in
  let s := fold_left (fun s m => set_insert m s) monomials' s in
  (* 54-74 *)
  '(s, naux) <- complete_nodes srt (length s) (hd_error s) s 0 ;;
  let nodes := s in
  (* 77-88 *)
  edges <- find_edges srt s s nodes [] ;;
  (* 91-98 *)
  '(ncoeffs, _) <- for_ (length coefficients') (fun i st =>
      let '(nc, j) := st in
      mi <- rd monomials' i ;;
      j <- seek (length nodes) nodes mi j ;;
      ci <- rd coefficients' i ;;
      nc <- wr nc j ci ;;
      Some (nc, j)) (repeat nzero (length nodes), 0) ;;
  (* 99-100 *)
  Some (mkMP num_variables coefficients monomials naux nodes edges ncoeffs
             (repeat nzero (length nodes)) (repeat nzero (length nodes))).

Definition set_vals (p : mpoly) (v a : list N) : mpoly :=
  mkMP (mp_nvars p) (mp_coeffs p) (mp_monos p) (mp_naux p) (mp_nodes p) (mp_edges p) (mp_ncoeffs p) v a.

(** multivariate_polynomial.cpp:149-154 *)
Definition init_forward (p : mpoly) (x vals : list N) : option (list N) :=
  for_ (mp_nvars p) (fun i vals => xi <- rd x i ;; wr vals i xi) vals.

(** multivariate_polynomial.cpp:156-162 *)
Definition forward_pass (p : mpoly) (vals : list N) : option (list N) :=
  for_ (length (mp_edges p)) (fun i vals =>
    '(i0, i1) <- rd (mp_edges p) i ;;
    v0 <- rd vals i0 ;;
    v1 <- rd vals i1 ;;
    wr vals (mp_nvars p + i)%nat (v0 * v1)) vals.

(** multivariate_polynomial.cpp:164-169 *)
Definition init_backward (p : mpoly) (adjs : list N) : option (list N) :=
  copy_to (mp_ncoeffs p) adjs 0.

(** multivariate_polynomial.cpp:171-178 *)
Definition backward_pass (p : mpoly) (vals adjs : list N) : option (list N) :=
  for_down (length (mp_edges p)) (fun i adjs =>
    '(i0, i1) <- rd (mp_edges p) i ;;
    a <- rd adjs (mp_nvars p + i)%nat ;;
    v1 <- rd vals i1 ;;
    adjs <- addto adjs i0 (a * v1) ;;
    a <- rd adjs (mp_nvars p + i)%nat ;;
    v0 <- rd vals i0 ;;
    addto adjs i1 (a * v0)) adjs.

(** multivariate_polynomial.cpp:180-187 *)
Definition extract_gradient (p : mpoly) (adjs : list N) : option (list N) :=
  for_ (mp_nvars p) (fun i g => a <- rd adjs i ;; wr g i a) (repeat nzero (mp_nvars p)).

(** multivariate_polynomial.cpp:103-112 *)
Definition mp_evaluate (p : mpoly) (x : list N) : option (mpoly * N) :=
  vals <- init_forward p x (mp_nvals p) ;;
  vals <- forward_pass p vals ;;
  f <- ddot (length (mp_ncoeffs p)) (mp_ncoeffs p) vals ;;
  Some (set_vals p vals (mp_nadjs p), f).

(** multivariate_polynomial.cpp:114-127 *)
Definition mp_evaluate_gradient (p : mpoly) (x : list N) : option (mpoly * (N * list N)) :=
  vals <- init_forward p x (mp_nvals p) ;;
  vals <- forward_pass p vals ;;
  f <- ddot (length (mp_ncoeffs p)) (mp_ncoeffs p) vals ;;
  adjs <- init_backward p (mp_nadjs p) ;;
  adjs <- backward_pass p vals adjs ;;
  g <- extract_gradient p adjs ;;
  Some (set_vals p vals adjs, (f, g)).

(** multivariate_polynomial.cpp:189-197 *)
Definition batched_init_forward (p : mpoly) (x : list N) (b : nat) (vals : list N) : option (list N) :=
  let vals := resize nzero vals (b * length (mp_nodes p))%nat in
  for_ (mp_nvars p) (fun i vals =>
    for_ b (fun j vals =>
      xi <- rd x (j * mp_nvars p + i)%nat ;;
      wr vals (i * b + j)%nat xi) vals) vals.

(** multivariate_polynomial.cpp:199-211 *)
Definition batched_forward_pass (p : mpoly) (b : nat) (vals : list N) : option (list N) :=
  for_ (length (mp_edges p)) (fun i vals =>
    '(i0, i1) <- rd (mp_edges p) i ;;
    for_ b (fun j vals =>
      v0 <- rd vals (i0 * b + j)%nat ;;
      v1 <- rd vals (i1 * b + j)%nat ;;
      wr vals ((mp_nvars p + i) * b + j)%nat (v0 * v1)) vals) vals.

(** multivariate_polynomial.cpp:213-222 *)
Definition batched_init_backward (p : mpoly) (b : nat) (adjs : list N) : option (list N) :=
  let adjs := resize nzero adjs (b * length (mp_nodes p))%nat in
  for_ (length (mp_ncoeffs p)) (fun i adjs =>
    for_ b (fun j adjs =>
      c <- rd (mp_ncoeffs p) i ;;
      wr adjs (i * b + j)%nat c) adjs) adjs.

(** multivariate_polynomial.cpp:224-239 *)
Definition batched_backward_pass (p : mpoly) (b : nat) (vals adjs : list N) : option (list N) :=
  for_down (length (mp_edges p)) (fun i adjs =>
    '(i0, i1) <- rd (mp_edges p) i ;;
    adjs <- for_ b (fun j adjs =>
      a <- rd adjs ((mp_nvars p + i) * b + j)%nat ;;
      v1 <- rd vals (i1 * b + j)%nat ;;
      addto adjs (i0 * b + j)%nat (a * v1)) adjs ;;
    for_ b (fun j adjs =>
      a <- rd adjs ((mp_nvars p + i) * b + j)%nat ;;
      v0 <- rd vals (i0 * b + j)%nat ;;
      addto adjs (i1 * b + j)%nat (a * v0)) adjs) adjs.

(** multivariate_polynomial.cpp:241-250 *)
Definition batched_extract_gradient (p : mpoly) (b : nat) (adjs : list N) : option (list N) :=
  for_ (mp_nvars p) (fun i g =>
    for_ b (fun j g =>
      a <- rd adjs (i * b + j)%nat ;;
      wr g (j * mp_nvars p + i)%nat a) g) (repeat nzero (mp_nvars p * b)%nat).

(** multivariate_polynomial.cpp:129-147 *)
Definition mp_evaluate_batch (p : mpoly) (x : list N) (b : nat) : option (mpoly * (list N * list N)) :=
  vals <- batched_init_forward p x b (mp_nvals p) ;;
  vals <- batched_forward_pass p b vals ;;
  f <- for_ (length (mp_nodes p)) (fun i f =>
      c <- rd (mp_ncoeffs p) i ;;
      for_ b (fun j f =>
        v <- rd vals (i * b + j)%nat ;;
        addto f j (c * v)) f) (repeat nzero b) ;;
  adjs <- batched_init_backward p b (mp_nadjs p) ;;
  adjs <- batched_backward_pass p b vals adjs ;;
  g <- batched_extract_gradient p b adjs ;;
  Some (set_vals p vals adjs, (f, g)).

(** multivariate_polynomial.cpp:252-263 *)
Definition mp_evaluate_simple (p : mpoly) (x : list N) : option N :=
  for_ (length (mp_coeffs p)) (fun i f =>
    m <- rd (mp_monos p) i ;;
    q0 <- rd m 0 ;;
    x0 <- rd x q0 ;;
    monomial <- for_range 1 (length m) (fun j monomial =>
        q <- rd m j ;; xq <- rd x q ;; Some (monomial * xq)) x0 ;;
    c <- rd (mp_coeffs p) i ;;
    Some (f + c * monomial)) nzero.

(** multivariate_polynomial.cpp:265-289 *)
Definition mp_evaluate_gradient_simple (p : mpoly) (x : list N) : option (N * list N) :=
  f <- for_ (length (mp_coeffs p)) (fun i f =>
    m <- rd (mp_monos p) i ;;
    q0 <- rd m 0 ;;
    x0 <- rd x q0 ;;
    monomial <- for_range 1 (length m) (fun j monomial =>
        q <- rd m j ;; xq <- rd x q ;; Some (monomial * xq)) x0 ;;
    c <- rd (mp_coeffs p) i ;;
    Some (f + c * monomial)) nzero ;;
  g <- for_ (length (mp_coeffs p)) (fun i g =>
    m <- rd (mp_monos p) i ;;
    for_ (length m) (fun j g =>
      d <- for_ (length m) (fun k d =>
        if (k =? j)%nat then Some d else q <- rd m k ;; xq <- rd x q ;; Some (d * xq)) none ;;
      c <- rd (mp_coeffs p) i ;;
      q <- rd m j ;;
      addto g q (c * d)) g) (repeat nzero (mp_nvars p)) ;;
  Some (f, g).
End MP.
