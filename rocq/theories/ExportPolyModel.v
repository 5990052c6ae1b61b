(** Model of the parts of symmetrix/source/symmetrix/extract_mace_data.py that turn the symmetric contractions of a MACE model into the
    polynomials M0 and M1.

    - A Python dict is a list of pairs in the order of insertion.
    - [None] is an exception (IndexError).
    - [U_matrix_real] of the MACE package and the weights of the PyTorch model are inputs: [U_matrix.flatten()] with the number of its last
      axis, and arrays [W[corr][model_i,eta,k]] as nested lists. *)
From Coq Require Import List Arith ZArith.
From Verif Require Import Base.
Import ListNotations.
Local Open Scope nat_scope.

(** [list.index(a)] *)
Fixpoint py_index (l : list nat) (a : nat) : option nat :=
  match l with [] => None | b :: l' => if b =? a then Some 0 else i <- py_index l' a ;; Some (S i) end.
(** [for x in l] *)
Fixpoint for_in {A S} (l : list A) (body : A -> S -> option S) (s : S) : option S :=
  match l with [] => Some s | x :: l' => s' <- body x s ;; for_in l' body s' end.
(** [itertools.product(range(n), repeat=c)], in its order *)
Fixpoint product (n c : nat) : list (list nat) :=
  match c with 0 => [[]] | S c' => flat_map (fun i => map (cons i) (product n c')) (seq 0 n) end.
(** [tuple(sorted(t))] *)
Fixpoint insert (a : nat) (l : list nat) : list nat :=
  match l with [] => [a] | b :: l' => if a <=? b then a :: l else b :: insert a l' end.
Definition sorted (t : list nat) : list nat := fold_right insert [] t.
Definition key_eqb (a b : list nat) : bool := if list_eq_dec Nat.eq_dec a b then true else false.

Section Poly.
Context {N : Num}.
Local Open Scope num_scope.
Definition dict := list (list nat * N).
(** [if key not in d.keys(): d[key] = 0.0] and then [d[key] += v] (lines 267-269, 295-297, 446-448, 469-471) *)
Fixpoint dict_add (d : dict) (key : list nat) (v : N) : dict :=
  match d with
  | [] => [(key, nzero + v)]
  | (k, w) :: d' => if key_eqb k key then (k, w + v) :: d' else (k, w) :: dict_add d' key v
  end.
(** [abs] of Python *)
Definition py_abs (x : N) : N := if nltb x nzero then - x else x.
(** [abs(u) > 1e-12] *)
Definition kept (u : N) : bool := nltb (nlit 1 (10 ^ 12)) (py_abs u).

(** extract_mace_data.py:257-270, one correlation order: entry [m], [eta] of U_sparse_corr; [rows] = 2*irrep_out.l+1, [num_lm] = (l_max+1)**2.
    Lines 437-450 (layer 1) are the case [rows] = 1. *)
Definition U_sparse_corr (rows num_lm corr : nat) (U : nat * list N) : option (list (list dict)) :=
  let '(num_eta, U_matrix) := U in
  ' (d, _) <- for_ rows (fun m s =>
    for_in (product num_lm corr) (fun lm_list s =>
      for_ num_eta (fun eta '(d, j) =>
        u <- rd U_matrix j ;;
        d <- (if kept u then
                dm <- rd d m ;;
                dme <- rd dm eta ;;
                dm <- wr dm eta (dict_add dme (sorted lm_list) u) ;;
                wr d m dm
              else Some d) ;;
        Some (d, (j + 1)%nat)) s) s) (repeat (repeat [] num_eta) rows, 0%nat) ;;
  Some d.
(** extract_mace_data.py:246-272 U_sparse (and 428-450): the list starts with an empty entry for correlation order zero; [Um corr] is U_matrix *)
Definition U_sparse (rows num_lm corr_in_max : nat) (Um : nat -> nat * list N) : option (list (list (list dict))) :=
  for_range 1 (corr_in_max + 1) (fun corr U => Uc <- U_sparse_corr rows num_lm corr (Um corr) ;; Some (U ++ [Uc])) [[]].

(** extract_mace_data.py:290-297 (and 464-471): P_lmk *)
Definition P_lmk (correlation : nat) (U : list (list (list dict))) (W : list (list (list (list N)))) (row model_i k : nat) : option dict :=
  for_range 1 (correlation + 1) (fun corr P =>
    Uc <- rd U corr ;;
    Um <- rd Uc row ;;
    for_ (length Um) (fun eta P =>
      items <- rd Um eta ;;
      for_in items (fun '(key, value) P =>
        Wc <- rd W corr ;;
        Wi <- rd Wc model_i ;;
        We <- rd Wi eta ;;
        w <- rd We k ;;
        Some (dict_add P key (w * value))) P) P) [].

(** extract_mace_data.py:283-288 (and 452-456): W from the attributes weights and weights_max of a contraction *)
Definition W_list (Wt : list (list (list (list N))) * list (list (list N))) : option (list (list (list (list N)))) :=
  let '(weights, weights_max) := Wt in
  w1 <- rd weights 1 ;;
  w0 <- rd weights 0 ;;
  Some [[]; w1; w0; weights_max].

(** extract_mace_data.py:273-301: M0_weights [C[i][lm][k]] and M0_monomials [M[lm]].  [Um l corr] are the U matrices and [Wt l] the weights of
    irreps_out[l].  C and M are filled in the order of lm = l*(l+1)+m; M[lm] is assigned for every element and channel, the last one stays. *)
Definition export_M0 (num_channels l_max L_max correlation : nat) (model_numbers atomic_numbers : list nat)
    (Um : nat -> nat -> nat * list N) (Wt : nat -> list (list (list (list N))) * list (list (list N))) : option (list (list (list (list N))) * list (list (list nat))) :=
  for_in atomic_numbers (fun a '(C, M) =>
    model_i <- py_index model_numbers a ;;
    ' (Ci, M) <- for_ (L_max + 1) (fun l s =>
      U <- U_sparse (2*l+1) ((l_max+1)*(l_max+1)) correlation (Um l) ;;
      W <- W_list (Wt l) ;;
      for_ (2*l+1) (fun row '(Ci, M) =>
        ' (Clm, M) <- for_ num_channels (fun k '(Clm, M) =>
          P <- P_lmk correlation U W row model_i k ;;
          M <- wr M (l*l+row)%nat (map fst P) ;;
          Some (Clm ++ [map snd P], M)) ([], M) ;;
        Some (Ci ++ [Clm], M)) s) ([], M) ;;
    Some (C ++ [Ci], M)) ([], repeat [] ((L_max+1)*(L_max+1))).

(** extract_mace_data.py:424-475: M1_weights [C[i][k]] and M1_monomials.  The correlation orders are 1, 2, 3 whatever [correlation] (line 427)
    is, and the U matrices those for l up to 3 whatever l_max is (line 428; the exporter stops before unless l_max = 3). *)
Definition export_M1 (num_channels l_max : nat) (model_numbers atomic_numbers : list nat)
    (Um : nat -> nat * list N) (Wt : list (list (list (list N))) * list (list (list N))) : option (list (list (list N)) * list (list nat)) :=
  U <- U_sparse 1 ((l_max+1)*(l_max+1)) 3 Um ;;
  W <- W_list Wt ;;
  for_in atomic_numbers (fun a '(C, M) =>
    model_i <- py_index model_numbers a ;;
    ' (Ci, M) <- for_ num_channels (fun k '(Ci, M) =>
      P <- P_lmk 3 U W 0 model_i k ;;
      Some (Ci ++ [map snd P], map fst P)) ([], M) ;;
    Some (C ++ [Ci], M)) ([], []).
End Poly.
