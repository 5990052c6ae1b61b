(** Model of the ASE calculator, symmetrix/source/symmetrix/symmetrix_calc.py, [Symmetrix.calculate] (lines 72-102), with the
    CPU evaluator (use_kokkos=False; bindings symmetrix/source/cpp/mace.cpp:13-53 pass the arrays through unchanged).

    The neighbour list (matscipy or ase.neighborlist, external) is an argument: [il], [jl], [r], [xyz] are what
    neighbor_list('ijdD', atoms, cutoff) returned.  A Python exception is [None].
    Simplified: np.sum and the matrix product sum from left to right (numpy's order of additions differs). *)
From Coq Require Import List Arith ZArith Bool.
From Verif Require Import Base MaceModel.
Import ListNotations.
Local Open Scope num_scope.

(** Python [list.index]: position of the first occurrence, else ValueError *)
Fixpoint py_index (l : list nat) (z : nat) : option nat :=
  match l with
  | [] => None
  | a :: l' => if (a =? z)%nat then Some 0%nat else k <- py_index l' z ;; Some (S k)
  end.

(** [[f(x) for x in l]] *)
Fixpoint py_map {A B} (f : A -> option B) (l : list A) : option (list B) :=
  match l with
  | [] => Some []
  | a :: l' => b <- f a ;; r <- py_map f l' ;; Some (b :: r)
  end.

(** [np.max], ValueError on an empty array *)
Fixpoint np_max (l : list nat) : option nat :=
  match l with
  | [] => None
  | a :: l' => match np_max l' with None => Some a | Some b => Some (Nat.max a b) end
  end.

(** length of [np.bincount(l, minlength=k)] *)
Definition bc_len (l : list nat) (k : nat) : nat := match np_max l with None => k | Some a => Nat.max k (S a) end.

(** [np.bincount(l, minlength=k)] *)
Definition bincount (l : list nat) (k : nat) : list nat :=
  fold_left (fun c j => upd c j (S (nth j c 0%nat))) l (repeat 0%nat (bc_len l k)).

Section Ase.
Context {N : Num}.

(** [np.bincount(l, weights=w, minlength=k)]; ValueError if the lengths differ *)
Definition bincount_w (l : list nat) (w : list N) (k : nat) : option (list N) :=
  if (length l =? length w)%nat then
    for_ (length l) (fun q c => j <- rd l q ;; v <- rd w q ;; addto c j v) (repeat nzero (bc_len l k))
  else None.

(** [a - b] for arrays of one dimension *)
Definition np_sub (a b : list N) : option (list N) :=
  if (length a =? length b)%nat then Some (map (fun p => fst p - snd p) (combine a b)) else None.

(** column [c] of an array with three columns *)
Definition col (a : list N) (c : nat) : list N := map (fun q => nth (3 * q + c) a nzero) (seq 0 (length a / 3)).

Record ase_results := mkRes {
  res_energy : N;
  res_energies : list N;
  res_forces : list N;   (* N_atoms rows of 3 *)
  res_stress : list N    (* Voigt: xx, yy, zz, yz, xz, xy *)
}.

Variable sph : nat -> N -> N -> N -> list N * list N.

(** symmetrix_calc.py:72-102.  [numbers] = atoms.get_atomic_numbers(); [volume] = atoms.get_volume(), an exception
    when the cell does not have three vectors. *)
Definition calculate (m : mace_model N) (b : mace_bufs N) (numbers : list nat) (volume : option N)
    (il jl : list nat) (r xyz : list N) : option (mace_bufs N * ase_results) :=
  mx <- np_max il ;;
  let num_nodes := (mx + 1)%nat in
  node_types <- py_map (fun i => z <- rd numbers i ;; py_index (m_atomic_numbers m) z) (seq 0 num_nodes) ;;
  let num_neigh := bincount jl num_nodes in
  neigh_types <- py_map (fun j => z <- rd numbers j ;; py_index (m_atomic_numbers m) z) jl ;;
  b <- compute_node_energies_forces sph m b num_nodes node_types num_neigh jl neigh_types xyz r ;;
  let energies := b_node_energies b in
  let energy := fold_left nadd energies nzero in
  let nf := b_node_forces b in
  if negb (length nf mod 3 =? 0)%nat then None else              (* reshape((-1, 3)) *)
  let pair_forces := firstn (3 * length il) nf in
  let N_atoms := length numbers in
  f0 <- (s <- bincount_w jl (col pair_forces 0) N_atoms ;; t <- bincount_w il (col pair_forces 0) N_atoms ;; np_sub s t) ;;
  f1 <- (s <- bincount_w jl (col pair_forces 1) N_atoms ;; t <- bincount_w il (col pair_forces 1) N_atoms ;; np_sub s t) ;;
  f2 <- (s <- bincount_w jl (col pair_forces 2) N_atoms ;; t <- bincount_w il (col pair_forces 2) N_atoms ;; np_sub s t) ;;
  if negb ((length f0 =? N_atoms) && (length f1 =? N_atoms) && (length f2 =? N_atoms))%nat then None else
  let atom_forces := flat_map (fun i => [nth i f0 nzero; nth i f1 nzero; nth i f2 nzero]) (seq 0 N_atoms) in
  if negb (length pair_forces =? length xyz)%nat then None else  (* matmul *)
  v <- volume ;;
  let sg (a c : nat) := fold_left nadd (map (fun q => - nth (3 * q + a) pair_forces nzero * nth (3 * q + c) xyz nzero)
                 (seq 0 (length xyz / 3))) nzero / v in
  let stress := [sg 0 0; sg 1 1; sg 2 2; (sg 1 2 + sg 2 1) / nofZ 2; (sg 0 2 + sg 2 0) / nofZ 2; (sg 0 1 + sg 1 0) / nofZ 2] in
  Some (b, mkRes energy energies atom_forces stress).
End Ase.
