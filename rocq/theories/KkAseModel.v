(** Model of the ASE calculator, symmetrix/source/symmetrix/symmetrix_calc.py, [Symmetrix.calculate] (lines 72-102), with the
    Kokkos evaluator in double precision (use_kokkos=True, dtype="float64", the defaults; bindings
    symmetrix/source/cpp/mace_kokkos.cpp:15-55).

    - create_kokkos_view (utilities_kokkos.hpp:14-24) hands the arrays over unchanged; [node_energies] and [node_forces] are copies of
      all entries of the two views (view2vector, tools_kokkos.hpp).
    - The neighbour list (external) is an argument, as in AseModel.v, and the same remark on the order of sums applies.
    - An evaluation has many possible executions, so one call of [calculate] is a relation between the views before and the
      outcome.  A Python exception leaves the evaluator as it is at that point. *)
From Coq Require Import List Arith ZArith Bool.
From Verif Require Import Base Instances MaceModel AseModel KkSem KkModel KkSpec.
Import ListNotations.
Local Open Scope num_scope.

(** the structure given to the calculator: atomic numbers, volume (an exception if the cell has not three vectors), and what
    neighbor_list('ijdD', atoms, cutoff) returns for it *)
Record structure := mkStructure {
  s_numbers : list nat; s_volume : option RNum; s_il : list nat; s_jl : list nat; s_r : list RNum; s_xyz : list RNum }.

(** symmetrix_calc.py:75-81: the arguments of the evaluator *)
Definition ase_args (nums numbers il jl : list nat) : option (nat * list nat * list nat * list nat) :=
  mx <- np_max il ;;
  let num_nodes := (mx + 1)%nat in
  node_types <- py_map (fun i => z <- rd numbers i ;; py_index nums z) (seq 0 num_nodes) ;;
  let num_neigh := bincount jl num_nodes in
  neigh_types <- py_map (fun j => z <- rd numbers j ;; py_index nums z) jl ;;
  Some (num_nodes, node_types, num_neigh, neigh_types).

(** symmetrix_calc.py:85-102: the results, from the two arrays of the evaluator *)
Definition ase_post {N : Num} (energies nf : list N) (numbers : list nat) (volume : option N) (il jl : list nat) (xyz : list N)
    : option (ase_results (N:=N)) :=
  let energy := fold_left nadd energies nzero in
  if negb (length nf mod 3 =? 0)%nat then None else              (* reshape((-1, 3)) *)
  let pair_forces := firstn (3 * length il) nf in
  let N_atoms := length numbers in
  f0 <- (s <- bincount_w jl (col pair_forces 0) N_atoms ;; t <- bincount_w il (col pair_forces 0) N_atoms ;; np_sub s t) ;;
  f1 <- (s <- bincount_w jl (col pair_forces 1) N_atoms ;; t <- bincount_w il (col pair_forces 1) N_atoms ;; np_sub s t) ;;
  f2 <- (s <- bincount_w jl (col pair_forces 2) N_atoms ;; t <- bincount_w il (col pair_forces 2) N_atoms ;; np_sub s t) ;;
  if negb ((length f0 =? N_atoms) && (length f1 =? N_atoms) && (length f2 =? N_atoms))%nat then None else
  let atom_forces := flat_map (fun i => [nth i f0 nzero; nth i f1 nzero; nth i f2 nzero]) (seq 0 N_atoms) in
  if negb (length pair_forces =? length xyz)%nat then None else  (* matmul *)
  v <- volume ;;
  let sg (a c : nat) := fold_left nadd (map (fun q => - nth (3 * q + a) pair_forces nzero * nth (3 * q + c) xyz nzero)
                 (seq 0 (length xyz / 3))) nzero / v in
  let stress := [sg 0 0; sg 1 1; sg 2 2; (sg 1 2 + sg 2 1) / nofZ 2; (sg 0 2 + sg 2 0) / nofZ 2; (sg 0 1 + sg 1 0) / nofZ 2] in
  Some (mkRes energy energies atom_forces stress).

Section KkAse.
Variable sph : nat -> RNum -> RNum -> RNum -> list RNum * list RNum.
Variable junk : mem RNum -> cell -> RNum.

(** symmetrix_calc.py:72-102.  [o = None]: undefined behaviour in the evaluator; [o = Some (m', None)]: an exception;
    [o = Some (m', Some res)]: the views are now [m'] and self.results is [res]. *)
Definition kk_calculate (km : kmace RNum) (m : mem RNum) (a : structure) (o : option (mem RNum * option (ase_results (N:=RNum)))) : Prop :=
  match ase_args (k_atomic_numbers km) (s_numbers a) (s_il a) (s_jl a) with
  | None => o = Some (m, None)
  | Some (num_nodes, node_types, num_neigh, neigh_types) =>
      exists o', hexec (kk_compute_node_energies_forces sph junk km num_nodes node_types num_neigh (s_jl a) neigh_types (s_xyz a) (s_r a)) m o' /\
      o = match o' with
          | None => None
          | Some m' => Some (m', ase_post (N:=RNum) (kk_node_energies m') (kk_node_forces m') (s_numbers a) (s_volume a) (s_il a) (s_jl a) (s_xyz a))
          end
  end.

(** the structures one after the other on the same calculator; exceptions are caught by the caller *)
Inductive kk_calculates (km : kmace RNum) : mem RNum -> list structure -> option (mem RNum) -> Prop :=
| ks_nil m : kk_calculates km m [] (Some m)
| ks_ub m a l : kk_calculate km m a None -> kk_calculates km m (a :: l) None
| ks_cons m a l m' res o : kk_calculate km m a (Some (m', res)) -> kk_calculates km m' l o -> kk_calculates km m (a :: l) o.

(** [hist] and then [a], whose outcome is [o] *)
Definition kk_session (km : kmace RNum) (m : mem RNum) (hist : list structure) (a : structure)
    (o : option (mem RNum * option (ase_results (N:=RNum)))) : Prop :=
  (kk_calculates km m hist None /\ o = None) \/ exists m', kk_calculates km m hist (Some m') /\ kk_calculate km m' a o.
End KkAse.
