(** Vocabulary for renumbered systems and supercells: maps between the neighbour lists of two inputs. *)
From Coq Require Import List Arith Reals Permutation.
From Verif Require Import Base Instances MaceModel MaceSpec.
Import ListNotations.
Local Open Scope R_scope.

(** the positions in [i_neigh_indices], [i_neigh_types], [i_r] of the edges of node [i] *)
Definition edges_of (x : input RNum) (i : nat) : list nat :=
  seq (list_sum (firstn i (i_num_neigh x))) (nth i (i_num_neigh x) 0%nat).

(** [x'] covers [x]: every node [i] of [x'] stands for the node [sg i] of [x] and every edge [p] of [x'] for the edge [ep p] of [x];
    species agree, the edges of a node stand for all the edges of its image, each once and in any order, and the far end of an edge stands
    for the far end of its image.  A renumbering of the atoms, a change of the order of neighbours, a supercell and a set of
    non-interacting copies are all of this form. *)
Record covers (sg ep : nat -> nat) (x' x : input RNum) : Prop := {
  cv_types : length (i_node_types x') = i_num_nodes x';
  cv_nn : length (i_num_neigh x') = i_num_nodes x';
  cv_nidx : length (i_neigh_indices x') = list_sum (i_num_neigh x');
  cv_nt : length (i_neigh_types x') = list_sum (i_num_neigh x');
  cv_ix : forall j, In j (i_neigh_indices x') -> (j < i_num_nodes x')%nat;
  cv_node : forall i, (i < i_num_nodes x')%nat -> (sg i < i_num_nodes x)%nat;
  cv_type : forall i, (i < i_num_nodes x')%nat -> nth i (i_node_types x') 0%nat = nth (sg i) (i_node_types x) 0%nat;
  cv_edges : forall i, (i < i_num_nodes x')%nat -> Permutation (map ep (edges_of x' i)) (edges_of x (sg i));
  cv_ntype : forall p, (p < list_sum (i_num_neigh x'))%nat -> nth p (i_neigh_types x') 0%nat = nth (ep p) (i_neigh_types x) 0%nat;
  cv_far : forall p, (p < list_sum (i_num_neigh x'))%nat -> sg (nth p (i_neigh_indices x') 0%nat) = nth (ep p) (i_neigh_indices x) 0%nat
}.

(** the edge vectors (lengths) of [x], copied to the [n] edges of a covering input *)
Definition lift3 (ep : nat -> nat) (n : nat) (xs : list R) : list R :=
  flat_map (fun p => [nth (3 * ep p) xs 0; nth (3 * ep p + 1) xs 0; nth (3 * ep p + 2) xs 0]) (seq 0 n).
Definition lift1 (ep : nat -> nat) (n : nat) (rs : list R) : list R := map (fun p => nth (ep p) rs 0) (seq 0 n).

(** every one of the [n] nodes has exactly [k] nodes above it *)
Definition fold_of (sg : nat -> nat) (n' n k : nat) : Prop :=
  forall j, (j < n)%nat -> count_occ Nat.eq_dec (map sg (seq 0 n')) j = k.

(** the symmetries of [x'] over [x] (the translations of a supercell) carry any edge to any other edge above the same edge of [x] *)
Definition translations (ep : nat -> nat) (x' : input RNum) : Prop :=
  forall q q1, (q < list_sum (i_num_neigh x'))%nat -> (q1 < list_sum (i_num_neigh x'))%nat -> ep q = ep q1 ->
  exists tau te, covers tau te x' x' /\ fold_of tau (i_num_nodes x') (i_num_nodes x') 1 /\
    (forall j, (j < list_sum (i_num_neigh x'))%nat -> ep (te j) = ep j) /\ te q = q1.
