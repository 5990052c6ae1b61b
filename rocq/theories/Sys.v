(** Atomic systems as nested lists, and their flattening into the argument arrays of the C++ interface
    (mace.hpp:31-37): node [i] owns [num_neigh[i]] consecutive entries of the edge arrays. *)
From Coq Require Import List Arith Lia.
From Verif Require Import Base.
Import ListNotations.

Section Sys.
Context {A : Type}.

(** one directed edge: species of the neighbour, index of the neighbour node, displacement, distance *)
Record edge := mkEdge { e_type : nat; e_idx : nat; e_x : A; e_y : A; e_z : A; e_r : A }.
Record node := mkNode { n_type : nat; n_edges : list edge }.
Definition sys := list node.

Definition all_edges (s : sys) : list edge := flat_map n_edges s.
Definition f_node_types (s : sys) : list nat := map n_type s.
Definition f_num_neigh (s : sys) : list nat := map (fun nd => length (n_edges nd)) s.
Definition f_neigh_indices (s : sys) : list nat := map e_idx (all_edges s).
Definition f_neigh_types (s : sys) : list nat := map e_type (all_edges s).
Definition f_r (s : sys) : list A := map e_r (all_edges s).
Definition f_xyz (s : sys) : list A := flat_map (fun e => [e_x e; e_y e; e_z e]) (all_edges s).

(** position of edge [j] of node [i] in the edge arrays *)
Definition edge_index (s : sys) (i j : nat) : nat := length (all_edges (firstn i s)) + j.

End Sys.
Arguments edge : clear implicits.
Arguments node : clear implicits.
Arguments sys : clear implicits.
