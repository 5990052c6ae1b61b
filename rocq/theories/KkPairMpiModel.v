(** Model of [PairSymmetrixMACEKokkos::compute_no_mpi_message_passing], pair_symmetrix/pair_symmetrix_mace_kokkos.cpp:856-1180.

    Conventions as in KkPairModel.v, whose [setup], [kk_tally], [lammps_views] and [results] are used: the corresponding lines
    are the same in the two functions, but for the node of iteration [ii] and for what neigh_indices gets.  (The loop over edges
    reads the atom from node_indices here; [setup] uses what the loop before it has written there.)
    - A Kokkos::Bitset is a list of booleans; [set] beyond its size does nothing, [test] beyond its size is false (Kokkos_Bitset.hpp).
    - Bits are only ever set in a loop that sets them, so the order inside one iteration is not varied.
    - num_local_edges and num_ghost_edges are sums of integers and are computed in order. *)
From Coq Require Import List Arith ZArith Bool Permutation.
From Verif Require Import Base MaceModel PairModel PairKokkosModel KkSem KkModel KkPairModel.
Import ListNotations.
Local Open Scope nat_scope.

Section KkNoMpi.
Context {N : Num}.
Local Open Scope num_scope.
Variable sph : nat -> N -> N -> N -> list N * list N.
Variable junk : mem N -> cell -> N.

(** pair_symmetrix_mace_kokkos.h: the object between calls; neigh_ii_indices is used in this mode only *)
Record kpairm := mkKPM { kpm_mem : mem N; kpm_views : kviews N; kpm_neigh_ii : list nat }.
Definition kpm_fresh : kpairm := mkKPM kk_fresh kv_fresh [].

(** Kokkos::Bitset *)
Definition bit_set (b : list bool) (i : nat) : list bool := upd b i true.
Definition bit_test (b : list bool) (i : nat) : bool := nth i b false.

(** pair_symmetrix_mace_kokkos.cpp:880-886 "fill is_local": iteration [ii] *)
Definition fill_local (l : lmp N) (ii : nat) (is_local : list bool) : option (list bool) :=
  i <- rd (ilist l) ii ;;
  Some (bit_set is_local i).
(** pair_symmetrix_mace_kokkos.cpp:888-908 "fill is_ghost": iteration [ii] *)
Definition fill_ghost (l : lmp N) (r_cut_squared : N) (is_local : list bool) (ii : nat) (is_ghost : list bool) : option (list bool) :=
  i <- rd (ilist l) ii ;;
  x_i <- rd (atom_x l) (3*i)%nat ;;
  y_i <- rd (atom_x l) (3*i+1)%nat ;;
  z_i <- rd (atom_x l) (3*i+2)%nat ;;
  nn <- rd (numneigh l) i ;;
  row <- rd (firstneigh l) i ;;
  for_ nn (fun jj is_ghost =>
    jz <- rd row jj ;;
    let j := neighmask jz in
    x_j <- rd (atom_x l) (3*j)%nat ;;
    y_j <- rd (atom_x l) (3*j+1)%nat ;;
    z_j <- rd (atom_x l) (3*j+2)%nat ;;
    let dx := x_j - x_i in let dy := y_j - y_i in let dz := z_j - z_i in
    let r_squared := dx*dx + dy*dy + dz*dz in
    Some (if nltb r_squared r_cut_squared && negb (bit_test is_local j) then bit_set is_ghost j else is_ghost)) is_ghost.
(** pair_symmetrix_mace_kokkos.cpp:915-924 parallel_scan "populate ghost_indices" *)
Definition ghost_scan (is_ghost : list bool) (ghost_indices : list nat) : option (list nat) :=
  ' (g, _) <- for_ (length is_ghost) (fun i '(g, update) =>
      g <- (if bit_test is_ghost i then wr g update i else Some g) ;;
      Some (g, if bit_test is_ghost i then (update + 1)%nat else update)) (ghost_indices, 0%nat) ;;
  Some g.
(** pair_symmetrix_mace_kokkos.cpp:878-924: ghost_indices; [ordL], [ordG] are the orders of the two loops *)
Definition ghost_indices (l : lmp N) (r_cut_squared : N) (ordL ordG : list nat) : option (list nat) :=
  let size := (nlocal l + nghost l)%nat in
  is_local <- run_all (fill_local l) ordL (repeat false size) ;;
  is_ghost <- run_all (fill_ghost l r_cut_squared is_local) ordG (repeat false size) ;;
  let num_ghost_nodes := length (filter (fun b => b) is_ghost) in
  ghost_scan is_ghost (repeat 0%nat num_ghost_nodes).

(** pair_symmetrix_mace_kokkos.cpp:1033-1042 "populate neigh_ii_indices": iteration [ij]; the entry keeps its value if no node is atom [j] *)
Definition set_neigh_ii (num_nodes : nat) (node_indices neigh_indices : list nat) (ij : nat) (neigh_ii : list nat) : option (list nat) :=
  j <- rd neigh_indices ij ;;
  found <- for_ num_nodes (fun ii found =>
    match found with
    | Some _ => Some found (* after break *)
    | None => i <- rd node_indices ii ;; Some (if (i =? j)%nat then Some ii else None)
    end) None ;;
  match found with Some ii => wr neigh_ii ij ii | None => Some neigh_ii end.

(** pair_symmetrix_mace_kokkos.cpp:1047-1086: the evaluation *)
Definition kk_no_mpi_evaluation (km : kmace N) (num_local_nodes num_nodes num_edges : nat)
    (node_types num_neigh neigh_ii neigh_types : list nat) (xyz r : list N) : list (hcmd N) :=
  [grow bE num_local_nodes [num_local_nodes]; zero bE;
   grow bF (3*num_edges) [(3*num_edges)%nat]; zero bF]
  ++ (if k_has_zbl km
      then [HRun (kk_ZBL (k_zbl km) num_local_nodes node_types num_neigh neigh_types (k_atomic_numbers km) r xyz)] else [])
  ++ kk_compute_Y sph junk km xyz
  ++ kk_compute_R0 km num_nodes node_types num_neigh neigh_types r
  ++ kk_compute_A0 km num_nodes num_neigh
  ++ kk_compute_A0_scaled km num_nodes node_types num_neigh neigh_types r
  ++ kk_compute_M0 junk km num_nodes node_types
  ++ kk_compute_H1 km num_nodes
  ++ kk_compute_R1 km num_local_nodes node_types num_neigh neigh_types r
  ++ kk_compute_Phi1 km num_local_nodes num_neigh neigh_ii
  ++ kk_compute_A1 km num_local_nodes
  ++ kk_compute_A1_scaled km num_local_nodes node_types num_neigh neigh_types r
  ++ kk_compute_M1 km num_local_nodes node_types
  ++ kk_compute_H2 km num_local_nodes node_types
  ++ kk_compute_readouts junk km num_local_nodes node_types
  ++ kk_reverse_H2 km num_local_nodes node_types false
  ++ kk_reverse_M1 km num_local_nodes node_types
  ++ kk_reverse_A1_scaled km num_local_nodes num_neigh xyz r
  ++ kk_reverse_A1 km num_local_nodes
  ++ kk_reverse_Phi1 km num_local_nodes num_neigh neigh_ii xyz r false false
  ++ kk_reverse_H1 km num_nodes
  ++ kk_reverse_M0 junk km num_nodes node_types
  ++ kk_reverse_A0_scaled km num_nodes num_neigh xyz r
  ++ kk_reverse_A0 km num_nodes num_neigh xyz r.

(** pair_symmetrix_mace_kokkos.cpp:856-1042: the lists; num_local_nodes + num_ghost_nodes, the two numbers of edges, the subviews, the
    subview of neigh_ii_indices, and the views afterwards.  The other orders are those of the loops over nodes and over local edges. *)
Definition no_mpi_lists (r_cut : N) (mace_types : list Z) (l : lmp N) (ordL ordG : list nat) (ord1 ord2 ord3 : nat -> list nat) (s : kpairm)
    : option (nat * nat * nat * kviews N * list nat * kviews N * list nat) :=
  let r_cut_squared := r_cut * r_cut in
  gi <- ghost_indices l r_cut_squared ordL ordG ;;
  let num_local_nodes := inum l in
  let num_nodes := (num_local_nodes + length gi)%nat in
  let idx ii := if (ii <? num_local_nodes)%nat then rd (ilist l) ii else rd gi (ii - num_local_nodes)%nat in
  ' (w, v) <- setup l mace_types r_cut_squared (ord1 num_nodes) (ord2 num_nodes) num_nodes idx (fun j => Some (Some j)) (kpm_views s) ;;
  num_local_edges <- for_ num_local_nodes (fun ii e => c <- rd (kv_num_neigh w) ii ;; Some (e + c)%nat) 0%nat ;;
  num_ghost_edges <- for_range num_local_nodes num_nodes (fun ii e => c <- rd (kv_num_neigh w) ii ;; Some (e + c)%nat) 0%nat ;;
  let neigh_ii_indices := grown 0%nat (kpm_neigh_ii s) num_local_edges in
  nii <- run_all (set_neigh_ii num_nodes (kv_node_indices w) (kv_neigh_indices w)) (ord3 num_local_edges) (sub neigh_ii_indices num_local_edges) ;;
  Some (num_nodes, num_local_edges, num_ghost_edges, w, nii, v, unsub neigh_ii_indices nii).

(** an order for every number of iterations *)
Definition order (ord : nat -> list nat) : Prop := forall n, Permutation (seq 0 n) (ord n).

(** pair_symmetrix_mace_kokkos.cpp:856-1180; [o] is one possible outcome.  [r_cut] = mace->r_cut. *)
Definition kk_no_mpi (km : kmace N) (r_cut : N) (mace_types : list Z) (maxeatom : nat) (fl : ev) (l : lmp N) (s : kpairm) (a : accum N)
    (o : option (kpairm * accum N)) : Prop :=
  exists ordL ordG ord1 ord2 ord3, order ordL /\ order ordG /\ order ord1 /\ order ord2 /\ order ord3 /\
  match no_mpi_lists r_cut mace_types l (ordL (inum l)) (ordG (inum l)) ord1 ord2 ord3 s with
  | None => o = None
  | Some (num_nodes, num_local_edges, num_ghost_edges, w, nii, v, ii) =>
      exists o', hexec
        ([hop (lammps_views fl maxeatom a)]
         ++ kk_no_mpi_evaluation km (inum l) num_nodes (num_local_edges + num_ghost_edges) (kv_node_types w) (kv_num_neigh w) nii
              (kv_neigh_types w) (kv_xyz w) (kv_r w)
         ++ kk_tally num_nodes (kv_node_indices w) (kv_num_neigh w) (kv_first_neigh w) (kv_neigh_indices w) (kv_xyz w) fl (inum l))
        (kpm_mem s) o' /\
      o = (m' <- o' ;; a' <- results fl a m' ;; Some (mkKPM m' v ii, a'))
  end.
End KkNoMpi.
Arguments kpairm : clear implicits.
