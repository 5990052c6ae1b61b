(** Model of [PairSymmetrixMACEKokkos::compute_no_domain_decomposition], pair_symmetrix/pair_symmetrix_mace_kokkos.cpp:373-585,
    and of the parts it shares with the other two compute functions.

    - Neighbour list, atom arrays and [map_kokkos] are inputs, as in PairModel.v ([lmp]); [error->all] is [None], like
      undefined behaviour.
    - Integer views and the views [xyz] and [r] are lists.  The two [parallel_for] loops that fill them run their
      iterations in an arbitrary order; an iteration writes only entries of its own, so this covers all interleavings
      (compare PairKokkosModel.v).  Sums of integers (count_edges, num_neigh, first_neigh) are computed in order.
    - A negative entry of [mace_types] (an element that the model does not have) becomes undefined behaviour when it is
      read; the code stores it and uses it as an index later.  Likewise for atoms that [map_kokkos] does not find.
    - The kernels that read or write floating-point views which another thread may access are programs of KkSem.v and run
      under an arbitrary scheduler: the whole evaluation, energy_reduction, extract_atomic_energies, force_reduction,
      virial_reduction.
    - [atomKK->k_f] is the view [bLf]; it holds [force] of the accumulators when compute is called.  [k_eatom] is [bLe];
      it keeps its contents between calls.  The result of energy_reduction is the scratch cell []. *)
From Coq Require Import List Arith ZArith Bool Permutation.
From Verif Require Import Base MaceModel PairModel PairKokkosModel KkSem KkModel.
Import ListNotations.
Local Open Scope nat_scope.

Section KkPair.
Context {N : Num}.
Local Open Scope num_scope.
Variable sph : nat -> N -> N -> N -> list N * list N.
Variable junk : mem N -> cell -> N.

(** pair_symmetrix_mace_kokkos.h: the views that persist between calls *)
Record kviews := mkKV {
  kv_node_indices : list nat; kv_node_types : list nat; kv_num_neigh : list nat; kv_first_neigh : list nat;
  kv_neigh_indices : list nat; kv_neigh_types : list nat; kv_xyz : list N; kv_r : list N
}.
(** a new object: default constructed views *)
Definition kv_fresh : kviews := mkKV [] [] [] [] [] [] [] [].
(** [if (v.size() < n) Kokkos::realloc(v, n)] *)
Definition grown {A} (z : A) (v : list A) (n : nat) : list A := if (length v <? n)%nat then repeat z n else v.
(** [Kokkos::subview(v, make_pair(0,n))], and the whole view after the subview has become [w] *)
Definition sub {A} (v : list A) (n : nat) : list A := firstn n v.
Definition unsub {A} (v w : list A) : list A := w ++ skipn (length w) v.

(** pair_symmetrix_mace_kokkos.cpp:446-451 (and 655-660, 980-985) parallel_scan "populate_first_neigh": the subview afterwards *)
Definition first_neigh_scan (num_nodes : nat) (num_neigh : list nat) (first_neigh : list nat) : option (list nat) :=
  ' (fn, _) <- for_ num_nodes (fun ii '(fn, first_neigh_ii) =>
      fn <- wr fn ii first_neigh_ii ;;
      c <- rd num_neigh ii ;;
      Some (fn, (first_neigh_ii + c)%nat)) (first_neigh, 0%nat) ;;
  Some fn.

Section Setup.
Variables (l : lmp N) (mace_types : list Z) (r_cut_squared : N).

(** [mace_types(type(i)-1)] *)
Definition kspecies (i : nat) : option nat :=
  ti <- rd (atom_type l) i ;;
  check (1 <=? ti)%nat ;;
  t <- rd mace_types (ti - 1)%nat ;;
  if (t <? 0)%Z then None else Some (Z.to_nat t).

(** pair_symmetrix_mace_kokkos.cpp:411-433 (and 620-642, 937-958) "set_node_based_views": iteration [ii], node of atom [idx ii] *)
Definition set_node (idx : nat -> option nat) (ii : nat) (s : list nat * list nat * list nat) : option (list nat * list nat * list nat) :=
  let '(node_indices, node_types, num_neigh) := s in
  i <- idx ii ;;
  node_indices <- wr node_indices ii i ;;
  t <- kspecies i ;;
  node_types <- wr node_types ii t ;;
  x_i <- rd (atom_x l) (3*i)%nat ;;
  y_i <- rd (atom_x l) (3*i+1)%nat ;;
  z_i <- rd (atom_x l) (3*i+2)%nat ;;
  nn <- rd (numneigh l) i ;;
  row <- rd (firstneigh l) i ;;
  num_neigh_ii <- for_ nn (fun jj c =>
    jz <- rd row jj ;;
    let j := neighmask jz in
    x_j <- rd (atom_x l) (3*j)%nat ;;
    y_j <- rd (atom_x l) (3*j+1)%nat ;;
    z_j <- rd (atom_x l) (3*j+2)%nat ;;
    let dx := x_j - x_i in let dy := y_j - y_i in let dz := z_j - z_i in
    let r_squared := dx*dx + dy*dy + dz*dz in
    Some (if nltb r_squared r_cut_squared then (c + 1)%nat else c)) 0%nat ;;
  num_neigh <- wr num_neigh ii num_neigh_ii ;;
  Some (node_indices, node_types, num_neigh).

(** pair_symmetrix_mace_kokkos.cpp:463-488 (and 671-695, 1001-1025) "set_edge_based_views": iteration [ii]; [nbr j] is what
    neigh_indices gets for neighbour [j] *)
Definition set_edges (idx : nat -> option nat) (nbr : nat -> option (option nat)) (first_neigh : list nat) (ii : nat)
    (s : list nat * list nat * list N * list N) : option (list nat * list nat * list N * list N) :=
  i <- idx ii ;;
  x_i <- rd (atom_x l) (3*i)%nat ;;
  y_i <- rd (atom_x l) (3*i+1)%nat ;;
  z_i <- rd (atom_x l) (3*i+2)%nat ;;
  ij <- rd first_neigh ii ;;
  nn <- rd (numneigh l) i ;;
  row <- rd (firstneigh l) i ;;
  ' (s, _) <- for_ nn (fun jj '(s, ij) =>
    let '(neigh_indices, neigh_types, xyz, r) := s in
    jz <- rd row jj ;;
    let j := neighmask jz in
    j_local <- nbr j ;;
    x_j <- rd (atom_x l) (3*j)%nat ;;
    y_j <- rd (atom_x l) (3*j+1)%nat ;;
    z_j <- rd (atom_x l) (3*j+2)%nat ;;
    let dx := x_j - x_i in let dy := y_j - y_i in let dz := z_j - z_i in
    let r_squared := dx*dx + dy*dy + dz*dz in
    if nltb r_squared r_cut_squared then
      j_local <- j_local ;;
      neigh_indices <- wr neigh_indices ij j_local ;;
      t <- kspecies j ;;
      neigh_types <- wr neigh_types ij t ;;
      xyz <- wr xyz (3*ij)%nat dx ;;
      xyz <- wr xyz (3*ij+1)%nat dy ;;
      xyz <- wr xyz (3*ij+2)%nat dz ;;
      r <- wr r ij (nsqrt r_squared) ;;
      Some ((neigh_indices, neigh_types, xyz, r), (ij + 1)%nat)
    else Some (s, ij)) (s, ij) ;;
  Some s.

(** pair_symmetrix_mace_kokkos.cpp:401-488 (and 611-695, 926-1025): all views; [ord1], [ord2] are the orders of the two loops.
    The subviews are those of the result. *)
Definition setup (ord1 ord2 : list nat) (num_nodes : nat) (idx : nat -> option nat) (nbr : nat -> option (option nat)) (v : kviews)
    : option (kviews * kviews) :=
  let node_indices := grown 0%nat (kv_node_indices v) num_nodes in
  let node_types := grown 0%nat (kv_node_types v) num_nodes in
  let num_neigh := repeat 0%nat (length (grown 0%nat (kv_num_neigh v) num_nodes)) in
  ' (ni, nt, nn) <- run_all (set_node idx) ord1 (sub node_indices num_nodes, sub node_types num_nodes, sub num_neigh num_nodes) ;;
  num_edges <- for_ num_nodes (fun ii e => c <- rd nn ii ;; Some (e + c)%nat) 0%nat ;;
  let first_neigh := grown 0%nat (kv_first_neigh v) num_nodes in
  fn <- first_neigh_scan num_nodes nn (sub first_neigh num_nodes) ;;
  let neigh_indices := grown 0%nat (kv_neigh_indices v) num_edges in
  let neigh_types := grown 0%nat (kv_neigh_types v) num_edges in
  let xyz := grown nzero (kv_xyz v) (3*num_edges) in
  let r := grown nzero (kv_r v) num_edges in
  ' (gi, gt, xs, rs) <- run_all (set_edges idx nbr fn) ord2
      (sub neigh_indices num_edges, sub neigh_types num_edges, sub xyz (3*num_edges), sub r num_edges) ;;
  Some (mkKV ni nt nn fn gi gt xs rs,
        mkKV (unsub node_indices ni) (unsub node_types nt) (unsub num_neigh nn) (unsub first_neigh fn)
             (unsub neigh_indices gi) (unsub neigh_types gt) (unsub xyz xs) (unsub r rs)).
End Setup.

(** ** energy, forces and virial *)
(** [Kokkos::parallel_reduce] with six sums *)
Definition par_reduce6 (c : list nat) (n : nat) (body : nat -> prog N (N * N * N * (N * N * N))) : prog N (N * N * N * (N * N * N)) :=
  _ <~ put bScr (c ++ [0]) nzero ;; _ <~ put bScr (c ++ [1]) nzero ;; _ <~ put bScr (c ++ [2]) nzero ;;
  _ <~ put bScr (c ++ [3]) nzero ;; _ <~ put bScr (c ++ [4]) nzero ;; _ <~ put bScr (c ++ [5]) nzero ;;
  _ <~ par_for n (fun j =>
    v <~ body j ;;
    _ <~ atomic_add bScr (c ++ [0]) (fst (fst (fst v))) ;;
    _ <~ atomic_add bScr (c ++ [1]) (snd (fst (fst v))) ;;
    _ <~ atomic_add bScr (c ++ [2]) (snd (fst v)) ;;
    _ <~ atomic_add bScr (c ++ [3]) (fst (fst (snd v))) ;;
    _ <~ atomic_add bScr (c ++ [4]) (snd (fst (snd v))) ;;
    atomic_add bScr (c ++ [5]) (snd (snd v))) ;;
  v0 <~ get bScr (c ++ [0]) ;; v1 <~ get bScr (c ++ [1]) ;; v2 <~ get bScr (c ++ [2]) ;;
  v3 <~ get bScr (c ++ [3]) ;; v4 <~ get bScr (c ++ [4]) ;; v5 <~ get bScr (c ++ [5]) ;;
  Ret (v0, v1, v2, (v3, v4, v5)).

(** pair_symmetrix_mace_kokkos.cpp:495-499 (761-765, 1091-1093) "energy_reduction"; the variable [energy] is the scratch cell [] *)
Definition energy_reduction (ne : nat) : prog N unit := _ <~ par_reduce [] ne (fun i => get bE [i]) ;; Ret tt.
(** pair_symmetrix_mace_kokkos.cpp:506-508 (772-774, 1100-1102) "extract_atomic_energies" *)
Definition atomic_energies (ne : nat) : prog N unit := par_for ne (fun ii => e <~ get bE [ii] ;; plus_eq bLe [ii] e).

Section Reductions.
Variables (num_nodes : nat) (node_indices num_neigh first_neigh neigh_indices : list nat) (xyz : list N).

(** pair_symmetrix_mace_kokkos.cpp:513-536 (779-802, 1107-1130) "force_reduction" *)
Definition force_reduction : prog N unit :=
  par_for num_nodes (fun ii =>
    i <~ lift (rd node_indices ii) ;;
    nn <~ lift (rd num_neigh ii) ;;
    ' (f_x, f_y, f_z) <~ par_reduce3 [ii] nn (fun jj =>
      fn <~ lift (rd first_neigh ii) ;;
      let ij := (fn + jj)%nat in
      j <~ lift (rd neigh_indices ij) ;;
      F0 <~ get bF [(3*ij)%nat] ;;
      F1 <~ get bF [(3*ij+1)%nat] ;;
      F2 <~ get bF [(3*ij+2)%nat] ;;
      F0' <~ get bF [(3*ij)%nat] ;; _ <~ atomic_add bLf [j; 0] F0' ;;
      F1' <~ get bF [(3*ij+1)%nat] ;; _ <~ atomic_add bLf [j; 1] F1' ;;
      F2' <~ get bF [(3*ij+2)%nat] ;; _ <~ atomic_add bLf [j; 2] F2' ;;
      Ret (F0, F1, F2)) ;;
    _ <~ atomic_add bLf [i; 0] (- f_x) ;;
    _ <~ atomic_add bLf [i; 1] (- f_y) ;;
    atomic_add bLf [i; 2] (- f_z)).

(** pair_symmetrix_mace_kokkos.cpp:541-573 (807-839, 1135-1167) "virial_reduction" *)
Definition virial_reduction : prog N unit :=
  par_for num_nodes (fun ii =>
    _ <~ lift (rd node_indices ii) ;;
    nn <~ lift (rd num_neigh ii) ;;
    ' (v_0, v_1, v_2, (v_3, v_4, v_5)) <~ par_reduce6 [ii] nn (fun jj =>
      fn <~ lift (rd first_neigh ii) ;;
      let ij := (fn + jj)%nat in
      x <~ lift (rd xyz (3*ij)%nat) ;;
      y <~ lift (rd xyz (3*ij+1)%nat) ;;
      z <~ lift (rd xyz (3*ij+2)%nat) ;;
      f_x <~ get bF [(3*ij)%nat] ;;
      f_y <~ get bF [(3*ij+1)%nat] ;;
      f_z <~ get bF [(3*ij+2)%nat] ;;
      Ret (x*f_x, y*f_y, z*f_z,
           (nlit 1 2 * (x*f_y + y*f_x), nlit 1 2 * (x*f_z + z*f_x), nlit 1 2 * (y*f_z + z*f_y)))) ;;
    _ <~ atomic_add bLv [0] v_0 ;;
    _ <~ atomic_add bLv [1] v_1 ;;
    _ <~ atomic_add bLv [2] v_2 ;;
    _ <~ atomic_add bLv [3] v_3 ;;
    _ <~ atomic_add bLv [4] v_4 ;;
    atomic_add bLv [5] v_5).

(** pair_symmetrix_mace_kokkos.cpp:492-573 (758-839, 1088-1167) *)
Definition kk_tally (fl : ev) (ne : nat) : list (hcmd N) :=
  (if eflag_global fl then [HRun (energy_reduction ne)] else [])
  ++ (if eflag_atom fl then [HRun (atomic_energies ne)] else [])
  ++ [HRun force_reduction]
  ++ (if vflag_global fl then [hop (realloc bLv [6]); zero bLv; HRun virial_reduction] else []).
End Reductions.

(** [atomKK->k_f] when compute is called; pair_symmetrix_mace_kokkos.cpp:378-381 (594-597, 861-864): [k_eatom] *)
Definition lammps_views (fl : ev) (maxeatom : nat) (a : accum N) (m : mem N) : mem N :=
  let m := set_view m bLf [(length (force a) / 3)%nat; 3%nat]
             (fun idx => match idx with [i; c] => nth (3*i+c)%nat (force a) nzero | _ => nzero end) in
  if eflag_atom fl && (extent m bLe 0 <? maxeatom)%nat then realloc bLe [maxeatom] m else m.
(** the accumulators at the end: pair_symmetrix_mace_kokkos.cpp:500, 574-585 (766, 840-851; 1094, 1168-1179) *)
Definition results (fl : ev) (a : accum N) (m : mem N) : option (accum N) :=
  vir <- (if vflag_global fl then for_ 6 (fun k vir => addto vir k (val m (bLv, [k]))) (virial a) else Some (virial a)) ;;
  if vflag_atom fl then None (* error->all *) else
  Some (mkAcc (if eflag_global fl then eng_vdwl a + val m (bScr, []) else eng_vdwl a)
              (if eflag_atom fl then map (fun i => val m (bLe, [i])) (seq 0 (extent m bLe 0)) else eatom a)
              vir
              (map (fun p => val m (bLf, [(p / 3)%nat; (p mod 3)%nat])) (seq 0 (3 * extent m bLf 0)))).

(** ** compute_no_domain_decomposition *)
(** the object between calls: the views of its evaluator and its own *)
Record kpair := mkKP { kp_mem : mem N; kp_views : kviews }.
Definition kp_fresh : kpair := mkKP kk_fresh kv_fresh.

(** pair_symmetrix_mace_kokkos.cpp:474-475: [j_local]; -1 if the tag is not known *)
Definition map_kokkos (l : lmp N) (j : nat) : option (option nat) := tg <- rd (atom_tag l) j ;; Some (atom_map l tg).

(** pair_symmetrix_mace_kokkos.cpp:373-585; [o] is one possible outcome.  [r_cut] = mace->r_cut. *)
Definition kk_no_domain (km : kmace N) (r_cut : N) (mace_types : list Z) (maxeatom : nat) (fl : ev) (l : lmp N) (s : kpair) (a : accum N)
    (o : option (kpair * accum N)) : Prop :=
  let num_nodes := inum l in
  exists ord1 ord2, Permutation (seq 0 num_nodes) ord1 /\ Permutation (seq 0 num_nodes) ord2 /\
  match setup l mace_types (r_cut * r_cut) ord1 ord2 num_nodes (rd (ilist l)) (map_kokkos l) (kp_views s) with
  | None => o = None
  | Some (w, v) =>
      exists o', hexec
        ([hop (lammps_views fl maxeatom a)]
         ++ kk_compute_node_energies_forces sph junk km num_nodes (kv_node_types w) (kv_num_neigh w) (kv_neigh_indices w)
              (kv_neigh_types w) (kv_xyz w) (kv_r w)
         ++ kk_tally num_nodes (kv_node_indices w) (kv_num_neigh w) (kv_first_neigh w) (kv_neigh_indices w) (kv_xyz w) fl num_nodes)
        (kp_mem s) o' /\
      o = (m' <- o' ;; a' <- results fl a m' ;; Some (mkKP m' v, a'))
  end.
End KkPair.
Arguments kviews : clear implicits.
Arguments kpair : clear implicits.
