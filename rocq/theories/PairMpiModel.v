(** Model of the two distributed compute functions of the LAMMPS pair style, pair_symmetrix/pair_symmetrix_mace.cpp.

    compute_mpi_message_passing is interrupted twice by communication between the processes.  It is modelled as the three
    pieces before, between and after the calls of [comm->forward_comm(this)] and [comm->reverse_comm(this)]; what a process
    keeps in between is its [mace_bufs] and [pair_bufs].  The communication of LAMMPS (external) is a sequence of messages,
    see [forward_comm] and [reverse_comm] below. *)
From Coq Require Import List Arith ZArith Bool.
From Verif Require Import Base ZblModel MaceModel PairModel.
Import ListNotations.
Local Open Scope nat_scope.

Section Pair.
Context {N : Num}.
Local Open Scope num_scope.
Variable sph : nat -> N -> N -> N -> list N * list N.

(** pair_symmetrix_mace.cpp:380-469 compute_mpi_message_passing up to the first communication *)
Definition mpi_begin (m : mace_model N) (r_cut : N) (mace_types : list nat) (l : lmp N)
    (b : mace_bufs N) (p : pair_bufs N) : option (mace_bufs N * pair_bufs N) :=
  let r_cut_squared := r_cut * r_cut in
  num_edges <- count_edges l r_cut_squared ;;
  let num_nodes := inum l in
  let node_types := resize 0%nat (p_node_types p) num_nodes in
  let num_neigh := resize 0%nat (p_num_neigh p) num_nodes in
  let neigh_indices := resize 0%nat (p_neigh_indices p) num_edges in
  let neigh_types := resize 0%nat (p_neigh_types p) num_edges in
  let xyz := resize nzero (p_xyz p) (3*num_edges) in
  let r := resize nzero (p_r p) num_edges in
  let node_i := resize 0%nat (p_node_i p) num_nodes in
  let neigh_j := resize 0%nat (p_neigh_j p) num_edges in
  ' (node_i, node_types, num_neigh, neigh_j, neigh_types, xyz, r, _) <-
    for_ (inum l) (fun ii '(node_i, node_types, num_neigh, neigh_j, neigh_types, xyz, r, ij) =>
      i <- rd (ilist l) ii ;;
      node_i <- wr node_i ii i ;;
      ti <- rd (atom_type l) i ;;
      check (1 <=? ti)%nat ;;
      mt <- rd mace_types (ti - 1)%nat ;;
      node_types <- wr node_types ii mt ;;
      x_i <- rd (atom_x l) (3*i)%nat ;;
      y_i <- rd (atom_x l) (3*i+1)%nat ;;
      z_i <- rd (atom_x l) (3*i+2)%nat ;;
      jlist <- rd (firstneigh l) i ;;
      num_neigh <- wr num_neigh ii 0%nat ;;
      nn <- rd (numneigh l) i ;;
      ' (num_neigh, neigh_j, neigh_types, xyz, r, ij) <-
        for_ nn (fun jj '(num_neigh, neigh_j, neigh_types, xyz, r, ij) =>
          jz <- rd jlist jj ;;
          let j := neighmask jz in
          x_j <- rd (atom_x l) (3*j)%nat ;;
          y_j <- rd (atom_x l) (3*j+1)%nat ;;
          z_j <- rd (atom_x l) (3*j+2)%nat ;;
          let dx := x_j - x_i in let dy := y_j - y_i in let dz := z_j - z_i in
          let r_squared := dx*dx + dy*dy + dz*dz in
          if nltb r_squared r_cut_squared then
            c <- rd num_neigh ii ;;
            num_neigh <- wr num_neigh ii (c + 1)%nat ;;
            neigh_j <- wr neigh_j ij j ;;
            tj <- rd (atom_type l) j ;;
            check (1 <=? tj)%nat ;;
            mj <- rd mace_types (tj - 1)%nat ;;
            neigh_types <- wr neigh_types ij mj ;;
            xyz <- wr xyz (3*ij)%nat dx ;;
            xyz <- wr xyz (3*ij+1)%nat dy ;;
            xyz <- wr xyz (3*ij+2)%nat dz ;;
            r <- wr r ij (nsqrt r_squared) ;;
            Some (num_neigh, neigh_j, neigh_types, xyz, r, (ij + 1)%nat)
          else Some (num_neigh, neigh_j, neigh_types, xyz, r, ij))
          (num_neigh, neigh_j, neigh_types, xyz, r, ij) ;;
      Some (node_i, node_types, num_neigh, neigh_j, neigh_types, xyz, r, ij))
    (node_i, node_types, num_neigh, neigh_j, neigh_types, xyz, r, 0%nat) ;;
  let node_energies := fill nzero (resize nzero (b_node_energies b) num_nodes) in
  let node_forces := fill nzero (resize nzero (b_node_forces b) (length xyz)) in
  ' (node_energies, node_forces) <-
    (if m_has_zbl m then
       compute_ZBL (m_zbl m) num_nodes node_types num_neigh neigh_types (m_atomic_numbers m) r xyz node_energies node_forces
     else Some (node_energies, node_forces)) ;;
  ' (Y, Y_grad, xyz_shuffled) <- compute_Y sph m xyz (b_Y b) (b_Y_grad b) (b_xyz_shuffled b) ;;
  ' (R0, R0_deriv) <- compute_R0 m num_nodes node_types num_neigh neigh_types r (b_R0 b) (b_R0_deriv b) ;;
  A0 <- compute_A0 m num_nodes node_types num_neigh neigh_types Y R0 (b_A0 b) ;;
  A0 <- compute_A0_scaled m num_nodes node_types num_neigh neigh_types r A0 ;;
  ' (P0, M0, M0_grad) <- compute_M0 m num_nodes node_types A0 (b_P0 b) (b_M0 b) (b_M0_grad b) ;;
  mH1 <- compute_H1 m num_nodes M0 (b_H1 b) ;;
  let H1 := resize nzero (p_H1 p) ((nlocal l + nghost l)*num_LM m*m_num_channels m) in
  H1 <- for_ (inum l) (fun ii H1 =>
      i <- rd (ilist l) ii ;;
      for_ (num_LM m*m_num_channels m) (fun k H1 =>
        v <- rd mH1 (ii*num_LM m*m_num_channels m+k)%nat ;;
        wr H1 (i*num_LM m*m_num_channels m+k)%nat v) H1) H1 ;;
  Some (mkBufs node_energies node_forces R0 R0_deriv (b_R1 b) (b_R1_deriv b) Y Y_grad xyz_shuffled A0 (b_A0_adj b)
          M0 M0_grad (b_M0_adj b) P0 mH1 (b_H1_adj b) (b_Phi1r b) (b_dPhi1r b) (b_Phi1 b) (b_dPhi1 b) (b_A1 b) (b_A1_adj b)
          (b_M1 b) (b_M1_grad b) (b_M1_adj b) (b_P1 b) (b_H2 b) (b_H2_adj b) (b_readout_2 b),
        mkPB node_types num_neigh neigh_indices neigh_types xyz r node_i neigh_j (p_is_local p) (p_is_ghost p)
                (p_ghost_indices p) H1 (p_H1_adj p)).

(** pair_symmetrix_mace.cpp:471-488, between the communications *)
Definition mpi_middle (m : mace_model N) (num_nodes : nat) (b : mace_bufs N) (p : pair_bufs N)
    : option (mace_bufs N * pair_bufs N) :=
  let node_types := p_node_types p in let num_neigh := p_num_neigh p in let neigh_types := p_neigh_types p in
  let neigh_j := p_neigh_j p in let xyz := p_xyz p in let r := p_r p in
  let H1 := p_H1 p in
  ' (R1, R1_deriv) <- compute_R1 m num_nodes node_types num_neigh neigh_types r (b_R1 b) (b_R1_deriv b) ;;
  ' (Phi1r, Phi1) <- compute_Phi1 m num_nodes num_neigh neigh_j (b_Y b) R1 H1 (b_Phi1r b) (b_Phi1 b) ;;
  A1 <- compute_A1 m num_nodes Phi1 (b_A1 b) ;;
  A1 <- compute_A1_scaled m num_nodes node_types num_neigh neigh_types r A1 ;;
  ' (P1, M1, M1_grad) <- compute_M1 m num_nodes node_types A1 (b_P1 b) (b_M1 b) (b_M1_grad b) ;;
  H2 <- compute_H2 m num_nodes node_types H1 M1 (b_H2 b) ;;
  ' (readout_2, node_energies, H1_adj, H2_adj) <-
    compute_readouts m num_nodes node_types H1 H2 (b_readout_2 b) (b_node_energies b) (b_H1_adj b) (b_H2_adj b) ;;
  ' (H1_adj, M1_adj) <- reverse_H2 m num_nodes node_types false H1 M1 H2_adj H1_adj (b_M1_adj b) ;;
  A1_adj <- reverse_M1 m num_nodes A1 M1_adj M1_grad (b_A1_adj b) ;;
  ' (node_forces, A1_adj) <-
    reverse_A1_scaled m num_nodes node_types num_neigh neigh_types xyz r false A1 (b_node_forces b) A1_adj ;;
  dPhi1 <- reverse_A1 m num_nodes Phi1 A1_adj (b_dPhi1 b) ;;
  ' (dPhi1r, node_forces, H1_adj) <-
    reverse_Phi1 m num_nodes num_neigh neigh_j xyz r false false
      (b_Y b) (b_Y_grad b) R1 R1_deriv H1 Phi1r dPhi1 (b_dPhi1r b) node_forces H1_adj ;;
  Some (mkBufs node_energies node_forces (b_R0 b) (b_R0_deriv b) R1 R1_deriv (b_Y b) (b_Y_grad b) (b_xyz_shuffled b) (b_A0 b) (b_A0_adj b)
          (b_M0 b) (b_M0_grad b) (b_M0_adj b) (b_P0 b) H1 H1_adj Phi1r dPhi1r Phi1 dPhi1 A1 A1_adj
          M1 M1_grad M1_adj P1 H2 H2_adj readout_2,
        mkPB node_types num_neigh (p_neigh_indices p) neigh_types xyz r (p_node_i p) neigh_j (p_is_local p) (p_is_ghost p)
                (p_ghost_indices p) (p_H1 p) H1_adj).

(** pair_symmetrix_mace.cpp:490-546, after the communications *)
Definition mpi_end (m : mace_model N) (fl : ev) (num_nodes : nat) (b : mace_bufs N) (p : pair_bufs N) (a : accum N)
    : option (mace_bufs N * pair_bufs N * accum N) :=
  let node_types := p_node_types p in let num_neigh := p_num_neigh p in let neigh_types := p_neigh_types p in
  let xyz := p_xyz p in let r := p_r p in
  let H1_adj := p_H1_adj p in
  M0_adj <- reverse_H1 m num_nodes (b_M0 b) H1_adj (b_M0_adj b) ;;
  A0_adj <- reverse_M0 m num_nodes (b_A0 b) M0_adj (b_M0_grad b) (b_A0_adj b) ;;
  ' (node_forces, A0_adj) <-
    reverse_A0_scaled m num_nodes node_types num_neigh neigh_types xyz r (b_A0 b) (b_node_forces b) A0_adj ;;
  node_forces <- reverse_A0 m num_nodes node_types num_neigh neigh_types xyz r (b_Y b) (b_Y_grad b) (b_R0 b) (b_R0_deriv b)
                   A0_adj node_forces ;;
  let b := mkBufs (b_node_energies b) node_forces (b_R0 b) (b_R0_deriv b) (b_R1 b) (b_R1_deriv b) (b_Y b) (b_Y_grad b)
          (b_xyz_shuffled b) (b_A0 b) A0_adj (b_M0 b) (b_M0_grad b) M0_adj (b_P0 b) (b_H1 b) H1_adj (b_Phi1r b) (b_dPhi1r b)
          (b_Phi1 b) (b_dPhi1 b) (b_A1 b) (b_A1_adj b) (b_M1 b) (b_M1_grad b) (b_M1_adj b) (b_P1 b) (b_H2 b) (b_H2_adj b)
          (b_readout_2 b) in
  a <- tally fl num_nodes num_nodes (p_node_i p) num_neigh (p_neigh_j p) xyz (b_node_energies b) (b_node_forces b) a ;;
  Some (b, p, a).

(** ** Communication (LAMMPS comm_brick.cpp, external).  One message: process [g_src] packs the atoms [g_list]; process [g_dst]
    unpacks them into the consecutive ghosts that start at [g_first].  Simplified: the messages of a communication are
    delivered one after the other (LAMMPS exchanges the messages of one swap simultaneously). *)
Record msg := mkMsg { g_src : nat; g_list : list nat; g_dst : nat; g_first : nat }.

(** [comm->forward_comm(this)]: [hs] holds the array [H1] of every process; the send buffer is freshly allocated *)
Definition forward_one (W : nat) (g : msg) (hs : list (list N)) : option (list (list N)) :=
  h <- rd hs (g_src g) ;;
  let n := length (g_list g) in
  ' (buf, _) <- pack_forward_comm W h n (g_list g) (repeat nzero (n * W)) ;;
  h' <- rd hs (g_dst g) ;;
  h' <- unpack_forward_comm W n (g_first g) buf h' ;;
  wr hs (g_dst g) h'.
Fixpoint forward_comm (W : nat) (gs : list msg) (hs : list (list N)) : option (list (list N)) :=
  match gs with [] => Some hs | g :: gs' => hs' <- forward_one W g hs ;; forward_comm W gs' hs' end.

(** [comm->reverse_comm(this)]: every message travels back, in the opposite order; [hs] holds the arrays [H1_adj] *)
Definition reverse_one (W : nat) (g : msg) (hs : list (list N)) : option (list (list N)) :=
  h <- rd hs (g_dst g) ;;
  let n := length (g_list g) in
  ' (buf, _) <- pack_reverse_comm W h n (g_first g) (repeat nzero (n * W)) ;;
  h' <- rd hs (g_src g) ;;
  h' <- unpack_reverse_comm W n (g_list g) buf h' ;;
  wr hs (g_src g) h'.
Fixpoint reverse_comm (W : nat) (gs : list msg) (hs : list (list N)) : option (list (list N)) :=
  match gs with [] => Some hs | g :: gs' => hs' <- reverse_comm W gs' hs ;; reverse_one W g hs' end.

(** ** A whole step of all processes in mode mpi_message_passing.  Every process has its atoms, its evaluator, the vectors of
    its pair style and its accumulators. *)
Record proc := mkProc { pr_l : lmp N; pr_b : mace_bufs N; pr_p : pair_bufs N; pr_a : accum N }.
Definition with_H1 (p : pair_bufs N) (H1 : list N) : pair_bufs N :=
  mkPB (p_node_types p) (p_num_neigh p) (p_neigh_indices p) (p_neigh_types p) (p_xyz p) (p_r p) (p_node_i p) (p_neigh_j p)
    (p_is_local p) (p_is_ghost p) (p_ghost_indices p) H1 (p_H1_adj p).
Definition with_H1_adj (p : pair_bufs N) (H1_adj : list N) : pair_bufs N :=
  mkPB (p_node_types p) (p_num_neigh p) (p_neigh_indices p) (p_neigh_types p) (p_xyz p) (p_r p) (p_node_i p) (p_neigh_j p)
    (p_is_local p) (p_is_ghost p) (p_ghost_indices p) (p_H1 p) H1_adj.
(** every process executes [g] *)
Fixpoint each {A B} (g : A -> option B) (ps : list A) : option (list B) :=
  match ps with [] => Some [] | p :: ps' => q <- g p ;; qs <- each g ps' ;; Some (q :: qs) end.

(** pair_symmetrix_mace.cpp:376-547 compute_mpi_message_passing, executed by all processes; [gs] are the messages.  The
    processes run in lockstep: a process that waits for a message cannot proceed. *)
Definition mpi_run (m : mace_model N) (r_cut : N) (mace_types : list nat) (fl : ev) (gs : list msg) (ps : list proc)
    : option (list proc) :=
  let W := (num_LM m * m_num_channels m)%nat in
  ps <- each (fun q => ' (b, p) <- mpi_begin m r_cut mace_types (pr_l q) (pr_b q) (pr_p q) ;;
                       Some (mkProc (pr_l q) b p (pr_a q))) ps ;;
  hs <- forward_comm W gs (map (fun q => p_H1 (pr_p q)) ps) ;;
  ps <- each (fun '(q, h) => ' (b, p) <- mpi_middle m (inum (pr_l q)) (pr_b q) (with_H1 (pr_p q) h) ;;
                       Some (mkProc (pr_l q) b p (pr_a q))) (combine ps hs) ;;
  hs <- reverse_comm W gs (map (fun q => p_H1_adj (pr_p q)) ps) ;;
  each (fun '(q, h) => ' (b, p, a) <- mpi_end m fl (inum (pr_l q)) (pr_b q) (with_H1_adj (pr_p q) h) (pr_a q) ;;
                       Some (mkProc (pr_l q) b p a)) (combine ps hs).

(** pair_symmetrix_mace.cpp:551-747 compute_no_mpi_message_passing *)
Definition compute_no_mpi_message_passing (m : mace_model N) (r_cut : N) (mace_types : list nat) (fl : ev) (l : lmp N)
    (b : mace_bufs N) (p : pair_bufs N) (a : accum N) : option (mace_bufs N * pair_bufs N * accum N) :=
  let r_cut_squared := r_cut * r_cut in
  let nall := (nlocal l + nghost l)%nat in
  let is_local := fill false (resize false (p_is_local p) nall) in
  is_local <- for_ (inum l) (fun ii is_local => i <- rd (ilist l) ii ;; wr is_local i true) is_local ;;
  let is_ghost := fill false (resize false (p_is_ghost p) nall) in
  is_ghost <- for_ (inum l) (fun ii is_ghost =>
      i <- rd (ilist l) ii ;;
      x_i <- rd (atom_x l) (3*i)%nat ;;
      y_i <- rd (atom_x l) (3*i+1)%nat ;;
      z_i <- rd (atom_x l) (3*i+2)%nat ;;
      jlist <- rd (firstneigh l) i ;;
      nn <- rd (numneigh l) i ;;
      for_ nn (fun jj is_ghost =>
        jz <- rd jlist jj ;;
        let j := neighmask jz in
        x_j <- rd (atom_x l) (3*j)%nat ;;
        y_j <- rd (atom_x l) (3*j+1)%nat ;;
        z_j <- rd (atom_x l) (3*j+2)%nat ;;
        let dx := x_j - x_i in let dy := y_j - y_i in let dz := z_j - z_i in
        let r_squared := dx*dx + dy*dy + dz*dz in
        if nltb r_squared r_cut_squared then
          loc <- rd is_local j ;;
          if negb loc then wr is_ghost j true else Some is_ghost
        else Some is_ghost) is_ghost) is_ghost ;;
  let num_local_nodes := inum l in
  let num_ghost_nodes := length (filter (fun g => g) is_ghost) in       (* std::reduce of a vector<bool> *)
  let ghost_indices := resize 0%nat (p_ghost_indices p) num_ghost_nodes in
  ' (ghost_indices, _) <- for_ nall (fun ii '(ghost_indices, i) =>
      g <- rd is_ghost ii ;;
      if g : bool then ghost_indices <- wr ghost_indices i ii ;; Some (ghost_indices, (i + 1)%nat) else Some (ghost_indices, i))
    (ghost_indices, 0%nat) ;;
  let num_nodes := (num_local_nodes + num_ghost_nodes)%nat in
  let node_i := resize 0%nat (p_node_i p) num_nodes in
  let node_types := resize 0%nat (p_node_types p) num_nodes in
  let num_neigh := fill 0%nat (resize 0%nat (p_num_neigh p) num_nodes) in
  ' (node_i, node_types, num_neigh, ii_from_i) <- for_ num_nodes (fun ii '(node_i, node_types, num_neigh, ii_from_i) =>
      i <- (if (ii <? num_local_nodes)%nat then rd (ilist l) ii else rd ghost_indices (ii - num_local_nodes)%nat) ;;
      node_i <- wr node_i ii i ;;
      let ii_from_i := (i, ii) :: ii_from_i in
      ti <- rd (atom_type l) i ;;
      check (1 <=? ti)%nat ;;
      mt <- rd mace_types (ti - 1)%nat ;;
      node_types <- wr node_types ii mt ;;
      x_i <- rd (atom_x l) (3*i)%nat ;;
      y_i <- rd (atom_x l) (3*i+1)%nat ;;
      z_i <- rd (atom_x l) (3*i+2)%nat ;;
      jlist <- rd (firstneigh l) i ;;
      nn <- rd (numneigh l) i ;;
      num_neigh <- for_ nn (fun jj num_neigh =>
        jz <- rd jlist jj ;;
        let j := neighmask jz in
        x_j <- rd (atom_x l) (3*j)%nat ;;
        y_j <- rd (atom_x l) (3*j+1)%nat ;;
        z_j <- rd (atom_x l) (3*j+2)%nat ;;
        let dx := x_j - x_i in let dy := y_j - y_i in let dz := z_j - z_i in
        let r_squared := dx*dx + dy*dy + dz*dz in
        if nltb r_squared r_cut_squared then c <- rd num_neigh ii ;; wr num_neigh ii (c + 1)%nat
        else Some num_neigh) num_neigh ;;
      Some (node_i, node_types, num_neigh, ii_from_i)) (node_i, node_types, num_neigh, [] : umap) ;;
  num_local_edges <- for_ num_local_nodes (fun ii e => c <- rd num_neigh ii ;; Some (e + c)%nat) 0%nat ;;
  num_ghost_edges <- for_range num_local_nodes num_nodes (fun ii e => c <- rd num_neigh ii ;; Some (e + c)%nat) 0%nat ;;
  let num_edges := (num_local_edges + num_ghost_edges)%nat in
  let neigh_j := resize 0%nat (p_neigh_j p) num_edges in
  let neigh_indices := resize 0%nat (p_neigh_indices p) num_edges in
  let neigh_types := resize 0%nat (p_neigh_types p) num_edges in
  let xyz := resize nzero (p_xyz p) (3*num_edges) in
  let r := resize nzero (p_r p) num_edges in
  ' (neigh_j, neigh_indices, neigh_types, xyz, r, _) <-
    for_ num_nodes (fun ii '(neigh_j, neigh_indices, neigh_types, xyz, r, ij) =>
      i <- rd node_i ii ;;
      x_i <- rd (atom_x l) (3*i)%nat ;;
      y_i <- rd (atom_x l) (3*i+1)%nat ;;
      z_i <- rd (atom_x l) (3*i+2)%nat ;;
      jlist <- rd (firstneigh l) i ;;
      nn <- rd (numneigh l) i ;;
      for_ nn (fun jj '(neigh_j, neigh_indices, neigh_types, xyz, r, ij) =>
          jz <- rd jlist jj ;;
          let j := neighmask jz in
          x_j <- rd (atom_x l) (3*j)%nat ;;
          y_j <- rd (atom_x l) (3*j+1)%nat ;;
          z_j <- rd (atom_x l) (3*j+2)%nat ;;
          let dx := x_j - x_i in let dy := y_j - y_i in let dz := z_j - z_i in
          let r_squared := dx*dx + dy*dy + dz*dz in
          if nltb r_squared r_cut_squared then
            neigh_j <- wr neigh_j ij j ;;
            neigh_indices <- wr neigh_indices ij (umap_get ii_from_i j) ;;
            tj <- rd (atom_type l) j ;;
            check (1 <=? tj)%nat ;;
            mj <- rd mace_types (tj - 1)%nat ;;
            neigh_types <- wr neigh_types ij mj ;;
            xyz <- wr xyz (3*ij)%nat dx ;;
            xyz <- wr xyz (3*ij+1)%nat dy ;;
            xyz <- wr xyz (3*ij+2)%nat dz ;;
            r <- wr r ij (nsqrt r_squared) ;;
            Some (neigh_j, neigh_indices, neigh_types, xyz, r, (ij + 1)%nat)
          else Some (neigh_j, neigh_indices, neigh_types, xyz, r, ij))
          (neigh_j, neigh_indices, neigh_types, xyz, r, ij))
    (neigh_j, neigh_indices, neigh_types, xyz, r, 0%nat) ;;
  let node_energies := fill nzero (resize nzero (b_node_energies b) num_local_nodes) in
  let node_forces := fill nzero (resize nzero (b_node_forces b) (length xyz)) in
  ' (node_energies, node_forces) <-
    (if m_has_zbl m then
       compute_ZBL (m_zbl m) num_local_nodes node_types num_neigh neigh_types (m_atomic_numbers m) r xyz node_energies node_forces
     else Some (node_energies, node_forces)) ;;
  ' (Y, Y_grad, xyz_shuffled) <- compute_Y sph m xyz (b_Y b) (b_Y_grad b) (b_xyz_shuffled b) ;;
  ' (R0, R0_deriv) <- compute_R0 m num_nodes node_types num_neigh neigh_types r (b_R0 b) (b_R0_deriv b) ;;
  A0 <- compute_A0 m num_nodes node_types num_neigh neigh_types Y R0 (b_A0 b) ;;
  A0 <- compute_A0_scaled m num_nodes node_types num_neigh neigh_types r A0 ;;
  ' (P0, M0, M0_grad) <- compute_M0 m num_nodes node_types A0 (b_P0 b) (b_M0 b) (b_M0_grad b) ;;
  H1 <- compute_H1 m num_nodes M0 (b_H1 b) ;;
  ' (R1, R1_deriv) <- compute_R1 m num_local_nodes node_types num_neigh neigh_types r (b_R1 b) (b_R1_deriv b) ;;
  ' (Phi1r, Phi1) <- compute_Phi1 m num_local_nodes num_neigh neigh_indices Y R1 H1 (b_Phi1r b) (b_Phi1 b) ;;
  A1 <- compute_A1 m num_local_nodes Phi1 (b_A1 b) ;;
  A1 <- compute_A1_scaled m num_local_nodes node_types num_neigh neigh_types r A1 ;;
  ' (P1, M1, M1_grad) <- compute_M1 m num_local_nodes node_types A1 (b_P1 b) (b_M1 b) (b_M1_grad b) ;;
  H2 <- compute_H2 m num_local_nodes node_types H1 M1 (b_H2 b) ;;
  ' (readout_2, node_energies, H1_adj, H2_adj) <-
    compute_readouts m num_local_nodes node_types H1 H2 (b_readout_2 b) node_energies (b_H1_adj b) (b_H2_adj b) ;;
  ' (H1_adj, M1_adj) <- reverse_H2 m num_local_nodes node_types false H1 M1 H2_adj H1_adj (b_M1_adj b) ;;
  A1_adj <- reverse_M1 m num_local_nodes A1 M1_adj M1_grad (b_A1_adj b) ;;
  ' (node_forces, A1_adj) <-
    reverse_A1_scaled m num_local_nodes node_types num_neigh neigh_types xyz r false A1 node_forces A1_adj ;;
  dPhi1 <- reverse_A1 m num_local_nodes Phi1 A1_adj (b_dPhi1 b) ;;
  ' (dPhi1r, node_forces, H1_adj) <-
    reverse_Phi1 m num_local_nodes num_neigh neigh_indices xyz r false false
      Y Y_grad R1 R1_deriv H1 Phi1r dPhi1 (b_dPhi1r b) node_forces H1_adj ;;
  M0_adj <- reverse_H1 m num_nodes M0 H1_adj (b_M0_adj b) ;;
  A0_adj <- reverse_M0 m num_nodes A0 M0_adj M0_grad (b_A0_adj b) ;;
  ' (node_forces, A0_adj) <-
    reverse_A0_scaled m num_nodes node_types num_neigh neigh_types xyz r A0 node_forces A0_adj ;;
  node_forces <- reverse_A0 m num_nodes node_types num_neigh neigh_types xyz r Y Y_grad R0 R0_deriv A0_adj node_forces ;;
  let b := mkBufs node_energies node_forces R0 R0_deriv R1 R1_deriv Y Y_grad xyz_shuffled A0 A0_adj
          M0 M0_grad M0_adj P0 H1 H1_adj Phi1r dPhi1r Phi1 dPhi1 A1 A1_adj M1 M1_grad M1_adj P1 H2 H2_adj readout_2 in
  a <- tally fl num_local_nodes num_nodes node_i num_neigh neigh_j xyz node_energies node_forces a ;;
  Some (b, mkPB node_types num_neigh neigh_indices neigh_types xyz r node_i neigh_j is_local is_ghost ghost_indices
             (p_H1 p) (p_H1_adj p), a).
End Pair.
Arguments proc : clear implicits.
