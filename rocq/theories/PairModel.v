(** Model of the LAMMPS pair style, pair_symmetrix/pair_symmetrix_mace.cpp and .h (class [PairSymmetrixMACE]).

    What belongs to LAMMPS is input: the atom arrays, the neighbour list, [atom->map], the communication of ghost
    atoms.  [error->all] is [None], like undefined behaviour.
    - [ev_init] (LAMMPS) has set the flags and zeroed the accumulators; the accumulators are arguments.
    - [atom->map(tag)] is -1 for an unknown tag; the code would then write [f[-1]], undefined behaviour: [None].
    - Atom indices, types and tags are [nat]; entries of the neighbour list are [Z], their two top bits carry flags. *)
From Coq Require Import String List Arith ZArith Bool.
From Verif Require Import Base MaceModel ZblModel.
Import ListNotations.
Local Open Scope nat_scope.

(** LAMMPS lmptype.h: [NEIGHMASK 0x1FFFFFFF] (external) *)
Definition neighmask (z : Z) : nat := Z.to_nat (Z.land z 536870911).

(** pair_symmetrix_mace.h:74-83 *)
Definition periodic_table : list string := [
  "H"; "He";
  "Li"; "Be";                                                              "B";  "C";  "N";  "O";  "F"; "Ne";
  "Na"; "Mg";                                                             "Al"; "Si";  "P";  "S"; "Cl"; "Ar";
  "K";  "Ca"; "Sc"; "Ti";  "V"; "Cr"; "Mn"; "Fe"; "Co"; "Ni"; "Cu"; "Zn"; "Ga"; "Ge"; "As"; "Se"; "Br"; "Kr";
  "Rb"; "Sr";  "Y"; "Zr"; "Nb"; "Mo"; "Tc"; "Ru"; "Rh"; "Pd"; "Ag"; "Cd"; "In"; "Sn"; "Sb"; "Te";  "I"; "Xe";
  "Cs"; "Ba"; "La"; "Ce"; "Pr"; "Nd"; "Pm"; "Sm"; "Eu"; "Gd"; "Tb"; "Dy"; "Ho"; "Er"; "Tm"; "Yb"; "Lu";
                    "Hf"; "Ta";  "W"; "Re"; "Os"; "Ir"; "Pt"; "Au"; "Hg"; "Tl"; "Pb"; "Bi"; "Po"; "At"; "Rn";
  "Fr"; "Ra"; "Ac"; "Th"; "Pa";  "U"; "Np"; "Pu"; "Am"; "Cm"; "Bk"; "Cf"; "Es"; "Fm"; "Md"; "No"; "Lr";
                    "Rf"; "Db"; "Sg"; "Bh"; "Hs"; "Mt"; "Ds"; "Rg"; "Cn"; "Nh"; "Fl"; "Mc"; "Lv"; "Ts"; "Og"]%string.

(** [std::find] followed by [std::distance] from the beginning: the first position, or [None] for [end()] *)
Fixpoint find_first {A} (eqb : A -> A -> bool) (l : list A) (x : A) : option nat :=
  match l with
  | [] => None
  | a :: l' => if eqb a x then Some 0 else k <- find_first eqb l' x ;; Some (S k)
  end.

(** pair_symmetrix_mace.cpp:95-109 settings; the member [mode] *)
Definition settings (nprocs : nat) (arg : list string) : option string :=
  mode <- (if length arg =? 0 then
             Some (if nprocs =? 1 then "no_domain_decomposition"%string else "mpi_message_passing"%string)
           else if length arg =? 1 then
             mode <- rd arg 0 ;;
             if (negb (mode =? "no_domain_decomposition") && negb (mode =? "mpi_message_passing")
                 && negb (mode =? "no_mpi_message_passing"))%string then None else Some mode
           else None) ;;
  if ((mode =? "no_domain_decomposition")%string && negb (nprocs =? 1)) then None else Some mode.

(** pair_symmetrix_mace.cpp:123-139 coeff, after the model has been loaded: the member [mace_types].
    [arg] is the whole argument vector; arg[0], arg[1] are the wildcards and arg[2] is the file name. *)
Definition coeff_types (atomic_numbers : list nat) (arg : list string) : option (list nat) :=
  for_range 3 (length arg) (fun i mace_types =>
    a <- rd arg i ;;
    p <- find_first String.eqb periodic_table a ;;
    let atomic_number := p + 1 in
    mace_index <- find_first Nat.eqb atomic_numbers atomic_number ;;
    Some (mace_types ++ [mace_index])) [].

(** pair_symmetrix_mace.cpp:141-148 coeff: (comm_forward, comm_reverse) *)
Definition coeff_comm (mode : string) (num_LM num_channels : nat) : nat * nat :=
  if (mode =? "mpi_message_passing")%string then (num_LM * num_channels, num_LM * num_channels) else (0, 0).

Section Pair.
Context {N : Num}.
Local Open Scope num_scope.

(** ** Ghost communication, pair_symmetrix_mace.cpp:194-238.  [W] = num_LM*num_channels; [sendlist] = list, [buf] has been
    allocated by LAMMPS with at least n*W elements *)
Definition pack_forward_comm (W : nat) (H1 : list N) (n : nat) (sendlist : list nat) (buf : list N) : option (list N * nat) :=
  buf <- for_ n (fun ii buf =>
      i <- rd sendlist ii ;;
      for_ W (fun k buf => v <- rd H1 (i*W+k)%nat ;; wr buf (ii*W+k)%nat v) buf) buf ;;
  Some (buf, (n*W)%nat).

Definition unpack_forward_comm (W : nat) (n first : nat) (buf : list N) (H1 : list N) : option (list N) :=
  for_ n (fun i H1 =>
      for_ W (fun k H1 => v <- rd buf (i*W+k)%nat ;; wr H1 ((first+i)*W+k)%nat v) H1) H1.

Definition pack_reverse_comm (W : nat) (H1_adj : list N) (n first : nat) (buf : list N) : option (list N * nat) :=
  buf <- for_ n (fun i buf =>
      for_ W (fun k buf => v <- rd H1_adj ((first+i)*W+k)%nat ;; wr buf (i*W+k)%nat v) buf) buf ;;
  Some (buf, (n*W)%nat).

Definition unpack_reverse_comm (W : nat) (n : nat) (sendlist : list nat) (buf : list N) (H1_adj : list N) : option (list N) :=
  for_ n (fun ii H1_adj =>
      i <- rd sendlist ii ;;
      for_ W (fun k H1_adj => v <- rd buf (ii*W+k)%nat ;; addto H1_adj (i*W+k)%nat v) H1_adj) H1_adj.

(** ** What LAMMPS provides to [compute] *)
Record lmp := mkLmp {
  nlocal : nat; nghost : nat;
  inum : nat; ilist : list nat;
  numneigh : list nat; firstneigh : list (list Z);  (* indexed by atom *)
  atom_x : list N;                                  (* atom->x[i][c] at 3*i+c *)
  atom_type : list nat; atom_tag : list nat;
  atom_map : nat -> option nat
}.
Record ev := mkEv { eflag_global : bool; eflag_atom : bool; vflag_global : bool; vflag_atom : bool }.
(** accumulators: energy, per-atom energies, virial, forces (3 per atom, local and ghost) *)
Record accum := mkAcc { eng_vdwl : N; eatom : list N; virial : list N; force : list N }.
(** pair_symmetrix_mace.h:54-72, the vectors that persist between calls (and [H1], [H1_adj]) *)
Record pair_bufs := mkPB {
  p_node_types : list nat; p_num_neigh : list nat; p_neigh_indices : list nat; p_neigh_types : list nat;
  p_xyz : list N; p_r : list N; p_node_i : list nat; p_neigh_j : list nat;
  p_is_local : list bool; p_is_ghost : list bool; p_ghost_indices : list nat;
  p_H1 : list N; p_H1_adj : list N
}.

(** [std::unordered_map<int,int>]: operator[] inserts 0 when the key is missing; later entries replace earlier ones *)
Definition umap := list (nat * nat).
Fixpoint umap_get (m : umap) (k : nat) : nat :=
  match m with [] => 0%nat | (k', v) :: m' => if (k' =? k)%nat then v else umap_get m' k end.

(** "count edges": pair_symmetrix_mace.cpp:248-265 and 382-399 *)
Definition count_edges (l : lmp) (r_cut_squared : N) : option nat :=
  for_ (inum l) (fun ii num_edges =>
    i <- rd (ilist l) ii ;;
    x_i <- rd (atom_x l) (3*i)%nat ;;
    y_i <- rd (atom_x l) (3*i+1)%nat ;;
    z_i <- rd (atom_x l) (3*i+2)%nat ;;
    jlist <- rd (firstneigh l) i ;;
    nn <- rd (numneigh l) i ;;
    for_ nn (fun jj num_edges =>
      jz <- rd jlist jj ;;
      let j := neighmask jz in
      x_j <- rd (atom_x l) (3*j)%nat ;;
      y_j <- rd (atom_x l) (3*j+1)%nat ;;
      z_j <- rd (atom_x l) (3*j+2)%nat ;;
      let dx := x_j - x_i in let dy := y_j - y_i in let dz := z_j - z_i in
      let r_squared := dx*dx + dy*dy + dz*dz in
      Some (if nltb r_squared r_cut_squared then (num_edges + 1)%nat else num_edges)) num_edges) 0%nat.

(** the energy, force and virial part at the end of every compute function, pair_symmetrix_mace.cpp:324-371,
    499-546, 702-747: [ne] energies are added, edges of [num_nodes] nodes are scattered *)
Definition tally (fl : ev) (ne num_nodes : nat) (node_i num_neigh neigh_j : list nat) (xyz node_energies node_forces : list N)
    (a : accum) : option accum :=
  eng <- (if eflag_global fl then for_ ne (fun ii e => v <- rd node_energies ii ;; Some (e + v)) (eng_vdwl a)
          else Some (eng_vdwl a)) ;;
  ea <- (if eflag_atom fl then for_ ne (fun ii ea => v <- rd node_energies ii ;; wr ea ii v) (eatom a)
         else Some (eatom a)) ;;
  ' (f, _) <- for_ num_nodes (fun ii '(f, ij) =>
      i <- rd node_i ii ;;
      nn <- rd num_neigh ii ;;
      for_ nn (fun _ '(f, ij) =>
        j <- rd neigh_j ij ;;
        F0 <- rd node_forces (3*ij)%nat ;; f <- subto f (3*i)%nat F0 ;;
        F1 <- rd node_forces (3*ij+1)%nat ;; f <- subto f (3*i+1)%nat F1 ;;
        F2 <- rd node_forces (3*ij+2)%nat ;; f <- subto f (3*i+2)%nat F2 ;;
        f <- addto f (3*j)%nat F0 ;;
        f <- addto f (3*j+1)%nat F1 ;;
        f <- addto f (3*j+2)%nat F2 ;;
        Some (f, (ij + 1)%nat)) (f, ij)) (force a, 0%nat) ;;
  vir <- (if vflag_global fl then
      ' (vir, _) <- for_ num_nodes (fun ii '(vir, ij) =>
        nn <- rd num_neigh ii ;;
        for_ nn (fun _ '(vir, ij) =>
          x <- rd xyz (3*ij)%nat ;; y <- rd xyz (3*ij+1)%nat ;; z <- rd xyz (3*ij+2)%nat ;;
          f_x <- rd node_forces (3*ij)%nat ;; f_y <- rd node_forces (3*ij+1)%nat ;; f_z <- rd node_forces (3*ij+2)%nat ;;
          vir <- addto vir 0 (x*f_x) ;;
          vir <- addto vir 1 (y*f_y) ;;
          vir <- addto vir 2 (z*f_z) ;;
          vir <- addto vir 3 (nlit 1 2 * (x*f_y + y*f_x)) ;;
          vir <- addto vir 4 (nlit 1 2 * (x*f_z + z*f_x)) ;;
          vir <- addto vir 5 (nlit 1 2 * (y*f_z + z*f_y)) ;;
          Some (vir, (ij + 1)%nat)) (vir, ij)) (virial a, 0%nat) ;;
      Some vir
    else Some (virial a)) ;;
  if vflag_atom fl then None (* error->all *) else Some (mkAcc eng ea vir f).

Variable sph : nat -> N -> N -> N -> list N * list N.

(** pair_symmetrix_mace.cpp:242-372 compute_no_domain_decomposition.  [r_cut] = mace->r_cut. *)
Definition compute_no_domain_decomposition (m : mace_model N) (r_cut : N) (mace_types : list nat) (fl : ev) (l : lmp)
    (b : mace_bufs N) (p : pair_bufs) (a : accum) : option (mace_bufs N * pair_bufs * accum) :=
  let r_cut_squared := r_cut * r_cut in
  num_edges <- count_edges l r_cut_squared ;;
  let num_nodes := inum l in
  let node_types := resize 0%nat (p_node_types p) (inum l) in
  let num_neigh := resize 0%nat (p_num_neigh p) num_nodes in
  let neigh_indices := resize 0%nat (p_neigh_indices p) num_edges in
  let neigh_types := resize 0%nat (p_neigh_types p) num_edges in
  let xyz := resize nzero (p_xyz p) (3*num_edges) in
  let r := resize nzero (p_r p) num_edges in
  let node_i := resize 0%nat (p_node_i p) num_nodes in
  let neigh_j := resize 0%nat (p_neigh_j p) num_edges in
  ii_from_i <- for_ (inum l) (fun ii mp => i <- rd (ilist l) ii ;; Some ((i, ii) :: mp)) ([] : umap) ;;
  ' (node_i, node_types, num_neigh, neigh_j, neigh_indices, neigh_types, xyz, r, _) <-
    for_ (inum l) (fun ii '(node_i, node_types, num_neigh, neigh_j, neigh_indices, neigh_types, xyz, r, ij) =>
      i <- rd (ilist l) ii ;;
      node_i <- wr node_i ii i ;;
      ti <- rd (atom_type l) i ;;
      check (1 <=? ti)%nat ;;
      mt <- rd mace_types (ti - 1)%nat ;;
      node_types <- wr node_types ii mt ;;
      x_i <- rd (atom_x l) (3*i)%nat ;;
      y_i <- rd (atom_x l) (3*i+1)%nat ;;
      z_i <- rd (atom_x l) (3*i+2)%nat ;;
      jlist <- rd (firstneigh l) i ;;
      num_neigh <- wr num_neigh ii 0%nat ;;
      nn <- rd (numneigh l) i ;;
      ' (num_neigh, neigh_j, neigh_indices, neigh_types, xyz, r, ij) <-
        for_ nn (fun jj '(num_neigh, neigh_j, neigh_indices, neigh_types, xyz, r, ij) =>
          jz <- rd jlist jj ;;
          let j := neighmask jz in
          x_j <- rd (atom_x l) (3*j)%nat ;;
          y_j <- rd (atom_x l) (3*j+1)%nat ;;
          z_j <- rd (atom_x l) (3*j+2)%nat ;;
          let dx := x_j - x_i in let dy := y_j - y_i in let dz := z_j - z_i in
          let r_squared := dx*dx + dy*dy + dz*dz in
          if nltb r_squared r_cut_squared then
            c <- rd num_neigh ii ;;
            num_neigh <- wr num_neigh ii (c + 1)%nat ;;
            tg <- rd (atom_tag l) j ;;
            j_local <- atom_map l tg ;;
            neigh_j <- wr neigh_j ij j_local ;;
            neigh_indices <- wr neigh_indices ij (umap_get ii_from_i j_local) ;;
            tj <- rd (atom_type l) j ;;
            check (1 <=? tj)%nat ;;
            mj <- rd mace_types (tj - 1)%nat ;;
            neigh_types <- wr neigh_types ij mj ;;
            xyz <- wr xyz (3*ij)%nat dx ;;
            xyz <- wr xyz (3*ij+1)%nat dy ;;
            xyz <- wr xyz (3*ij+2)%nat dz ;;
            r <- wr r ij (nsqrt r_squared) ;;
            Some (num_neigh, neigh_j, neigh_indices, neigh_types, xyz, r, (ij + 1)%nat)
          else Some (num_neigh, neigh_j, neigh_indices, neigh_types, xyz, r, ij))
          (num_neigh, neigh_j, neigh_indices, neigh_types, xyz, r, ij) ;;
      Some (node_i, node_types, num_neigh, neigh_j, neigh_indices, neigh_types, xyz, r, ij))
    (node_i, node_types, num_neigh, neigh_j, neigh_indices, neigh_types, xyz, r, 0%nat) ;;
  b <- compute_node_energies_forces sph m b num_nodes node_types num_neigh neigh_indices neigh_types xyz r ;;
  a <- tally fl num_nodes num_nodes node_i num_neigh neigh_j xyz (b_node_energies b) (b_node_forces b) a ;;
  Some (b, mkPB node_types num_neigh neigh_indices neigh_types xyz r node_i neigh_j (p_is_local p) (p_is_ghost p)
                (p_ghost_indices p) (p_H1 p) (p_H1_adj p), a).
End Pair.
Arguments lmp : clear implicits.
Arguments accum : clear implicits.
Arguments pair_bufs : clear implicits.
