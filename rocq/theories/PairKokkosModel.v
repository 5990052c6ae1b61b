(** Model of parts of the Kokkos pair style, pair_symmetrix/pair_symmetrix_mace_kokkos.cpp (class
    [PairSymmetrixMACEKokkos]): the commands, the communication of ghosts and the per-atom energies.

    - A view with several indices is a flat array, last index fastest; an access outside its extents is [None].
    - A [parallel_for] executes the iterations one after the other in the order [ord], an arbitrary permutation.
      This is faithful when iterations touch different elements or are atomic, which holds for the loops below.
    - [Kokkos::create_mirror_view(v)] is [v] itself when [v] can be accessed by the host ([host] = true), and otherwise a
      new view of the same extents, which Kokkos fills with zeros; [create_mirror_view_and_copy] has the contents of [v].
    - The element type of the views is [Precision]; conversions between [float] and [double] are not modelled. *)
From Coq Require Import String List Arith ZArith Bool.
From Verif Require Import Base MaceModel ZblModel PairModel PairMpiModel.
Import ListNotations.
Local Open Scope nat_scope.

(** pair_symmetrix_mace_kokkos.cpp:111-125 settings *)
Definition settings_kk (nprocs : nat) (arg : list string) : option string :=
  mode <- (if length arg =? 0 then
             Some (if nprocs =? 1 then "no_domain_decomposition"%string else "mpi_message_passing"%string)
           else if length arg =? 1 then
             mode <- rd arg 0 ;;
             if (negb (mode =? "no_domain_decomposition") && negb (mode =? "mpi_message_passing")
                 && negb (mode =? "no_mpi_message_passing"))%string then None else Some mode
           else None) ;;
  if ((mode =? "no_domain_decomposition")%string && negb (nprocs =? 1)) then None else Some mode.

(** pair_symmetrix_mace_kokkos.cpp:140-158 coeff: the view [mace_types] *)
Definition coeff_types_kk (atomic_numbers : list nat) (arg : list string) : option (list Z) :=
  for_range 3 (length arg) (fun i mace_types =>
    a <- rd arg i ;;
    p <- find_first String.eqb periodic_table a ;;
    let atomic_number := p + 1 in
    mace_index <- for_ (length atomic_numbers) (fun j mace_index =>
        z <- rd atomic_numbers j ;;
        Some (if z =? atomic_number then Z.of_nat j else mace_index)) (-1)%Z ;;
    wr mace_types (i - 3) mace_index) (repeat 0%Z (length atomic_numbers)).

(** pair_symmetrix_mace_kokkos.cpp:161-168 coeff: (comm_forward, comm_reverse) *)
Definition coeff_comm_kk (mode : string) (num_LM num_channels : nat) : nat * nat :=
  if (mode =? "mpi_message_passing")%string then (num_LM * num_channels, num_LM * num_channels) else (0, 0).

Section Pair.
Context {N : Num}.
Local Open Scope num_scope.

(** the iterations of a [parallel_for], one after the other *)
Fixpoint run_all {I S} (body : I -> S -> option S) (ord : list I) (s : S) : option S :=
  match ord with [] => Some s | i :: ord' => s' <- body i s ;; run_all body ord' s' end.
(** [MDRangePolicy<Rank<3>>({0,0,0}, {n,num_LM,num_channels})]: (ii, q) with q = LM*num_channels+k *)
Definition md_range (n W : nat) : list (nat * nat) := list_prod (seq 0 n) (seq 0 W).

(** *** Communication through the host, pair_symmetrix_mace_kokkos.cpp:222-235, 261-273, 296-310, 333-346 *)
Definition mirror (host : bool) (v : list N) : list N := if host then v else repeat nzero (length v).

Definition pack_forward_comm_host (W : nat) (H1 : list N) (n : nat) (sendlist : list nat) (buf : list N) : option (list N * nat) :=
  let h_H1 := H1 in
  buf <- for_ n (fun ii buf =>
      i <- rd sendlist ii ;;
      for_ W (fun k buf => v <- rd h_H1 (i*W+k)%nat ;; wr buf (ii*W+k)%nat v) buf) buf ;;
  Some (buf, (n*W)%nat).

Definition unpack_forward_comm_host (host : bool) (W : nat) (n first : nat) (buf : list N) (H1 : list N) : option (list N) :=
  let h_H1 := mirror host H1 in
  h_H1 <- for_ n (fun i h_H1 =>
      for_ W (fun k h_H1 => v <- rd buf (i*W+k)%nat ;; wr h_H1 ((first+i)*W+k)%nat v) h_H1) h_H1 ;;
  Some h_H1 (* deep_copy(H1, h_H1) *).

Definition pack_reverse_comm_host (W : nat) (H1_adj : list N) (n first : nat) (buf : list N) : option (list N * nat) :=
  let h_H1_adj := H1_adj in
  buf <- for_ n (fun i buf =>
      for_ W (fun k buf => v <- rd h_H1_adj ((first+i)*W+k)%nat ;; wr buf (i*W+k)%nat v) buf) buf ;;
  Some (buf, (n*W)%nat).

Definition unpack_reverse_comm_host (host : bool) (W : nat) (n : nat) (sendlist : list nat) (buf : list N) (H1_adj : list N) : option (list N) :=
  let h_H1_adj := mirror host H1_adj in
  h_H1_adj <- for_ n (fun ii h_H1_adj =>
      i <- rd sendlist ii ;;
      for_ W (fun k h_H1_adj => v <- rd buf (ii*W+k)%nat ;; addto h_H1_adj (i*W+k)%nat v) h_H1_adj) h_H1_adj ;;
  Some h_H1_adj (* deep_copy(H1_adj, h_H1_adj) *).

(** *** Communication on the device, pair_symmetrix_mace_kokkos.cpp:239-257, 277-292, 313-329, 350-370 *)
Definition pack_forward_comm_kokkos (ord : list (nat * nat)) (W : nat) (H1 : list N) (n : nat) (sendlist : list nat) (buf : list N)
    : option (list N * nat) :=
  buf <- run_all (fun '(ii, k) buf => i <- rd sendlist ii ;; v <- rd H1 (i*W+k)%nat ;; wr buf (ii*W+k)%nat v) ord buf ;;
  Some (buf, (n*W)%nat).

Definition unpack_forward_comm_kokkos (ord : list (nat * nat)) (W : nat) (first : nat) (buf : list N) (H1 : list N) : option (list N) :=
  run_all (fun '(i, k) H1 => v <- rd buf (i*W+k)%nat ;; wr H1 ((first+i)*W+k)%nat v) ord H1.

Definition pack_reverse_comm_kokkos (ord : list (nat * nat)) (W : nat) (H1_adj : list N) (n first : nat) (buf : list N)
    : option (list N * nat) :=
  buf <- run_all (fun '(i, k) buf => v <- rd H1_adj ((first+i)*W+k)%nat ;; wr buf (i*W+k)%nat v) ord buf ;;
  Some (buf, (n*W)%nat).

(** the addition is atomic *)
Definition unpack_reverse_comm_kokkos (ord : list (nat * nat)) (W : nat) (sendlist : list nat) (buf : list N) (H1_adj : list N)
    : option (list N) :=
  run_all (fun '(ii, k) H1_adj => i <- rd sendlist ii ;; v <- rd buf (ii*W+k)%nat ;; addto H1_adj (i*W+k)%nat v) ord H1_adj.

(** *** The messages of one communication, as in PairMpiModel.v, with the functions of the Kokkos style.
    LAMMPS calls the [_kokkos] functions, or the others when the package option comm/pair/... is "no".
    [ords g] are the orders of the loops for message [g] *)
Definition forward_one_kk (ords : msg -> list (nat * nat) * list (nat * nat)) (W : nat) (g : msg) (hs : list (list N)) : option (list (list N)) :=
  h <- rd hs (g_src g) ;;
  let n := length (g_list g) in
  ' (buf, _) <- pack_forward_comm_kokkos (fst (ords g)) W h n (g_list g) (repeat nzero (n * W)) ;;
  h' <- rd hs (g_dst g) ;;
  h' <- unpack_forward_comm_kokkos (snd (ords g)) W (g_first g) buf h' ;;
  wr hs (g_dst g) h'.
Fixpoint forward_comm_kk (ords : msg -> list (nat * nat) * list (nat * nat)) (W : nat) (gs : list msg) (hs : list (list N)) : option (list (list N)) :=
  match gs with [] => Some hs | g :: gs' => hs' <- forward_one_kk ords W g hs ;; forward_comm_kk ords W gs' hs' end.
Definition reverse_one_kk (ords : msg -> list (nat * nat) * list (nat * nat)) (W : nat) (g : msg) (hs : list (list N)) : option (list (list N)) :=
  h <- rd hs (g_dst g) ;;
  let n := length (g_list g) in
  ' (buf, _) <- pack_reverse_comm_kokkos (fst (ords g)) W h n (g_first g) (repeat nzero (n * W)) ;;
  h' <- rd hs (g_src g) ;;
  h' <- unpack_reverse_comm_kokkos (snd (ords g)) W (g_list g) buf h' ;;
  wr hs (g_src g) h'.
Fixpoint reverse_comm_kk (ords : msg -> list (nat * nat) * list (nat * nat)) (W : nat) (gs : list msg) (hs : list (list N)) : option (list (list N)) :=
  match gs with [] => Some hs | g :: gs' => hs' <- reverse_comm_kk ords W gs' hs ;; reverse_one_kk ords W g hs' end.

Definition forward_one_host (host : bool) (W : nat) (g : msg) (hs : list (list N)) : option (list (list N)) :=
  h <- rd hs (g_src g) ;;
  let n := length (g_list g) in
  ' (buf, _) <- pack_forward_comm_host W h n (g_list g) (repeat nzero (n * W)) ;;
  h' <- rd hs (g_dst g) ;;
  h' <- unpack_forward_comm_host host W n (g_first g) buf h' ;;
  wr hs (g_dst g) h'.
Fixpoint forward_comm_host (host : bool) (W : nat) (gs : list msg) (hs : list (list N)) : option (list (list N)) :=
  match gs with [] => Some hs | g :: gs' => hs' <- forward_one_host host W g hs ;; forward_comm_host host W gs' hs' end.
Definition reverse_one_host (host : bool) (W : nat) (g : msg) (hs : list (list N)) : option (list (list N)) :=
  h <- rd hs (g_dst g) ;;
  let n := length (g_list g) in
  ' (buf, _) <- pack_reverse_comm_host W h n (g_first g) (repeat nzero (n * W)) ;;
  h' <- rd hs (g_src g) ;;
  h' <- unpack_reverse_comm_host host W n (g_list g) buf h' ;;
  wr hs (g_src g) h'.
Fixpoint reverse_comm_host (host : bool) (W : nat) (gs : list msg) (hs : list (list N)) : option (list (list N)) :=
  match gs with [] => Some hs | g :: gs' => hs' <- reverse_comm_host host W gs' hs ;; reverse_one_host host W g hs' end.

(** pair_symmetrix_mace_kokkos.cpp:503-509, 769-775, 1097-1103: "extract_atomic_energies" *)
Definition extract_atomic_energies (ord : list nat) (node_energies d_eatom : list N) : option (list N) :=
  run_all (fun ii d_eatom => v <- rd node_energies ii ;; addto d_eatom ii v) ord d_eatom.
End Pair.
