(** Model of [PairSymmetrixMACEKokkos::compute_mpi_message_passing], pair_symmetrix/pair_symmetrix_mace_kokkos.cpp:589-851, run by all processes.

    Conventions as in KkPairModel.v and KkPairMpiModel.v, whose [setup], [kk_tally], [lammps_views] and [results] are used.
    - The processes run in lockstep from communication to communication, as in PairMpiModel.v ([mpi_run]).
    - [H1] of the pair style is the view [bLh], or the view [bH1] of the evaluator: line 731 [mace->H1 = H1] makes both the same
      storage ([kpd_shared]), until one of them is allocated anew.  compute_H1 allocates its view anew only when it is too small,
      so that a new allocation shows in the extent.
    - [H1_adj] of the pair style is always the view [bH1a] of the evaluator (line 748) when it is used.
    - The functions that pack and unpack messages are those of PairKokkosModel.v; they see a view as the list of its elements. *)
From Coq Require Import List Arith ZArith Bool Permutation.
From Verif Require Import Base MaceModel PairModel PairMpiModel PairKokkosModel PairCommSpec KkSem KkModel KkPairModel.
Import ListNotations.
Local Open Scope nat_scope.

Section KkMpi.
Context {N : Num}.
Local Open Scope num_scope.
Variable sph : nat -> N -> N -> N -> list N * list N.
Variable junk : mem N -> cell -> N.

(** pair_symmetrix_mace_kokkos.h: the object between calls; [kpd_shared]: H1 and mace->H1 are the same storage *)
Record kpaird := mkKPD { kpd_mem : mem N; kpd_views : kviews N; kpd_shared : bool }.
Definition kpd_fresh : kpaird := mkKPD kk_fresh kv_fresh false.
(** where H1 of the pair style is stored *)
Definition own_H1 (shared : bool) : buf := if shared then bH1 else bLh.
(** a second name for the storage of mace->H1, in case that compute_H1 allocates mace->H1 anew *)
Definition keep_H1 (shared : bool) (m : mem N) : mem N :=
  if shared then set_view m bLh (dims m bH1) (fun idx => val m (bH1, idx)) else m.

Section Eval.
Variable km : kmace N.
Notation num_LM := (k_num_LM km).
Notation num_channels := (k_num_channels km).

(** the elements of a view with extents (rows, num_LM, num_channels), and their assignment *)
Definition elements (m : mem N) (b : buf) : list N :=
  map (fun p => val m (b, [(p / (num_LM * num_channels))%nat; (p mod (num_LM * num_channels) / num_channels)%nat; (p mod num_channels)%nat]))
    (seq 0 (extent m b 0 * (num_LM * num_channels))).
Definition set_elements (m : mem N) (b : buf) (ext : list nat) (h : list N) : mem N :=
  set_view m b ext (fun idx => match idx with [i; LM; k] => nth (i * (num_LM * num_channels) + (LM * num_channels + k))%nat h nzero | _ => nzero end).

Variables (num_nodes num_edges : nat) (node_types num_neigh neigh_indices neigh_types : list nat) (xyz r : list N).
(** pair_symmetrix_mace_kokkos.cpp:697-713 *)
Definition kk_mpi_first : list (hcmd N) :=
  [grow bE num_nodes [num_nodes]; grow bF (3*num_edges) [(3*num_edges)%nat]; zero bE; zero bF]
  ++ (if k_has_zbl km
      then [HRun (kk_ZBL (k_zbl km) num_nodes node_types num_neigh neigh_types (k_atomic_numbers km) r xyz)] else [])
  ++ kk_compute_Y sph junk km xyz
  ++ kk_compute_R0 km num_nodes node_types num_neigh neigh_types r
  ++ kk_compute_A0 km num_nodes num_neigh
  ++ kk_compute_A0_scaled km num_nodes node_types num_neigh neigh_types r
  ++ kk_compute_M0 junk km num_nodes node_types
  ++ kk_compute_H1 km num_nodes.
(** pair_symmetrix_mace_kokkos.cpp:716-728 "Sort H1"; [dst] is H1 of the pair style *)
Definition sort_H1 (ilist : list nat) (dst : buf) : prog N unit :=
  par_for num_nodes (fun ii => par_for num_LM (fun LM => par_for num_channels (fun k =>
    i <~ lift (rd ilist ii) ;;
    v <~ get bH1 [ii; LM; k] ;;
    put dst [i; LM; k] v))).
(** pair_symmetrix_mace_kokkos.cpp:733-746 *)
Definition kk_mpi_second : list (hcmd N) :=
  kk_compute_R1 km num_nodes node_types num_neigh neigh_types r
  ++ kk_compute_Phi1 km num_nodes num_neigh neigh_indices
  ++ kk_compute_A1 km num_nodes
  ++ kk_compute_A1_scaled km num_nodes node_types num_neigh neigh_types r
  ++ kk_compute_M1 km num_nodes node_types
  ++ kk_compute_H2 km num_nodes node_types
  ++ kk_compute_readouts junk km num_nodes node_types
  ++ kk_reverse_H2 km num_nodes node_types false
  ++ kk_reverse_M1 km num_nodes node_types
  ++ kk_reverse_A1_scaled km num_nodes num_neigh xyz r
  ++ kk_reverse_A1 km num_nodes
  ++ kk_reverse_Phi1 km num_nodes num_neigh neigh_indices xyz r false false.
(** pair_symmetrix_mace_kokkos.cpp:753-756 *)
Definition kk_mpi_third : list (hcmd N) :=
  kk_reverse_H1 km num_nodes
  ++ kk_reverse_M0 junk km num_nodes node_types
  ++ kk_reverse_A0_scaled km num_nodes num_neigh xyz r
  ++ kk_reverse_A0 km num_nodes num_neigh xyz r.
End Eval.

(** pair_symmetrix_mace_kokkos.cpp:592-729, until forward_comm; [o] is one possible outcome: the object and the subviews *)
Definition kk_mpi_begin (km : kmace N) (r_cut : N) (mace_types : list Z) (maxeatom : nat) (fl : ev) (l : lmp N) (s : kpaird) (a : accum N)
    (o : option (kpaird * kviews N)) : Prop :=
  let num_nodes := inum l in
  exists ord1 ord2, Permutation (seq 0 num_nodes) ord1 /\ Permutation (seq 0 num_nodes) ord2 /\
  match setup l mace_types (r_cut * r_cut) ord1 ord2 num_nodes (rd (ilist l)) (fun j => Some (Some j)) (kpd_views s) with
  | None => o = None
  | Some (w, v) =>
      exists o1, hexec
        ([hop (keep_H1 (kpd_shared s)); hop (lammps_views fl maxeatom a)]
         ++ kk_mpi_first km num_nodes (length (kv_r w)) (kv_node_types w) (kv_num_neigh w) (kv_neigh_types w) (kv_xyz w) (kv_r w))
        (kpd_mem s) o1 /\
      match o1 with
      | None => o = None
      | Some m1 =>
          let shared := kpd_shared s && (extent m1 bH1 0 =? extent m1 bLh 0)%nat in
          let rows := (inum l + nghost l)%nat in
          let small := (extent m1 (own_H1 shared) 0 <? rows)%nat in
          let shared' := shared && negb small in
          exists o2, hexec
            ((if small then [hop (realloc bLh [rows; k_num_LM km; k_num_channels km])] else [])
             ++ [HRun (sort_H1 km num_nodes (ilist l) (own_H1 shared'))]) m1 o2 /\
          o = (m2 <- o2 ;; Some (mkKPD m2 v shared', w))
      end
  end.

(** pair_symmetrix_mace_kokkos.cpp:731-748, from forward_comm to reverse_comm; [h] are the elements of H1 after forward_comm *)
Definition kk_mpi_middle (km : kmace N) (num_nodes : nat) (s : kpaird) (w : kviews N) (h : list N) (o : option kpaird) : Prop :=
  exists o', hexec
    (kk_mpi_second km num_nodes (kv_node_types w) (kv_num_neigh w) (kv_neigh_indices w) (kv_neigh_types w) (kv_xyz w) (kv_r w))
    (set_elements km (kpd_mem s) bH1 (dims (kpd_mem s) (own_H1 (kpd_shared s))) h) o' /\
  o = (m' <- o' ;; Some (mkKPD m' (kpd_views s) true)).

(** pair_symmetrix_mace_kokkos.cpp:753-851, after reverse_comm; [h] are the elements of H1_adj after reverse_comm *)
Definition kk_mpi_end (km : kmace N) (num_nodes : nat) (fl : ev) (a : accum N) (s : kpaird) (w : kviews N) (h : list N) (o : option (kpaird * accum N)) : Prop :=
  exists o', hexec
    (kk_mpi_third km num_nodes (kv_node_types w) (kv_num_neigh w) (kv_xyz w) (kv_r w)
     ++ kk_tally num_nodes (kv_node_indices w) (kv_num_neigh w) (kv_first_neigh w) (kv_neigh_indices w) (kv_xyz w) fl num_nodes)
    (set_elements km (kpd_mem s) bH1a (dims (kpd_mem s) bH1a) h) o' /\
  o = (m' <- o' ;; a' <- results fl a m' ;; Some (mkKPD m' (kpd_views s) (kpd_shared s), a')).

(** a process *)
Record kdproc := mkKD { kd_l : lmp N; kd_a : accum N; kd_max : nat; kd_st : kpaird }.
Fixpoint all_some {A} (os : list (option A)) : option (list A) :=
  match os with [] => Some [] | o :: os' => x <- o ;; xs <- all_some os' ;; Some (x :: xs) end.
(** comm->forward_comm(this), comm->reverse_comm(this): through the host, or on the device with some order of the loops *)
Definition forward (host : bool) (ords : msg -> list (nat * nat) * list (nat * nat)) (W : nat) (gs : list msg) (hs : list (list N)) : option (list (list N)) :=
  if host then forward_comm_host true W gs hs else forward_comm_kk ords W gs hs.
Definition reverse (host : bool) (ords : msg -> list (nat * nat) * list (nat * nat)) (W : nat) (gs : list msg) (hs : list (list N)) : option (list (list N)) :=
  if host then reverse_comm_host true W gs hs else reverse_comm_kk ords W gs hs.

(** pair_symmetrix_mace_kokkos.cpp:589-851, all processes; [gs] are the messages of a forward communication; [host]: communication through the
    host, with views in host memory.  [o] is one possible outcome; [None] if one of the processes fails. *)
Definition kk_mpi_run (km : kmace N) (r_cut : N) (mace_types : list Z) (fl : ev) (gs : list msg) (host : bool) (qs : list kdproc)
    (o : option (list (kpaird * accum N))) : Prop :=
  let W := (k_num_LM km * k_num_channels km)%nat in
  exists os1, Forall2 (fun q o1 => kk_mpi_begin km r_cut mace_types (kd_max q) fl (kd_l q) (kd_st q) (kd_a q) o1) qs os1 /\
  match all_some os1 with
  | None => o = None
  | Some x1 =>
      exists ords1, ords_ok W gs ords1 /\
      match forward host ords1 W gs (map (fun x => elements km (kpd_mem (fst x)) (own_H1 (kpd_shared (fst x)))) x1) with
      | None => o = None
      | Some hs1 =>
          exists os2, Forall2 (fun y o2 => let '(q, x, h) := y in kk_mpi_middle km (inum (kd_l q)) (fst x) (snd x) h o2) (combine (combine qs x1) hs1) os2 /\
          match all_some os2 with
          | None => o = None
          | Some x2 =>
              exists ords2, ords_ok W gs ords2 /\
              match reverse host ords2 W gs (map (fun x => elements km (kpd_mem x) bH1a) x2) with
              | None => o = None
              | Some hs2 =>
                  exists os3, Forall2 (fun y o3 => let '(q, x, x2, h) := y in kk_mpi_end km (inum (kd_l q)) fl (kd_a q) x2 (snd x) h o3)
                                (combine (combine (combine qs x1) x2) hs2) os3 /\
                  o = all_some os3
              end
          end
      end
  end.
End KkMpi.
Arguments kpaird : clear implicits.
Arguments kdproc : clear implicits.
