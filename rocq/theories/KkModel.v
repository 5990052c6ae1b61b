(** Model of libsymmetrix/source/mace_kokkos.cpp (class [MACEKokkos<double>]) with the classes it uses:
    radial_function_set_kokkos.cpp, multilayer_perceptron_kokkos.cpp and zbl_kokkos.cpp.

    Kernels are programs of KkSem.v.  Conventions:
    - TeamPolicy, TeamThreadRange, TeamVectorRange, ThreadVectorRange, TeamVectorMDRange and plain ranges are [par_for]
      (one thread of execution per index); the end of a [par_for] inside a kernel is where the code has a barrier.
      Where the code has a sequential loop around a TeamVectorRange loop without a barrier in between, index k of the
      inner loop is executed by the same lane every time; it is written [par_for K (fun k => for_p ...)].
    - Views that never change after loading (weights, spline tables, type lists, neighbour lists, xyz, r) are read with
      [lift]; an index outside them is undefined.  Integer views are lists of [nat].
    - first_neigh (parallel_scan) and i_list (one writer per entry) are computed as lists.
    - [Kokkos::sqrt(lm)] truncated to int is [Nat.sqrt].
    - KokkosBatched::TeamGemm with alpha = 1, beta = 0 is C := A*B, each entry of C by one lane.
    - Host loops that fill a table before the first evaluation are given entry by entry ([mk_view]).
    - [num_elements] of the file is taken to be the number of atomic_numbers.
    - Kernels on one execution space run one after the other, in the order of submission. *)
From Coq Require Import List Arith ZArith Bool.
From Verif Require Import Base MpModel ZblModel MaceModel KkSem.
Import ListNotations.

Section Kk.
Context {N : Num}.
Local Open Scope num_scope.
Variable sph : nat -> N -> N -> N -> list N * list N.
Variable srt : list (list (list nat)) -> list (list (list nat)).
(** contents of freshly allocated memory that is not initialised *)
Variable junk : mem N -> cell -> N.

(** ** read-only views *)
Record view := mkView { v_ext : list nat; v_val : list nat -> N }.
Definition vget (v : view) (idx : list nat) : option N := if inb (v_ext v) idx then Some (v_val v idx) else None.
Fixpoint indices (ext : list nat) : list (list nat) :=
  match ext with
  | [] => [[]]
  | e :: ext' => flat_map (fun i => map (cons i) (indices ext')) (seq 0 e)
  end.
(** a view whose every entry is computed by [f]; undefined if some entry is *)
Definition mk_view (ext : list nat) (f : list nat -> option N) : option view :=
  if forallb (fun idx => match f idx with Some _ => true | None => false end) (indices ext)
  then Some (mkView ext (fun idx => match f idx with Some v => v | None => nzero end)) else None.

(** ** the classes *)
(** radial_function_set_kokkos.hpp: members *)
Record krad := mkKrad { kr_h : N; kr_types : nat; kr_num : nat; kr_c : view }.
(** multilayer_perceptron_kokkos.hpp: members *)
Record kmlp := mkKmlp { kl_shape : list nat; kl_weights : list view; kl_scale : N }.
(** mace_kokkos.hpp: the members set by load_from_json.  [k_zbl] has the members of ZBLKokkos. *)
Record kmace := mkKmace {
  k_num_channels : nat; k_l_max : nat; k_L_max : nat;
  k_atomic_numbers : list nat; k_atomic_energies : list N;
  k_has_zbl : bool; k_zbl : ZBL N;
  k_R0_spline_h : N; k_R0_coeff : view;
  k_radial_1 : krad;
  k_A0_scaled : bool; k_A0_splines : krad;
  k_M0_poly_spec : list (list (nat * nat)); k_M0_poly_coeff : list view;
  k_H1_weights : view;
  k_Phi1_l : list nat; k_Phi1_lme : list nat; k_Phi1_lelm1lm2 : list nat; k_Phi1_clebsch_gordan : list N;
  k_num_lme : nat; k_num_lelm1lm2 : nat;
  k_Phi1_lm1 : list nat; k_Phi1_lm2 : list nat; k_Phi1_lel1l2 : list nat;
  k_A1_weights : list view; k_A1_weights_trans : list view;
  k_A1_scaled : bool; k_A1_splines : krad;
  k_M1_poly_spec : list (nat * nat); k_M1_poly_coeff : view;
  k_H2_weights_for_H1 : view; k_H2_weights_for_M1 : list N;
  k_readout_1_weights : list N; k_readout_2 : kmlp
}.
Definition k_num_lm (km : kmace) : nat := ((k_l_max km + 1) * (k_l_max km + 1))%nat.
Definition k_num_LM (km : kmace) : nat := ((k_L_max km + 1) * (k_L_max km + 1))%nat.

(** ** lists of neighbours *)
(** mace_kokkos.cpp:116-125 (and in every function that loops over neighbours): first_neigh *)
Definition first_neigh (num_nodes : nat) (num_neigh : list nat) : option (list nat) :=
  '(l, _) <- for_ num_nodes (fun i '(l, update) =>
      nn <- rd num_neigh i ;;
      Some (l ++ [update], (update + nn)%nat)) ([], 0) ;;
  Some l.
(** mace_kokkos.cpp:127-137: i_list; views are zero-initialised *)
Definition i_list (num_nodes : nat) (num_neigh : list nat) (nr : nat) : option (list nat) :=
  fn <- first_neigh num_nodes num_neigh ;;
  for_ num_nodes (fun i il =>
    ij <- rd fn i ;;
    nn <- rd num_neigh i ;;
    '(il, _) <- for_ nn (fun _ '(il, ij) => il <- wr il ij i ;; Some (il, (ij + 1)%nat)) (il, ij) ;;
    Some il) (repeat 0 nr).

(** ** host operations *)
Definition hop (f : mem N -> mem N) : hcmd N := HOp (fun m => Some (f m)).
(** [if (b.extent(0) < n) realloc(b, ext)] *)
Definition grow (b : buf) (n : nat) (ext : list nat) : hcmd N :=
  hop (fun m => if (extent m b 0 <? n)%nat then realloc b ext m else m).
(** [if (b.extent(0) < src.extent(0)) realloc(b, the extents of src)] *)
Definition grow_like (b src : buf) : hcmd N :=
  hop (fun m => if (extent m b 0 <? extent m src 0)%nat then realloc b (dims m src) m else m).
Definition zero (b : buf) : hcmd N := hop (fill_view b nzero).

(** ** ZBLKokkos *)
(** zbl_kokkos.cpp:72-83 *)
Definition kzbl_envelope (r r_max : N) (p : Z) : N :=
  if nleb r_max r then nzero else
  let r_over_r_max := r / r_max in
  none - ((nofZ p + none) * (nofZ p + nofZ 2) / nofZ 2) * npowi r_over_r_max p
       + nofZ p * (nofZ p + nofZ 2) * npowi r_over_r_max (p + 1)%Z
       - (nofZ p * (nofZ p + none) / nofZ 2) * npowi r_over_r_max (p + 2)%Z.
(** zbl_kokkos.cpp:85-97 *)
Definition kzbl_envelope_gradient (r r_max : N) (p : Z) : N :=
  if nleb r_max r then nzero else
  let r_over_r_max := r / r_max in
  let v := (- ((nofZ p + none) * (nofZ p + nofZ 2) / nofZ 2)) * nofZ p * npowi r_over_r_max (p - 1)%Z
           + nofZ p * (nofZ p + nofZ 2) * (nofZ p + none) * npowi r_over_r_max p
           - (nofZ p * (nofZ p + none) / nofZ 2) * (nofZ p + nofZ 2) * npowi r_over_r_max (p + 1)%Z in
  v / r_max.
(** zbl_kokkos.cpp:26-45; the constants are those of zbl_kokkos.hpp:56-61 *)
Definition kzbl_compute (z : ZBL N) (Z_u Z_v : nat) (r : N) : option N :=
  cov_rad_u <- rd (z_covalent_radii z) Z_u ;;
  cov_rad_v <- rd (z_covalent_radii z) Z_v ;;
  c0 <- rd (z_c z) 0 ;; c1 <- rd (z_c z) 1 ;; c2 <- rd (z_c z) 2 ;; c3 <- rd (z_c z) 3 ;;
  let Z_u_f := nofnat Z_u in let Z_v_f := nofnat Z_v in
  let a := z_a_prefactor z * nlit 529 1000 / (npow Z_u_f (z_a_exp z) + npow Z_v_f (z_a_exp z)) in
  let r_over_a := r / a in
  let phi := c0 * nexp (nlit (-32) 10 * r_over_a)
           + c1 * nexp (nlit (-9423) 10000 * r_over_a)
           + c2 * nexp (nlit (-4028) 10000 * r_over_a)
           + c3 * nexp (nlit (-2016) 10000 * r_over_a) in
  let v_edges := nlit 143996 10000 * Z_u_f * Z_v_f / r * phi in
  let r_max := cov_rad_u + cov_rad_v in
  let envelope := kzbl_envelope r r_max (z_p z) in
  Some (v_edges * (nlit 1 2 * envelope)).
(** zbl_kokkos.cpp:47-70 *)
Definition kzbl_compute_gradient (z : ZBL N) (Z_u Z_v : nat) (r : N) : option N :=
  cov_rad_u <- rd (z_covalent_radii z) Z_u ;;
  cov_rad_v <- rd (z_covalent_radii z) Z_v ;;
  c0 <- rd (z_c z) 0 ;; c1 <- rd (z_c z) 1 ;; c2 <- rd (z_c z) 2 ;; c3 <- rd (z_c z) 3 ;;
  let Z_u_f := nofnat Z_u in let Z_v_f := nofnat Z_v in
  let a := z_a_prefactor z * nlit 529 1000 / (npow Z_u_f (z_a_exp z) + npow Z_v_f (z_a_exp z)) in
  let r_over_a := r / a in
  let e_0 := c0 * nexp (nlit (-32) 10 * r_over_a) in
  let e_1 := c1 * nexp (nlit (-9423) 10000 * r_over_a) in
  let e_2 := c2 * nexp (nlit (-4028) 10000 * r_over_a) in
  let e_3 := c3 * nexp (nlit (-2016) 10000 * r_over_a) in
  let phi := e_0 + e_1 + e_2 + e_3 in
  let d_phi__d_r := nlit (-32) 10 * e_0 + nlit (-9423) 10000 * e_1 + nlit (-4028) 10000 * e_2 + nlit (-2016) 10000 * e_3 in
  let d_phi__d_r := d_phi__d_r / a in
  let v_edges := nlit 143996 10000 * Z_u_f * Z_v_f / r * phi in
  let d_v_edges__d_r := nlit 143996 10000 * Z_u_f * Z_v_f * (r * d_phi__d_r - phi) / (r * r) in
  let r_max := cov_rad_u + cov_rad_v in
  let envelope := kzbl_envelope r r_max (z_p z) in
  let d_envelope__d_r := kzbl_envelope_gradient r r_max (z_p z) in
  Some (nlit 1 2 * (v_edges * d_envelope__d_r + d_v_edges__d_r * envelope)).
(** zbl_kokkos.cpp:99-148 compute_ZBL *)
Definition kk_ZBL (z : ZBL N) (num_nodes : nat) (node_types num_neigh neigh_types atomic_numbers : list nat)
    (r xyz : list N) : prog N unit :=
  fn <~ lift (first_neigh num_nodes num_neigh) ;;
  par_for num_nodes (fun i =>
    i0 <~ lift (rd fn i) ;;
    type_i <~ lift (rd node_types i) ;;
    Z_i <~ lift (rd atomic_numbers type_i) ;;
    nn <~ lift (rd num_neigh i) ;;
    e_i <~ par_reduce [i] nn (fun j =>
      let ij := (i0 + j)%nat in
      type_j <~ lift (rd neigh_types ij) ;;
      Z_j <~ lift (rd atomic_numbers type_j) ;;
      rij <~ lift (rd r ij) ;;
      e <~ lift (kzbl_compute z Z_i Z_j rij) ;;
      g <~ lift (kzbl_compute_gradient z Z_i Z_j rij) ;;
      x <~ lift (rd xyz (3*ij)%nat) ;;
      _ <~ minus_eq bF [(3*ij)%nat] (x / rij * g) ;;
      y <~ lift (rd xyz (3*ij+1)%nat) ;;
      _ <~ minus_eq bF [(3*ij+1)%nat] (y / rij * g) ;;
      z <~ lift (rd xyz (3*ij+2)%nat) ;;
      _ <~ minus_eq bF [(3*ij+2)%nat] (z / rij * g) ;;
      Ret e) ;;
    plus_eq bE [i] e_i).

(** ** RadialFunctionSetKokkos *)
(** radial_function_set_kokkos.cpp:124-201 evaluate; [b], [bd] are the views R and R_deriv.
    [num_unique_types] is (std::sqrt(8*num_edge_types+1)-1)/2 truncated to int. *)
Definition tri (t : nat) (nut : nat) : nat := (t * (2 * nut - t - 1) / 2)%nat.
Definition zidx (n : Z) : option nat := if (n <? 0)%Z then None else Some (Z.to_nat n).
Definition kk_evaluate (s : krad) (num_nodes : nat) (node_types num_neigh neigh_types : list nat) (r : list N)
    (b bd : buf) : prog N unit :=
  let h := kr_h s in
  let nut := ((Nat.sqrt (8 * kr_types s + 1) - 1) / 2)%nat in
  il <~ lift (i_list num_nodes num_neigh (length r)) ;;
  par_for (length r) (fun ij =>
    i <~ lift (rd il ij) ;;
    type_i <~ lift (rd node_types i) ;;
    type_j <~ lift (rd neigh_types ij) ;;
    (* the int 2*num_unique_types-t-1 is not negative *)
    pguard (if type_i <=? type_j then type_i <? 2 * nut else type_j <? 2 * nut)%nat
    (let type_ij := if (type_i <=? type_j)%nat then (tri type_i nut + type_j)%nat else (tri type_j nut + type_i)%nat in
    rij <~ lift (rd r ij) ;;
    let nz := ntrunc (rij / h) in
    let x := rij - h * nofZ nz in
    let xx := x * x in
    let xxx := xx * x in
    let two_x := nofZ 2 * x in
    let three_xx := nofZ 3 * xx in
    par_for (kr_num s) (fun k =>
      n <~ lift (zidx nz) ;;
      c0 <~ lift (vget (kr_c s) [type_ij; n; 0; k]) ;;
      c1 <~ lift (vget (kr_c s) [type_ij; n; 1; k]) ;;
      c2 <~ lift (vget (kr_c s) [type_ij; n; 2; k]) ;;
      c3 <~ lift (vget (kr_c s) [type_ij; n; 3; k]) ;;
      _ <~ put b [ij; k] (c0 + c1 * x + c2 * xx + c3 * xxx) ;;
      put bd [ij; k] (c1 + c2 * two_x + c3 * three_xx)))).

(** ** the evaluator *)
Section Eval.
Variable km : kmace.
Variable num_nodes : nat.
Variables node_types num_neigh neigh_indices neigh_types : list nat.
Variables xyz r : list N.
Notation K := (k_num_channels km).
Notation l_max := (k_l_max km).
Notation L_max := (k_L_max km).
Notation num_lm := (k_num_lm km).
Notation num_LM := (k_num_LM km).

(** mace_kokkos.cpp:102-175 compute_R0 *)
Definition kk_R0_kernel : prog N unit :=
  il <~ lift (i_list num_nodes num_neigh (length r)) ;;
  let num_types := length (k_atomic_numbers km) in
  let h := k_R0_spline_h km in
  par_for (length r) (fun ij =>
    i <~ lift (rd il ij) ;;
    type_i <~ lift (rd node_types i) ;;
    type_j <~ lift (rd neigh_types ij) ;;
    let type_ij := (type_i * num_types + type_j)%nat in
    rij <~ lift (rd r ij) ;;
    let nz := ntrunc (rij / h) in
    let x := rij - h * nofZ nz in
    let xx := x * x in
    let xxx := xx * x in
    let two_x := nofZ 2 * x in
    let three_xx := nofZ 3 * xx in
    par_for ((l_max + 1) * K) (fun lk =>
      n <~ lift (zidx nz) ;;
      c0 <~ lift (vget (k_R0_coeff km) [type_ij; n; 0; lk]) ;;
      c1 <~ lift (vget (k_R0_coeff km) [type_ij; n; 1; lk]) ;;
      c2 <~ lift (vget (k_R0_coeff km) [type_ij; n; 2; lk]) ;;
      c3 <~ lift (vget (k_R0_coeff km) [type_ij; n; 3; lk]) ;;
      _ <~ put bR0 [ij; lk] (c0 + c1 * x + c2 * xx + c3 * xxx) ;;
      put bR0d [ij; lk] (c1 + c2 * two_x + c3 * three_xx))).
(** [if (r.size() > b.extent(0)) realloc both] (110-113, 185-188, 433-436, 1120-1123) *)
Definition grow2 (b bd : buf) (c : nat) : hcmd N :=
  hop (fun m => if (extent m b 0 <? length r)%nat then realloc bd [length r; c] (realloc b [length r; c] m) else m).
Definition kk_compute_R0 : list (hcmd N) := [grow2 bR0 bR0d ((l_max + 1) * K); HRun kk_R0_kernel].

(** mace_kokkos.cpp:177-194 compute_R1 *)
Definition kk_compute_R1 : list (hcmd N) :=
  [grow2 bR1 bR1d (length (k_Phi1_l km) * K);
   HRun (kk_evaluate (k_radial_1 km) num_nodes node_types num_neigh neigh_types r bR1 bR1d)].

(** mace_kokkos.cpp:196-247 compute_Y (SYMMETRIX_SPHERICART_CUDA not defined) *)
Definition kk_shuffle : prog N unit :=
  par_for (length xyz / 3) (fun i =>
    z <~ lift (rd xyz (3*i+2)%nat) ;;
    _ <~ put bXs [(3*i)%nat] z ;;
    x <~ lift (rd xyz (3*i)%nat) ;;
    _ <~ put bXs [(3*i+1)%nat] x ;;
    y <~ lift (rd xyz (3*i+1)%nat) ;;
    put bXs [(3*i+2)%nat] y).
(** the call of sphericart on host copies: num points; the entries of the copies that are not computed are
    uninitialised memory, and are copied back *)
Definition kk_sphericart (m : mem N) : option (mem N) :=
  let num := (length xyz / 3)%nat in
  check ((3 * num <=? extent m bXs 0) && (num * num_lm <=? extent m bY 0) && (3 * num * num_lm <=? extent m bYg 0))%nat ;;
  let pt t := sph l_max (val m (bXs, [(3*t)%nat])) (val m (bXs, [(3*t+1)%nat])) (val m (bXs, [(3*t+2)%nat])) in
  let m1 := set_view m bY (dims m bY) (fun idx => match idx with
      | [q] => if (q <? num * num_lm)%nat then nth (q mod num_lm) (fst (pt (q / num_lm)%nat)) nzero else junk m (bY, idx)
      | _ => junk m (bY, idx) end) in
  Some (set_view m1 bYg (dims m bYg) (fun idx => match idx with
      | [q] => if (q <? 3 * num * num_lm)%nat then nth (q mod (3 * num_lm)) (snd (pt (q / (3 * num_lm))%nat)) nzero
               else junk m (bYg, idx)
      | _ => junk m (bYg, idx) end)).
Definition kk_unshuffle : prog N unit :=
  par_for (length xyz / 3) (fun i => for_p num_lm (fun lm _ =>
    g <~ get bYgs [(3*i*num_lm + 1*num_lm + lm)%nat] ;;
    _ <~ put bYg [(3*i*num_lm + 0*num_lm + lm)%nat] g ;;
    g <~ get bYgs [(3*i*num_lm + 2*num_lm + lm)%nat] ;;
    _ <~ put bYg [(3*i*num_lm + 1*num_lm + lm)%nat] g ;;
    g <~ get bYgs [(3*i*num_lm + 0*num_lm + lm)%nat] ;;
    put bYg [(3*i*num_lm + 2*num_lm + lm)%nat] g) tt).
Definition kk_normalize (b : buf) (cnt : nat) : prog N unit :=
  par_for cnt (fun q => y <~ get b [q] ;; put b [q] (y * (nofZ 2 * nsqrt npi))).
Definition kk_compute_Y : list (hcmd N) :=
  let num := (length xyz / 3)%nat in
  [hop (fun m => if (extent m bY 0 <? num * num_lm)%nat
                 then realloc bYg [(3*num*num_lm)%nat] (realloc bY [(num*num_lm)%nat] m) else m);
   grow bXs (3*num) [(3*num)%nat];
   HRun kk_shuffle;
   HOp kk_sphericart;
   grow bYgs (3*num*num_lm) [(3*num*num_lm)%nat];
   HOp (copy_view bYgs bYg);
   HRun kk_unshuffle;
   HRun (kk_normalize bY (num*num_lm));
   HRun (kk_normalize bYg (3*num*num_lm))].

(** mace_kokkos.cpp:307-350 compute_A0 *)
Definition kk_A0_kernel : prog N unit :=
  fn <~ lift (first_neigh num_nodes num_neigh) ;;
  par_for (num_nodes * num_lm) (fun rank =>
    let i := (rank / num_lm)%nat in
    let lm := (rank mod num_lm)%nat in
    let l := Nat.sqrt lm in
    nn <~ lift (rd num_neigh i) ;;
    i0 <~ lift (rd fn i) ;;
    par_for K (fun k => for_p nn (fun j _ =>
      let ij := (i0 + j)%nat in
      Y_ij_lm <~ get bY [(ij*num_lm+lm)%nat] ;;
      rv <~ get bR0 [ij; (l*K+k)%nat] ;;
      plus_eq bA0 [i; lm; k] (rv * Y_ij_lm)) tt)).
Definition kk_compute_A0 : list (hcmd N) :=
  [hop (fun m => if (extent m bA0 0 =? num_nodes)%nat then m else realloc bA0 [num_nodes; num_lm; K] m);
   zero bA0;
   HRun kk_A0_kernel].

(** mace_kokkos.cpp:352-419 reverse_A0 *)
Definition kk_reverse_A0_kernel : prog N unit :=
  fn <~ lift (first_neigh num_nodes num_neigh) ;;
  par_for num_nodes (fun i =>
    i0 <~ lift (rd fn i) ;;
    nn <~ lift (rd num_neigh i) ;;
    for_p nn (fun j _ =>
      let ij := (i0 + j)%nat in
      r_ij <~ lift (rd r ij) ;;
      x <~ lift (rd xyz (3*ij)%nat) ;; let x_ij := x / r_ij in
      y <~ lift (rd xyz (3*ij+1)%nat) ;; let y_ij := y / r_ij in
      z <~ lift (rd xyz (3*ij+2)%nat) ;; let z_ij := z / r_ij in
      f <~ par_reduce3 [i; j] num_lm (fun lm =>
        let l := Nat.sqrt lm in
        t <~ par_reduce2 [i; j; lm] K (fun k =>
          d <~ get bR0d [ij; (l*K+k)%nat] ;;
          a <~ get bA0a [i; lm; k] ;;
          v <~ get bR0 [ij; (l*K+k)%nat] ;;
          Ret (d * a, v * a)) ;;
        Y <~ get bY [(ij*num_lm+lm)%nat] ;;
        gx <~ get bYg [(3*ij*num_lm+lm)%nat] ;;
        gy <~ get bYg [(3*ij*num_lm+(num_lm+lm))%nat] ;;
        gz <~ get bYg [(3*ij*num_lm+(2*num_lm+lm))%nat] ;;
        Ret (fst t * x_ij * Y + snd t * gx, fst t * y_ij * Y + snd t * gy, fst t * z_ij * Y + snd t * gz)) ;;
      _ <~ minus_eq bF [(3*ij)%nat] (fst (fst f)) ;;
      _ <~ minus_eq bF [(3*ij+1)%nat] (snd (fst f)) ;;
      minus_eq bF [(3*ij+2)%nat] (snd f)) tt).
Definition kk_reverse_A0 : list (hcmd N) := [HRun kk_reverse_A0_kernel].

(** mace_kokkos.cpp:421-475 compute_A0_scaled and 1109-1165 compute_A1_scaled: [bA] is A0 or A1, [bv] the values *)
Definition kk_scale_kernel (bA bv : buf) : prog N unit :=
  fn <~ lift (first_neigh num_nodes num_neigh) ;;
  par_for num_nodes (fun i =>
    nn <~ lift (rd num_neigh i) ;;
    i0 <~ lift (rd fn i) ;;
    s <~ par_reduce [i] nn (fun j => get bv [(i0 + j)%nat; 0]) ;;
    let scale := s + none in
    par_for (num_lm * K) (fun lmk =>
      v <~ get bA [i; (lmk / K)%nat; (lmk mod K)%nat] ;;
      put bA [i; (lmk / K)%nat; (lmk mod K)%nat] (v / scale))).
(** mace_kokkos.cpp:477-548 reverse_A0_scaled and 1167-1239 reverse_A1_scaled *)
Definition kk_reverse_scale_kernel (bA bAa bv bd : buf) : prog N unit :=
  fn <~ lift (first_neigh num_nodes num_neigh) ;;
  par_for num_nodes (fun i =>
    nn <~ lift (rd num_neigh i) ;;
    i0 <~ lift (rd fn i) ;;
    s <~ par_reduce [i; 0] nn (fun j => get bv [(i0 + j)%nat; 0]) ;;
    let scale := s + none in
    dot <~ par_reduce [i; 1] (num_lm * K) (fun lmk =>
      a <~ get bAa [i; (lmk / K)%nat; (lmk mod K)%nat] ;;
      v <~ get bA [i; (lmk / K)%nat; (lmk mod K)%nat] ;;
      Ret (a * v)) ;;
    _ <~ par_for nn (fun j =>
      let ij := (i0 + j)%nat in
      rij <~ lift (rd r ij) ;;
      d <~ get bd [ij; 0] ;;
      x <~ lift (rd xyz (3*ij)%nat) ;;
      _ <~ plus_eq bF [(3*ij)%nat] (dot / scale * d * x / rij) ;;
      y <~ lift (rd xyz (3*ij+1)%nat) ;;
      _ <~ plus_eq bF [(3*ij+1)%nat] (dot / scale * d * y / rij) ;;
      z <~ lift (rd xyz (3*ij+2)%nat) ;;
      plus_eq bF [(3*ij+2)%nat] (dot / scale * d * z / rij)) ;;
    par_for (num_lm * K) (fun lmk =>
      v <~ get bAa [i; (lmk / K)%nat; (lmk mod K)%nat] ;;
      put bAa [i; (lmk / K)%nat; (lmk mod K)%nat] (v / scale))).
Definition kk_compute_A0_scaled : list (hcmd N) :=
  if k_A0_scaled km then
    [grow2 bA0v bA0d 1;
     HRun (kk_evaluate (k_A0_splines km) num_nodes node_types num_neigh neigh_types r bA0v bA0d);
     HRun (kk_scale_kernel bA0 bA0v)]
  else [].
Definition kk_reverse_A0_scaled : list (hcmd N) :=
  if k_A0_scaled km then [HRun (kk_reverse_scale_kernel bA0 bA0a bA0v bA0d)] else [].
Definition kk_compute_A1_scaled : list (hcmd N) :=
  if k_A1_scaled km then
    [grow2 bA1v bA1d 1;
     HRun (kk_evaluate (k_A1_splines km) num_nodes node_types num_neigh neigh_types r bA1v bA1d);
     HRun (kk_scale_kernel bA1 bA1v)]
  else [].
Definition kk_reverse_A1_scaled : list (hcmd N) :=
  if k_A1_scaled km then [HRun (kk_reverse_scale_kernel bA1 bA1a bA1v bA1d)] else [].

(** mace_kokkos.cpp:587-639 compute_M0 *)
Definition coeff_ext1 (v : view) : nat := nth 1 (v_ext v) 0.
Definition kk_M0_kernel : prog N unit :=
  par_for (num_nodes * num_LM) (fun rank =>
    let i := (rank / num_LM)%nat in
    let LM := (rank mod num_LM)%nat in
    coeff <~ lift (rd (k_M0_poly_coeff km) LM) ;;
    spec <~ lift (rd (k_M0_poly_spec km) LM) ;;
    type_i <~ lift (rd node_types i) ;;
    _ <~ par_for num_lm (fun lm => par_for K (fun k =>
      a <~ get bA0 [i; lm; k] ;;
      _ <~ put (bM0v LM) [i; lm; k] a ;;
      c <~ lift (vget coeff [type_i; lm; k]) ;;
      v <~ get (bM0v LM) [i; lm; k] ;;
      atomic_add bM0 [i; LM; k] (c * v))) ;;
    par_for K (fun k => for_p (length spec) (fun p _ =>
      e <~ lift (rd spec p) ;;
      v0 <~ get (bM0v LM) [i; fst e; k] ;;
      v1 <~ get (bM0v LM) [i; snd e; k] ;;
      _ <~ put (bM0v LM) [i; (num_lm + p)%nat; k] (v0 * v1) ;;
      c <~ lift (vget coeff [type_i; (num_lm + p)%nat; k]) ;;
      v <~ get (bM0v LM) [i; (num_lm + p)%nat; k] ;;
      plus_eq bM0 [i; LM; k] (c * v)) tt)).
Definition grow_uninit (b : buf) (n : nat) (ext : list nat) : hcmd N :=
  hop (fun m => if (extent m b 0 <? n)%nat then realloc_uninit (junk m) b ext m else m).
Definition M0_ext (LM : nat) : list nat :=
  [num_nodes; match rd (k_M0_poly_coeff km) LM with Some v => coeff_ext1 v | None => 0 end; K].
Definition kk_compute_M0 : list (hcmd N) :=
  [grow bM0 num_nodes [num_nodes; num_LM; K]; zero bM0]
  ++ map (fun LM => grow_uninit (bM0v LM) num_nodes (M0_ext LM)) (seq 0 num_LM)
  ++ [HRun kk_M0_kernel].

(** mace_kokkos.cpp:683-744 reverse_M0; the backward loop runs p = size-1, ..., 0 *)
Definition kk_reverse_M0_kernel : prog N unit :=
  par_for (num_nodes * num_LM) (fun rank =>
    let i := (rank / num_LM)%nat in
    let LM := (rank mod num_LM)%nat in
    coeff <~ lift (rd (k_M0_poly_coeff km) LM) ;;
    spec <~ lift (rd (k_M0_poly_spec km) LM) ;;
    type_i <~ lift (rd node_types i) ;;
    _ <~ par_for (coeff_ext1 coeff) (fun p => par_for K (fun k =>
      c <~ lift (vget coeff [type_i; p; k]) ;;
      put (bM0j LM) [i; p; k] c)) ;;
    _ <~ par_for K (fun k => for_p (length spec) (fun q _ =>
      let p := (length spec - 1 - q)%nat in
      e <~ lift (rd spec p) ;;
      a <~ get (bM0j LM) [i; (num_lm + p)%nat; k] ;;
      v1 <~ get (bM0v LM) [i; snd e; k] ;;
      _ <~ plus_eq (bM0j LM) [i; fst e; k] (a * v1) ;;
      a <~ get (bM0j LM) [i; (num_lm + p)%nat; k] ;;
      v0 <~ get (bM0v LM) [i; fst e; k] ;;
      plus_eq (bM0j LM) [i; snd e; k] (a * v0)) tt) ;;
    par_for num_lm (fun lm => par_for K (fun k =>
      a <~ get (bM0j LM) [i; lm; k] ;;
      ma <~ get bM0a [i; LM; k] ;;
      atomic_add bA0a [i; lm; k] (a * ma)))).
Definition kk_reverse_M0 : list (hcmd N) :=
  [hop (fun m => if (extent m bA0a 0 <? num_nodes)%nat then realloc bA0a (dims m bA0) m else m); zero bA0a]
  ++ map (fun LM => grow_uninit (bM0j LM) num_nodes (M0_ext LM)) (seq 0 num_LM)
  ++ [HRun kk_reverse_M0_kernel].

(** mace_kokkos.cpp:747-773 compute_H1 *)
Definition kk_H1_kernel : prog N unit :=
  par_for (num_nodes * (L_max + 1)) (fun rank =>
    let i := (rank / (L_max + 1))%nat in
    let l := (rank mod (L_max + 1))%nat in
    par_for (2*l+1) (fun mm => par_for K (fun k =>
      s <~ for_p K (fun kp s =>
        a <~ get bM0 [i; (l*l+mm)%nat; kp] ;;
        w <~ lift (vget (k_H1_weights km) [l; kp; k]) ;;
        Ret (s + a * w)) nzero ;;
      put bH1 [i; (l*l+mm)%nat; k] s))).
Definition kk_compute_H1 : list (hcmd N) := [grow_like bH1 bM0; HRun kk_H1_kernel].

(** mace_kokkos.cpp:775-801 reverse_H1 *)
Definition kk_reverse_H1_kernel : prog N unit :=
  par_for (num_nodes * (L_max + 1)) (fun rank =>
    let i := (rank / (L_max + 1))%nat in
    let l := (rank mod (L_max + 1))%nat in
    par_for (2*l+1) (fun mm => par_for K (fun k =>
      s <~ for_p K (fun kp s =>
        a <~ get bH1a [i; (l*l+mm)%nat; kp] ;;
        w <~ lift (vget (k_H1_weights km) [l; k; kp]) ;;
        Ret (s + a * w)) nzero ;;
      put bM0a [i; (l*l+mm)%nat; k] s))).
Definition kk_reverse_H1 : list (hcmd N) := [grow_like bM0a bM0; HRun kk_reverse_H1_kernel].

(** mace_kokkos.cpp:803-905 compute_Phi1 *)
Definition kk_Phi1r_kernel : prog N unit :=
  fn <~ lift (first_neigh num_nodes num_neigh) ;;
  par_for (num_nodes * k_num_lelm1lm2 km) (fun rank =>
    let i := (rank / k_num_lelm1lm2 km)%nat in
    let c := (rank mod k_num_lelm1lm2 km)%nat in
    i0 <~ lift (rd fn i) ;;
    lm1 <~ lift (rd (k_Phi1_lm1 km) c) ;;
    lm2 <~ lift (rd (k_Phi1_lm2 km) c) ;;
    lel1l2 <~ lift (rd (k_Phi1_lel1l2 km) c) ;;
    _ <~ par_for K (fun k => put bScr [i; c; k] nzero) ;;
    nn <~ lift (rd num_neigh i) ;;
    _ <~ par_for K (fun k => for_p nn (fun j _ =>
      let ij := (i0 + j)%nat in
      rv <~ get bR1 [ij; (lel1l2*K+k)%nat] ;;
      y <~ get bY [(ij*num_lm+lm1)%nat] ;;
      nb <~ lift (rd neigh_indices ij) ;;
      h <~ get bH1 [nb; lm2; k] ;;
      plus_eq bScr [i; c; k] (rv * y * h)) tt) ;;
    par_for K (fun k =>
      v <~ get bScr [i; c; k] ;;
      put bP1r [i; c; k] v)).
Definition kk_Phi1_kernel : prog N unit :=
  par_for num_nodes (fun i => par_for K (fun k => for_p (length (k_Phi1_clebsch_gordan km)) (fun p _ =>
    C <~ lift (rd (k_Phi1_clebsch_gordan km) p) ;;
    lme <~ lift (rd (k_Phi1_lme km) p) ;;
    c <~ lift (rd (k_Phi1_lelm1lm2 km) p) ;;
    v <~ get bP1r [i; c; k] ;;
    plus_eq bP1 [i; lme; k] (C * v)) tt)).
Definition kk_compute_Phi1 : list (hcmd N) :=
  [grow bP1r num_nodes [num_nodes; k_num_lelm1lm2 km; K];
   grow bP1 num_nodes [num_nodes; k_num_lme km; K];
   zero bP1r; zero bP1;
   HRun kk_Phi1r_kernel; HRun kk_Phi1_kernel].

(** mace_kokkos.cpp:907-1026 reverse_Phi1 *)
Definition kk_reverse_Phi1_kernel : prog N unit :=
  par_for num_nodes (fun i => par_for K (fun k => for_p (length (k_Phi1_clebsch_gordan km)) (fun p _ =>
    C <~ lift (rd (k_Phi1_clebsch_gordan km) p) ;;
    c <~ lift (rd (k_Phi1_lelm1lm2 km) p) ;;
    lme <~ lift (rd (k_Phi1_lme km) p) ;;
    v <~ get bdP1 [i; lme; k] ;;
    plus_eq bdP1r [i; c; k] (C * v)) tt)).
Definition kk_reverse_Phi1r_kernel : prog N unit :=
  fn <~ lift (first_neigh num_nodes num_neigh) ;;
  par_for num_nodes (fun i =>
    i0 <~ lift (rd fn i) ;;
    nn <~ lift (rd num_neigh i) ;;
    for_p nn (fun j _ =>
      let ij := (i0 + j)%nat in
      f <~ par_reduce3 [i; j] (k_num_lelm1lm2 km) (fun c =>
        lm1 <~ lift (rd (k_Phi1_lm1 km) c) ;;
        lm2 <~ lift (rd (k_Phi1_lm2 km) c) ;;
        lel1l2 <~ lift (rd (k_Phi1_lel1l2 km) c) ;;
        t <~ par_reduce2 [i; j; c] K (fun k =>
          d <~ get bR1d [ij; (lel1l2*K+k)%nat] ;;
          nb <~ lift (rd neigh_indices ij) ;;
          h <~ get bH1 [nb; lm2; k] ;;
          dp <~ get bdP1r [i; c; k] ;;
          v <~ get bR1 [ij; (lel1l2*K+k)%nat] ;;
          y <~ get bY [(ij*num_lm+lm1)%nat] ;;
          _ <~ atomic_add bH1a [nb; lm2; k] (v * y * dp) ;;
          Ret (d * h * dp, v * h * dp)) ;;
        rij <~ lift (rd r ij) ;;
        x <~ lift (rd xyz (3*ij)%nat) ;;
        y <~ lift (rd xyz (3*ij+1)%nat) ;;
        z <~ lift (rd xyz (3*ij+2)%nat) ;;
        Y <~ get bY [(ij*num_lm+lm1)%nat] ;;
        gx <~ get bYg [(3*ij*num_lm+lm1)%nat] ;;
        gy <~ get bYg [((3*ij+1)*num_lm+lm1)%nat] ;;
        gz <~ get bYg [((3*ij+2)*num_lm+lm1)%nat] ;;
        Ret (fst t * x / rij * Y + snd t * gx, fst t * y / rij * Y + snd t * gy, fst t * z / rij * Y + snd t * gz)) ;;
      _ <~ minus_eq bF [(3*ij)%nat] (fst (fst f)) ;;
      _ <~ minus_eq bF [(3*ij+1)%nat] (snd (fst f)) ;;
      minus_eq bF [(3*ij+2)%nat] (snd f)) tt).
Definition grow_resize (b : buf) (need : mem N -> nat) (ext : mem N -> list nat) : hcmd N :=
  hop (fun m => if (extent m b 0 <? need m)%nat then resize_view b (ext m) m else m).
Definition kk_reverse_Phi1 (zero_dxyz zero_H1_adj : bool) : list (hcmd N) :=
  [grow_like bdP1r bP1r;
   grow_resize bF (fun _ => length xyz) (fun _ => [length xyz]);
   grow_resize bH1a (fun m => extent m bH1 0) (fun m => dims m bH1)]
  ++ (if zero_dxyz then [zero bF] else [])
  ++ [zero bdP1r]
  ++ (if zero_H1_adj then [zero bH1a] else [])
  ++ [HRun kk_reverse_Phi1_kernel; HRun kk_reverse_Phi1r_kernel].

(** mace_kokkos.cpp:1043-1053 and 1077-1087: first row and number of paths of the block of l *)
Definition kk_block (l : nat) : option (nat * nat) :=
  for_ (length (k_Phi1_l km)) (fun p '(lme, num_eta) =>
    ll <- rd (k_Phi1_l km) p ;;
    let lme := if (ll <? l)%nat then (lme + (2*ll+1))%nat else lme in
    Some (lme, if (ll =? l)%nat then (num_eta + 1)%nat else num_eta)) (0, 0)%nat.
(** mace_kokkos.cpp:1028-1064 compute_A1; entry (mm, p) of the unmanaged view at Phi1(i,lme,0) *)
Definition kk_A1_kernel : prog N unit :=
  par_for (num_nodes * (l_max + 1)) (fun rank =>
    let i := (rank / (l_max + 1))%nat in
    let l := (rank mod (l_max + 1))%nat in
    b <~ lift (kk_block l) ;;
    let '(lme, num_eta) := b in
    W <~ lift (rd (k_A1_weights km) l) ;;
    par_for (2*l+1) (fun mm => par_for K (fun k =>
      s <~ for_p (num_eta * K) (fun p s =>
        a <~ get bP1 [i; (lme + mm*num_eta + p/K)%nat; (p mod K)%nat] ;;
        w <~ lift (vget W [p; k]) ;;
        Ret (s + a * w)) nzero ;;
      put bA1 [i; (l*l+mm)%nat; k] s))).
Definition kk_compute_A1 : list (hcmd N) :=
  [grow bA1 num_nodes [num_nodes; num_lm; K]; HRun kk_A1_kernel].
(** mace_kokkos.cpp:1066-1107 reverse_A1 *)
Definition kk_reverse_A1_kernel : prog N unit :=
  par_for (num_nodes * (l_max + 1)) (fun rank =>
    let i := (rank / (l_max + 1))%nat in
    let l := (rank mod (l_max + 1))%nat in
    b <~ lift (kk_block l) ;;
    let '(lme, num_eta) := b in
    W <~ lift (rd (k_A1_weights_trans km) l) ;;
    par_for (2*l+1) (fun mm => par_for (num_eta * K) (fun p =>
      s <~ for_p K (fun kp s =>
        a <~ get bA1a [i; (l*l+mm)%nat; kp] ;;
        w <~ lift (vget W [kp; p]) ;;
        Ret (s + a * w)) nzero ;;
      put bdP1 [i; (lme + mm*num_eta + p/K)%nat; (p mod K)%nat] s))).
Definition kk_reverse_A1 : list (hcmd N) :=
  [grow bdP1 num_nodes [num_nodes; k_num_lme km; K]; HRun kk_reverse_A1_kernel].

(** mace_kokkos.cpp:1274-1320 compute_M1 *)
Definition kk_M1_kernel : prog N unit :=
  par_for num_nodes (fun i =>
    let coeff := k_M1_poly_coeff km in
    let spec := k_M1_poly_spec km in
    type_i <~ lift (rd node_types i) ;;
    _ <~ par_for num_lm (fun p => par_for K (fun k =>
      a <~ get bA1 [i; p; k] ;;
      _ <~ put bM1v [i; p; k] a ;;
      c <~ lift (vget coeff [type_i; p; k]) ;;
      v <~ get bM1v [i; p; k] ;;
      atomic_add bM1 [i; k] (c * v))) ;;
    par_for K (fun k => for_p (length spec) (fun p _ =>
      e <~ lift (rd spec p) ;;
      v0 <~ get bM1v [i; fst e; k] ;;
      v1 <~ get bM1v [i; snd e; k] ;;
      _ <~ put bM1v [i; (num_lm + p)%nat; k] (v0 * v1) ;;
      c <~ lift (vget coeff [type_i; (num_lm + p)%nat; k]) ;;
      v <~ get bM1v [i; (num_lm + p)%nat; k] ;;
      plus_eq bM1 [i; k] (c * v)) tt)).
Definition kk_compute_M1 : list (hcmd N) :=
  [grow bM1 num_nodes [num_nodes; K];
   grow bM1v num_nodes [num_nodes; (num_lm + length (k_M1_poly_spec km))%nat; K];
   zero bM1;
   HRun kk_M1_kernel].
(** mace_kokkos.cpp:1361-1417 reverse_M1 *)
Definition kk_reverse_M1_kernel : prog N unit :=
  par_for num_nodes (fun i =>
    let coeff := k_M1_poly_coeff km in
    let spec := k_M1_poly_spec km in
    type_i <~ lift (rd node_types i) ;;
    _ <~ par_for (coeff_ext1 coeff) (fun p => par_for K (fun k =>
      c <~ lift (vget coeff [type_i; p; k]) ;;
      put bM1j [i; p; k] c)) ;;
    _ <~ par_for K (fun k => for_p (length spec) (fun q _ =>
      let p := (length spec - 1 - q)%nat in
      e <~ lift (rd spec p) ;;
      a <~ get bM1j [i; (num_lm + p)%nat; k] ;;
      v1 <~ get bM1v [i; snd e; k] ;;
      _ <~ plus_eq bM1j [i; fst e; k] (a * v1) ;;
      a <~ get bM1j [i; (num_lm + p)%nat; k] ;;
      v0 <~ get bM1v [i; fst e; k] ;;
      plus_eq bM1j [i; snd e; k] (a * v0)) tt) ;;
    par_for num_lm (fun lm => par_for K (fun k =>
      a <~ get bM1j [i; lm; k] ;;
      ma <~ get bM1a [i; k] ;;
      put bA1a [i; lm; k] (a * ma)))).
Definition kk_reverse_M1 : list (hcmd N) :=
  [hop (fun m => if (extent m bA1a 0 <? num_nodes)%nat then realloc bA1a (dims m bA1) m else m);
   zero bA1a;
   grow bM1j num_nodes [num_nodes; coeff_ext1 (k_M1_poly_coeff km); K];
   HRun kk_reverse_M1_kernel].

(** mace_kokkos.cpp:1419-1455 compute_H2 *)
Definition kk_H2_kernel_1 : prog N unit :=
  par_for (num_nodes * K) (fun ik =>
    let i := (ik / K)%nat in let k := (ik mod K)%nat in
    for_p K (fun kp _ =>
      type_i <~ lift (rd node_types i) ;;
      w <~ lift (vget (k_H2_weights_for_H1 km) [type_i; (kp*K+k)%nat]) ;;
      h <~ get bH1 [i; 0; kp] ;;
      plus_eq bH2 [i; k] (w * h)) tt).
Definition kk_H2_kernel_2 : prog N unit :=
  par_for (num_nodes * K) (fun ik =>
    let i := (ik / K)%nat in let k := (ik mod K)%nat in
    for_p K (fun kp _ =>
      w <~ lift (rd (k_H2_weights_for_M1 km) (kp*K+k)%nat) ;;
      v <~ get bM1 [i; kp] ;;
      plus_eq bH2 [i; k] (w * v)) tt).
(** [if (b.extent(0) < num_nodes or b.extent(1) != num_channels) realloc] (1422, 1495) *)
Definition grow_K (b : buf) : hcmd N :=
  hop (fun m => if ((extent m b 0 <? num_nodes) || negb (extent m b 1 =? K))%nat%bool
                then realloc b [num_nodes; K] m else m).
Definition kk_compute_H2 : list (hcmd N) := [grow_K bH2; zero bH2; HRun kk_H2_kernel_1; HRun kk_H2_kernel_2].
(** mace_kokkos.cpp:1457-1488 reverse_H2 *)
Definition kk_reverse_H2_kernel : prog N unit :=
  par_for (num_nodes * K) (fun ik =>
    let i := (ik / K)%nat in let k := (ik mod K)%nat in
    for_p K (fun kp _ =>
      type_i <~ lift (rd node_types i) ;;
      w <~ lift (vget (k_H2_weights_for_H1 km) [type_i; (k*K+kp)%nat]) ;;
      g <~ get bH2a [i; kp] ;;
      _ <~ plus_eq bH1a [i; 0; k] (w * g) ;;
      w <~ lift (rd (k_H2_weights_for_M1 km) (k*K+kp)%nat) ;;
      g <~ get bH2a [i; kp] ;;
      plus_eq bM1a [i; k] (w * g)) tt).
Definition kk_reverse_H2 (zero_H1_adj : bool) : list (hcmd N) :=
  [grow_resize bH1a (fun m => extent m bH1 0) (fun m => dims m bH1); grow_like bM1a bM1]
  ++ (if zero_H1_adj then [zero bH1a] else [])
  ++ [zero bM1a; HRun kk_reverse_H2_kernel].

(** ** MultilayerPerceptronKokkos *)
(** multilayer_perceptron_kokkos.cpp:86-171 evaluate_gradient.  [x] = H2 and the results f = readout_2_output,
    g = H2_adj are the first num_nodes rows of these views (subviews made at mace_kokkos.cpp:1525-1527).
    The number of columns of node_derivatives(l) is shape(l) (set just before). *)
Definition kk_mlp_kernel (p2 : kmlp) : prog N unit :=
  let shape := kl_shape p2 in
  let n := length shape in
  par_for num_nodes (fun i =>
    (* forward *)
    _ <~ for_p (n - 1) (fun l _ =>
      w <~ lift (rd (kl_weights p2) l) ;;
      _ <~ par_for (nth 0 (v_ext w) 0) (fun p => for_p (nth 1 (v_ext w) 0) (fun q _ =>
        wv <~ lift (vget w [p; q]) ;;
        x <~ get (bNv l) [i; q] ;;
        plus_eq (bNv (l+1)) [i; p] (wv * x)) tt) ;;
      if (l =? n - 2)%nat then Ret tt else
      sh <~ lift (rd shape (l+1)%nat) ;;
      par_for sh (fun j =>
        v <~ get (bNv (l+1)) [i; j] ;;
        put (bNv (l+1)) [i; j] (kl_scale p2 * v / (none + nexp (- v))))) tt ;;
    (* reverse *)
    sh <~ lift (rd shape (n-2)%nat) ;;
    w <~ lift (rd (kl_weights p2) (n-2)%nat) ;;
    _ <~ par_for sh (fun p =>
      wv <~ lift (vget w [0; p]) ;;
      put (bNd (n-2)) [i; p] wv) ;;
    for_p (n - 2) (fun l' _ =>
      let l := (n - 3 - l')%nat in
      w <~ lift (rd (kl_weights p2) l) ;;
      _ <~ par_for (nth 0 (v_ext w) 0) (fun p =>
        _ <~ put (bNv (l+1)) [i; p] nzero ;;
        for_p (nth 1 (v_ext w) 0) (fun q _ =>
          wv <~ lift (vget w [p; q]) ;;
          x <~ get (bNv l) [i; q] ;;
          plus_eq (bNv (l+1)) [i; p] (wv * x)) tt) ;;
      sh <~ lift (rd shape (l+1)%nat) ;;
      _ <~ par_for sh (fun j =>
        x <~ get (bNv (l+1)) [i; j] ;;
        let sigmoid := none / (none + nexp (- x)) in
        d <~ get (bNd (l+1)) [i; j] ;;
        put (bNd (l+1)) [i; j] (d * (kl_scale p2 * sigmoid + kl_scale p2 * x * sigmoid * (none - sigmoid)))) ;;
      par_for (nth 1 (v_ext w) 0) (fun p =>
        _ <~ put (bNd l) [i; p] nzero ;;
        for_p (nth 0 (v_ext w) 0) (fun q _ =>
          wv <~ lift (vget w [q; p]) ;;
          d <~ get (bNd (l+1)) [i; q] ;;
          plus_eq (bNd l) [i; p] (wv * d)) tt)) tt).
Definition mlp_alloc (b : buf) (sh : nat) : list (hcmd N) :=
  [hop (fun m => if (negb (extent m b 0 =? num_nodes) || negb (extent m b 1 =? sh))%nat%bool
                 then realloc_uninit (junk m) b [num_nodes; sh] m else m); zero b].
(** deep_copy of the first num_nodes rows of [src] into [dst] *)
Definition copy_rows (dst src : buf) (cols : nat) : hcmd N :=
  HOp (fun m =>
    check ((num_nodes <=? extent m src 0) && (extent m src 1 =? cols) && (num_nodes <=? extent m dst 0) && (extent m dst 1 =? cols))%nat ;;
    Some (set_view m dst (dims m dst) (fun idx =>
      match idx with
      | [i; j] => if (i <? num_nodes)%nat then val m (src, [i; j]) else val m (dst, idx)
      | _ => val m (dst, idx) end))).
Definition copy_col0 (dst src : buf) : hcmd N :=
  HOp (fun m =>
    check ((num_nodes <=? extent m src 0) && (1 <=? extent m src 1) && (num_nodes <=? extent m dst 0))%nat ;;
    Some (set_view m dst (dims m dst) (fun idx =>
      match idx with
      | [i] => if (i <? num_nodes)%nat then val m (src, [i; 0]) else val m (dst, idx)
      | _ => val m (dst, idx) end))).
Definition kk_mlp_evaluate_gradient (p2 : kmlp) : list (hcmd N) :=
  let shape := kl_shape p2 in
  flat_map (fun l => mlp_alloc (bNv l) (nth l shape 0) ++ mlp_alloc (bNd l) (nth l shape 0)) (seq 0 (length shape))
  ++ [copy_rows (bNv 0) bH2 (nth 0 shape 0);
      HRun (kk_mlp_kernel p2);
      copy_col0 bRo (bNv (length shape - 1));
      copy_rows bH2a (bNd 0) (nth 0 shape 0)].

(** mace_kokkos.cpp:1490-1544 compute_readouts *)
Definition kk_readout_0_kernel : prog N unit :=
  par_for num_nodes (fun i =>
    type_i <~ lift (rd node_types i) ;;
    e0 <~ lift (rd (k_atomic_energies km) type_i) ;;
    plus_eq bE [i] e0).
Definition kk_readout_1_kernel : prog N unit :=
  par_for num_nodes (fun i => for_p K (fun k _ =>
    w <~ lift (rd (k_readout_1_weights km) k) ;;
    h <~ get bH1 [i; 0; k] ;;
    _ <~ plus_eq bE [i] (w * h) ;;
    put bH1a [i; 0; k] w) tt).
Definition kk_readout_2_kernel : prog N unit :=
  par_for num_nodes (fun i => v <~ get bRo [i] ;; plus_eq bE [i] v).
Definition kk_energy_kernel : prog N unit :=
  _ <~ par_reduce [] num_nodes (fun i => get bE [i]) ;; Ret tt.
Definition kk_compute_readouts : list (hcmd N) :=
  [grow_like bH1a bH1; grow_K bH2a; grow bRo num_nodes [num_nodes]; zero bH1a;
   HRun kk_readout_0_kernel; HRun kk_readout_1_kernel]
  ++ kk_mlp_evaluate_gradient (k_readout_2 km)
  ++ [HRun kk_readout_2_kernel; HRun kk_energy_kernel].

(** mace_kokkos.cpp:50-100 compute_node_energies_forces *)
Definition kk_compute_node_energies_forces : list (hcmd N) :=
  [grow bE num_nodes [num_nodes]; grow bF (length xyz) [length xyz]; zero bE; zero bF]
  ++ (if k_has_zbl km
      then [HRun (kk_ZBL (k_zbl km) num_nodes node_types num_neigh neigh_types (k_atomic_numbers km) r xyz)] else [])
  ++ kk_compute_R0 ++ kk_compute_R1 ++ kk_compute_Y
  ++ kk_compute_A0 ++ kk_compute_A0_scaled ++ kk_compute_M0 ++ kk_compute_H1
  ++ kk_compute_Phi1 ++ kk_compute_A1 ++ kk_compute_A1_scaled ++ kk_compute_M1 ++ kk_compute_H2
  ++ kk_compute_readouts
  ++ kk_reverse_H2 false ++ kk_reverse_M1 ++ kk_reverse_A1_scaled ++ kk_reverse_A1 ++ kk_reverse_Phi1 false false
  ++ kk_reverse_H1 ++ kk_reverse_M0 ++ kk_reverse_A0_scaled ++ kk_reverse_A0.
End Eval.

(** ** load_from_json *)
(** the four coefficients of a cubic piece (radial_function_set_kokkos.cpp:28-38 and mace_kokkos.cpp:1589-1597) *)
Definition spline_coeff (h : N) (vs ds : list N) (i q : nat) : option N :=
  v0 <- rd vs i ;; d0 <- rd ds i ;; v1 <- rd vs (i+1)%nat ;; d1 <- rd ds (i+1)%nat ;;
  match q with
  | 0 => Some v0
  | 1 => Some d0
  | 2 => Some ((nofZ (-3) * v0 - nofZ 2 * h * d0 + nofZ 3 * v1 - h * d1) / (h * h))
  | _ => Some ((nofZ 2 * v0 + h * d0 - nofZ 2 * v1 + h * d1) / (h * h * h))
  end.
(** radial_function_set_kokkos.cpp:12-42 constructor *)
Definition make_krad (h : N) (values derivs : list (list (list N))) : option krad :=
  v0 <- rd values 0 ;;
  v00 <- rd v0 0 ;;
  check (1 <=? length v00)%nat ;;
  c <- mk_view [length values; (length v00 - 1)%nat; 4; length v0] (fun idx => match idx with
       | [a; i; q; j] =>
         va <- rd values a ;; vs <- rd va j ;;
         da <- rd derivs a ;; ds <- rd da j ;;
         spline_coeff h vs ds i q
       | _ => None end) ;;
  Some (mkKrad h (length values) (length v0) c).
(** mace_kokkos.cpp:1571-1632: the table of R0 with H0_weights and A0_weights multiplied in *)
Definition kk_R0_table (K l_max T : nat) (h : N) (values derivs : list (list (list N))) (H0 : list N)
    (A0 : list (list (list N))) : option view :=
  v0 <- rd values 0 ;;
  v00 <- rd v0 0 ;;
  check (1 <=? length v00)%nat ;;
  mk_view [(T * T)%nat; (length v00 - 1)%nat; 4; ((l_max + 1) * K)%nat] (fun idx => match idx with
  | [ab; i; q; lk] =>
    let a := (ab / T)%nat in let b := (ab mod T)%nat in
    let l := (lk / K)%nat in let k := (lk mod K)%nat in
    let ab_unordered := if (a <=? b)%nat then (tri a T + b)%nat else (tri b T + a)%nat in
    va <- rd values ab_unordered ;;
    da <- rd derivs ab_unordered ;;
    A0_a <- rd A0 a ;;
    A0_al <- rd A0_a l ;;
    for_ K (fun kp s =>
      vs <- rd va (l*K+kp)%nat ;;
      ds <- rd da (l*K+kp)%nat ;;
      c <- spline_coeff h vs ds i q ;;
      w0 <- rd H0 (b*K+kp)%nat ;;
      w <- rd A0_al (kp*K+k)%nat ;;
      Some (s + w * (c * w0))) nzero
  | _ => None end).
(** mace_kokkos.cpp:1667-1678 and 1801-1808: the monomials in a table with 3 columns, filled with -1 *)
Definition monomial_table (ms : list (list nat)) : option (list (list Z)) :=
  for_ (length ms) (fun i tab =>
    mo <- rd ms i ;;
    row <- for_ (length mo) (fun j row => x <- rd mo j ;; wr row j (Z.of_nat x)) (repeat (-1)%Z 3) ;;
    Some (tab ++ [row])) [].
(** multilayer_perceptron_kokkos.cpp:10-39 constructor *)
Definition make_kmlp (shape : list nat) (weights : list (list N)) (scale : N) : option kmlp :=
  ws <- for_ (length shape - 1) (fun l ws =>
    s0 <- rd shape l ;;
    s1 <- rd shape (l+1)%nat ;;
    wl <- rd weights l ;;
    w <- mk_view [s1; s0] (fun idx => match idx with [i; j] => rd wl (i*s0+j)%nat | _ => None end) ;;
    Some (ws ++ [w])) [] ;;
  Some (mkKmlp shape ws scale).
Definition dkrad : krad := mkKrad nzero 0 0 (mkView [] (fun _ => nzero)).

(** mace_kokkos.cpp:1546-1883 load_from_json *)
Definition kk_load_from_json (f : mace_file N) : option kmace :=
  let K := f_num_channels f in
  let l_max := f_l_max f in
  let L_max := f_L_max f in
  let num_lm := ((l_max + 1) * (l_max + 1))%nat in
  let num_LM := ((L_max + 1) * (L_max + 1))%nat in
  let T := length (f_atomic_numbers f) in
  let zbl := mkZBL (f_zbl_a_exp f) (f_zbl_a_prefactor f) (f_zbl_c f) (f_zbl_covalent_radii f) (f_zbl_p f) in
  (* R0, R1 *)
  c0 <- kk_R0_table K l_max T (f_radial_spline_h f) (f_radial_spline_values_0 f) (f_radial_spline_derivs_0 f)
          (f_H0_weights f) (f_A0_weights f) ;;
  radial_1 <- make_krad (f_radial_spline_h f) (f_radial_spline_values_1 f) (f_radial_spline_derivs_1 f) ;;
  A0_splines <- (if f_A0_scaled f
    then make_krad (f_A0_spline_h f) (map (fun v => [v]) (f_A0_spline_values f)) (map (fun v => [v]) (f_A0_spline_derivs f))
    else Some dkrad) ;;
  (* M0 weights and monomials; the two tables are not used by the kernels *)
  _ <- for_ num_LM (fun LM _ =>
    _ <- mk_view [T; K; length (f_M0_monomials f LM)] (fun idx => match idx with
           [a; k; w] => rd (f_M0_weights f a LM k) w | _ => None end) ;;
    _ <- monomial_table (f_M0_monomials f LM) ;;
    Some tt) tt ;;
  (* M0_poly_spec, M0_poly_coeff *)
  M0_poly_spec <- for_ num_LM (fun LM l =>
    P <- make_mpoly srt num_lm (f_M0_weights f 0 LM 0) (f_M0_monomials f LM) ;;
    Some (l ++ [mp_edges P])) [] ;;
  M0_poly_coeff <- for_ num_LM (fun LM l =>
    P <- make_mpoly srt num_lm (f_M0_weights f 0 LM 0) (f_M0_monomials f LM) ;;
    let nc := length (mp_ncoeffs P) in
    Ps <- for_ T (fun a Ps => for_ K (fun k Ps =>
      P <- make_mpoly srt num_lm (f_M0_weights f a LM k) (f_M0_monomials f LM) ;;
      check (length (mp_ncoeffs P) <=? nc)%nat ;;
      Some (Ps ++ [P])) Ps) [] ;;
    v <- mk_view [T; nc; K] (fun idx => match idx with
      [a; p; k] => P <- rd Ps (a*K+k)%nat ;; rd (mp_ncoeffs P) p | _ => None end) ;;
    Some (l ++ [v])) [] ;;
  (* H1 weights *)
  H1_weights <- mk_view [(L_max+1)%nat; K; K] (fun idx => match idx with
    [l; i; j] => rd (f_H1_weights f) ((l*K+i)*K+j)%nat | _ => None end) ;;
  (* Phi1 *)
  num_lme <- for_ (length (f_Phi1_l f)) (fun i s => l <- rd (f_Phi1_l f) i ;; Some (s + (2*l+1))%nat) 0%nat ;;
  num_lelm1lm2 <- for_ (length (f_Phi1_l f)) (fun le s =>
    l1 <- rd (f_Phi1_l1 f) le ;; l2 <- rd (f_Phi1_l2 f) le ;; Some (s + (2*l1+1)*(2*l2+1))%nat) 0%nat ;;
  '(lm1s, lm2s, les) <- for_ (length (f_Phi1_l f)) (fun le st =>
    l1 <- rd (f_Phi1_l1 f) le ;;
    l2 <- rd (f_Phi1_l2 f) le ;;
    for_range (l1*l1) (l1*(l1+2)+1) (fun lm1 st =>
      for_range (l2*l2) (l2*(l2+2)+1) (fun lm2 '(a, b, c) =>
        Some (a ++ [lm1], b ++ [lm2], c ++ [le])) st) st) ([], [], []) ;;
  (* A1 weights *)
  A1_weights <- for_ (l_max+1) (fun l ws =>
    num_eta <- for_ (length (f_Phi1_l f)) (fun i s =>
      ll <- rd (f_Phi1_l f) i ;; Some (if (ll =? l)%nat then s + 1 else s)%nat) 0%nat ;;
    w <- mk_view [(num_eta*K)%nat; K] (fun idx => match idx with
      [i; j] => wl <- rd (f_A1_weights f) l ;; rd wl (i*K+j)%nat | _ => None end) ;;
    Some (ws ++ [w])) [] ;;
  A1_weights_trans <- for_ (l_max+1) (fun l ws =>
    num_eta <- for_ (length (f_Phi1_l f)) (fun i s =>
      ll <- rd (f_Phi1_l f) i ;; Some (if (ll =? l)%nat then s + 1 else s)%nat) 0%nat ;;
    w <- mk_view [K; (num_eta*K)%nat] (fun idx => match idx with
      [j; i] => wl <- rd (f_A1_weights f) l ;; rd wl (i*K+j)%nat | _ => None end) ;;
    Some (ws ++ [w])) [] ;;
  A1_splines <- (if f_A1_scaled f
    then make_krad (f_A1_spline_h f) (map (fun v => [v]) (f_A1_spline_values f)) (map (fun v => [v]) (f_A1_spline_derivs f))
    else Some dkrad) ;;
  (* M1 weights and monomials; the two tables are not used by the kernels *)
  let num_terms := length (f_M1_weights f 0 0) in
  _ <- mk_view [T; K; num_terms] (fun idx => match idx with
         [a; k; w] => rd (f_M1_weights f a k) w | _ => None end) ;;
  check (num_terms <=? length (f_M1_monomials f))%nat ;;
  _ <- monomial_table (firstn num_terms (f_M1_monomials f)) ;;
  P1 <- for_ T (fun a P1 => for_ K (fun k P1 =>
    p <- make_mpoly srt num_lm (f_M1_weights f a k) (f_M1_monomials f) ;;
    Some (P1 ++ [p])) P1) [] ;;
  P1_0 <- rd P1 0 ;;
  M1_poly_coeff <- mk_view [T; (num_lm + length (mp_edges P1_0))%nat; K] (fun idx => match idx with
    [a; p; k] => P <- rd P1 (a*K+k)%nat ;; rd (mp_ncoeffs P) p | _ => None end) ;;
  (* H2, readouts *)
  HH <- mk_view [T; (K*K)%nat] (fun idx => match idx with
    [i; j] => w <- rd (f_H2_weights_for_H1 f) i ;; rd w j | _ => None end) ;;
  readout_2 <- make_kmlp [K; 16; 1]%nat [f_readout_2_weights_1 f; f_readout_2_weights_2 f] (f_readout_2_scale_factor f) ;;
  Some (mkKmace K l_max L_max (f_atomic_numbers f) (f_atomic_energies f) (f_has_zbl f) zbl
          (f_radial_spline_h f) c0 radial_1 (f_A0_scaled f) A0_splines M0_poly_spec M0_poly_coeff H1_weights
          (f_Phi1_l f) (f_Phi1_lme f) (f_Phi1_lelm1lm2 f) (f_Phi1_clebsch_gordan f) num_lme num_lelm1lm2
          lm1s lm2s les A1_weights A1_weights_trans (f_A1_scaled f) A1_splines
          (mp_edges P1_0) M1_poly_coeff HH (f_H2_weights_for_M1 f) (f_readout_1_weights f) readout_2).

(** the views of a new object: default constructed, all extents zero *)
Definition kk_fresh : mem N := mkMem (fun _ => []) (fun _ => nzero).

End Kk.
Arguments view : clear implicits.
Arguments krad : clear implicits.
Arguments kmlp : clear implicits.
Arguments kmace : clear implicits.
