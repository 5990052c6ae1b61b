(** Model of symmetrix/source/symmetrix/extract_mace_data.py: the complete export of a two-layer MACE model.

    - [torch_model] holds what the exporter reads from the PyTorch model (one head, float64).  Weight tensors are flat, row-major lists; the shapes are
      those of e3nn (recorded in [torch_ok], TorchSpec.v).  A view [weight_view_for_instruction(l)] is entry [l] of a list of tensors.
    - [None] is an exception.
    - numpy operations are their defining sums, from left to right.  External functions are parameters: [rank] and [inv] (numpy.linalg), [spl]
      (scipy CubicSpline: values and derivatives at the knots), and inside the record the functions of the PyTorch modules that are only called:
      radial_embedding followed by conv_tp_weights ([t_rad0], [t_rad1]) or by density_fn and tanh of the square ([t_dens0], [t_dens1]) with the indices of
      the two elements, and conv_tp of the second interaction ([t_conv_tp H Y R]).
    - Not modelled: reading the model file, removing heads (lines 39-66), parsing of chemical symbols (45-56), logging, r_cut and num_elements in
      the output (not read by the C++ code). *)
From Coq Require Import List Arith ZArith Bool.
From Verif Require Import Base MaceModel ExportModel ExportPolyModel.
Import ListNotations.
Local Open Scope nat_scope.

(** the classes of interaction blocks that are told apart (lines 71-86, 200, 385) *)
Inductive block := RealAgnostic | RealAgnosticDensity | RealAgnosticResidual | RealAgnosticDensityResidual | OtherBlock.
Definition is_first (b : block) : bool := match b with RealAgnostic | RealAgnosticDensity => true | _ => false end.
Definition is_second (b : block) : bool := match b with RealAgnosticResidual | RealAgnosticDensityResidual => true | _ => false end.
Definition is_density (b : block) : bool := match b with RealAgnosticDensity | RealAgnosticDensityResidual => true | _ => false end.

Section Export.
Context {N : Num}.
Local Open Scope num_scope.

Record zbl_params := mkZblP { zp_a_exp : N; zp_a_prefactor : N; zp_c : list N; zp_covalent_radii : list N; zp_p : Z }.

Record torch_model := mkTorch {
  t_interactions : list block;                   (* model.interactions *)
  t_l_max : nat; t_L_max : nat; t_num_channels : nat; t_r_cut : N;
  t_atomic_numbers : list nat;
  t_atomic_energies : list N; t_shift : N; t_scale : N;
  t_zbl : option (option zbl_params);            (* pair_repulsion_fn; Some None: not a ZBLBasis *)
  t_rad0 : nat -> nat -> N -> list N; t_rad1 : nat -> nat -> N -> list N;
  t_dens0 : nat -> nat -> N -> N; t_dens1 : nat -> nat -> N -> N;
  t_node_embedding : list N;                     (* elements x channels *)
  t_linear_up0 : list N;                         (* channels x channels *)
  t_linear0 : list (list N);                     (* per l: channels x channels *)
  t_skip_tp0 : list (list N);                    (* per l: channels x elements x channels *)
  t_avg_num_neighbors0 : N;
  t_correlation0 : nat; t_U0 : nat -> nat -> nat * list N; t_W0 : nat -> list (list (list (list N))) * list (list (list N));
  t_prod_linear0 : list N;                       (* L x channels x channels *)
  t_linear_up1 : list N;                         (* L x channels x channels *)
  t_paths : list (nat * nat * nat);              (* conv_tp of the second interaction: l, l1 (in2), l2 (in1) *)
  t_conv_tp : list N -> list N -> list N -> list N;
  t_linear1 : list (list N);                     (* per l: (paths of degree l * channels) x channels *)
  t_avg_num_neighbors1 : N;
  t_U1 : nat -> nat * list N; t_W1 : list (list (list (list N))) * list (list (list N));
  t_prod_linear1 : list N;                       (* channels x channels *)
  t_skip_tp1 : list N;                           (* channels x elements x channels *)
  t_readout0 : list N;                           (* channels *)
  t_readout1_1 : list N;                         (* channels x 16 *)
  t_readout1_2 : list N;                         (* 16 *)
  t_cst : N
}.

Variable rank : nat -> list N -> nat.
Variable inv : nat -> list N -> list N.
Variable spl : list N -> list N -> list N * list N.

(** [g(i) for i in range(n)] *)
Definition for_all {A} (n : nat) (g : nat -> A) : list A := map g (seq 0 n).
(** X @ Y for X of shape (a,b) and Y of shape (b,c) *)
Definition matmul (a b c : nat) (X Y : list N) : list N :=
  for_all (a * c) (fun p => fold_left (fun s k => s + nth (p / c * b + k)%nat X nzero * nth (k * c + p mod c)%nat Y nzero) (seq 0 b) nzero).
(** X / s *)
Definition mdiv (X : list N) (s : N) : list N := map (fun v => v / s) X.
(** np.reshape to [size] elements in total *)
Definition reshaped (size : nat) (X : list N) : option (list N) := if length X =? size then Some X else None.
(** a contiguous slice of [n] elements, e.g. w[l,:,:] *)
Definition slice (start n : nat) (X : list N) : list N := firstn n (skipn start X).
(** w[:,v,:] of an array of shape (a,n,c) *)
Definition middle (a n c v : nat) (X : list N) : list N := for_all (a * c) (fun p => nth ((p / c * n + v) * c + p mod c)%nat X nzero).
(** for x in l: out.append(g(x)) *)
Definition append_all {A B} (l : list A) (g : A -> option B) : option (list B) := for_in l (fun x acc => y <- g x ;; Some (acc ++ [y])) [].
(** np.linspace(1e-12, r_cut, n, retstep=True) *)
Definition grid_step (r_cut : N) (n : nat) : N := (r_cut - nlit 1 (10 ^ 12)) / nofnat (n - 1).
Definition grid (r_cut : N) (n : nat) : list N := for_all n (fun i => nlit 1 (10 ^ 12) + nofnat i * grid_step r_cut n).

(** extract_mace_data.py:115-118 atomic_numbers *)
Definition export_numbers (t : torch_model) (species : list nat) : list nat :=
  match sorted species with [] => sorted (t_atomic_numbers t) | l => l end.

(** extract_mace_data.py:119-125 *)
Definition export_energies (t : torch_model) (an : list nat) : option (list N) :=
  append_all an (fun a => i <- py_index (t_atomic_numbers t) a ;; e <- rd (t_atomic_energies t) i ;; Some (e + t_shift t)).

(** extract_mace_data.py:150-173 for one interaction: [g i j r] are the values of all columns; R.shape[1] is [cols] *)
Definition export_radial (t : torch_model) (an : list nat) (n : nat) (cols : nat) (g : nat -> nat -> N -> list N) : option (list (list (list N)) * list (list (list N))) :=
  let r := grid (t_r_cut t) n in
  tabs <- append_all (export_pairs an) (fun '(a_i, a_j) =>
    model_i <- py_index (t_atomic_numbers t) a_i ;;
    model_j <- py_index (t_atomic_numbers t) a_j ;;
    let s := map (fun k => spl r (map (fun x => nth k (g model_i model_j x) nzero) r)) (seq 0 cols) in
    Some (map fst s, map snd s)) ;;
  Some (map fst tabs, map snd tabs).
(** extract_mace_data.py:201-226 and 386-411 *)
Definition export_density (t : torch_model) (an : list nat) (n : nat) (g : nat -> nat -> N -> N) : option (list (list N) * list (list N)) :=
  let r := grid (t_r_cut t) n in
  tabs <- append_all (export_pairs an) (fun '(a_i, a_j) =>
    model_i <- py_index (t_atomic_numbers t) a_i ;;
    model_j <- py_index (t_atomic_numbers t) a_j ;;
    Some (spl r (map (g model_i model_j) r))) ;;
  Some (map fst tabs, map snd tabs).

(** extract_mace_data.py:183-192 *)
Definition export_H0 (t : torch_model) (an : list nat) : option (list N) :=
  let n := length (t_atomic_numbers t) in
  let K := t_num_channels t in
  w0 <- reshaped (n * K) (t_node_embedding t) ;;
  w1 <- reshaped (K * K) (t_linear_up0 t) ;;
  let H0 := mdiv (matmul n K K (mdiv w0 (nsqrt (nofnat n))) w1) (nsqrt (nofnat K)) in
  indices <- append_all an (fun a => py_index (t_atomic_numbers t) a) ;;
  Some (flat_map (fun i => slice (i * K) K H0) indices).

(** extract_mace_data.py:227-237 *)
Definition export_A0 (t : torch_model) (scaled : bool) (an : list nat) : option (list (list (list N))) :=
  let n := length (t_atomic_numbers t) in
  let K := t_num_channels t in
  append_all an (fun a =>
    model_i <- py_index (t_atomic_numbers t) a ;;
    append_all (seq 0 (length (t_skip_tp0 t))) (fun l =>
      w <- rd (t_skip_tp0 t) l ;;
      lin <- rd (t_linear0 t) l ;;
      let w_linear := mdiv lin (nsqrt (nofnat K)) in
      let w_linear := if scaled then w_linear else mdiv w_linear (t_avg_num_neighbors0 t) in
      Some (mdiv (matmul K K K w_linear (middle K n K model_i w)) (nsqrt (nofnat (n * K)))))).

(** extract_mace_data.py:308-318 *)
Definition export_H1 (t : torch_model) : option (list N) :=
  let K := t_num_channels t in
  w0 <- reshaped ((t_L_max t + 1) * K * K) (t_prod_linear0 t) ;;
  w1 <- reshaped ((t_L_max t + 1) * K * K) (t_linear_up1 t) ;;
  let w0 := mdiv w0 (nsqrt (nofnat K)) in
  let w1 := mdiv w1 (nsqrt (nofnat K)) in
  Some (flat_map (fun l => matmul K K K (slice (l * K * K) (K * K) w0) (slice (l * K * K) (K * K) w1)) (seq 0 (t_L_max t + 1))).

(** extract_mace_data.py:354-375: for one pair (l1,m1), (l2,m2) the rows of the coupling that are kept (m1 and m2 counted from -l).
    [Phi_0] of the code is [Phi] at the positions of channel 0. *)
Definition export_coupling_at (t : torch_model) (l1 m1 l2 m2 : nat) : option (list (nat * N * nat)) :=
  let K := t_num_channels t in
  let Phi1_l := map (fun p => fst (fst p)) (t_paths t) in
  let Phi1_l1 := map (fun p => snd (fst p)) (t_paths t) in
  let Phi1_l2 := map snd (t_paths t) in
  let Y := upd (repeat nzero ((t_l_max t + 1) * (t_l_max t + 1))) (l1 * l1 + m1) none in
  let H := upd (repeat nzero ((t_L_max t + 1) * (t_L_max t + 1) * K)) (list_sum (map (fun p => 2 * p + 1)%nat (seq 0 l2)) * K + m2) none in
  let Phi := t_conv_tp t H Y (repeat none (length (t_paths t) * K)) in
  Phi_0 <- for_in (seq 0 (length (t_paths t))) (fun le acc =>
      let start := (list_sum (map (fun p => 2 * nth p Phi1_l 0 + 1)%nat (seq 0 le)) * K)%nat in
      for_in (seq 0 (2 * nth le Phi1_l 0 + 1)) (fun p acc => v <- rd Phi (start + p) ;; Some (acc ++ [v])) acc) [] ;;
  for_in (seq 0 (length (t_paths t))) (fun le acc =>
    let l := nth le Phi1_l 0%nat in
    for_in (seq 0 (2 * l + 1)) (fun m acc =>
      let lem := (list_sum (map (fun j => 2 * nth j Phi1_l 0 + 1)%nat (seq 0 le)) + m)%nat in
      v <- rd Phi_0 lem ;;
      Some (if kept v then
              acc ++ [(Z.to_nat (compute_lme Phi1_l le l (Z.of_nat m - Z.of_nat l)), v,
                       Z.to_nat (compute_lelm1lm2 Phi1_l1 Phi1_l2 le (Z.of_nat m1 - Z.of_nat l1) (Z.of_nat m2 - Z.of_nat l2)))]
            else acc)) acc) [].
(** extract_mace_data.py:350-375: the entries (lme, clebsch_gordan, lelm1lm2) in order *)
Definition export_coupling (t : torch_model) : option (list (nat * N * nat)) :=
  for_in (seq 0 (t_l_max t + 1)) (fun l1 acc => for_in (seq 0 (2 * l1 + 1)) (fun m1 acc =>
    for_in (seq 0 (t_L_max t + 1)) (fun l2 acc => for_in (seq 0 (2 * l2 + 1)) (fun m2 acc =>
      c <- export_coupling_at t l1 m1 l2 m2 ;; Some (acc ++ c)) acc) acc) acc) [].

(** extract_mace_data.py:412-421 *)
Definition export_A1 (t : torch_model) (scaled : bool) : option (list (list N)) :=
  let K := t_num_channels t in
  append_all (seq 0 (t_l_max t + 1)) (fun l =>
    let num_eta := length (filter (fun p => fst (fst p) =? l) (t_paths t)) in
    w <- rd (t_linear1 t) l ;;
    let w_linear := mdiv w (nsqrt (nofnat (num_eta * K))) in
    let w_linear := if scaled then w_linear else mdiv w_linear (t_avg_num_neighbors1 t) in
    reshaped (num_eta * K * K) w_linear).

(** extract_mace_data.py:479-491 *)
Definition export_H2_H1 (t : torch_model) (an : list nat) : option (list (list N)) :=
  let n := length (t_atomic_numbers t) in
  let K := t_num_channels t in
  let weights_to_fuse := mdiv (slice 0 (K * K) (t_linear_up1 t)) (nsqrt (nofnat K)) in
  if rank K weights_to_fuse <? K then None else
  append_all an (fun a =>
    model_i <- py_index (t_atomic_numbers t) a ;;
    Some (matmul K K K (inv K weights_to_fuse) (mdiv (middle K n K model_i (t_skip_tp1 t)) (nsqrt (nofnat (n * K)))))).
(** extract_mace_data.py:492-494 *)
Definition export_H2_M1 (t : torch_model) : list N := mdiv (t_prod_linear1 t) (nsqrt (nofnat (t_num_channels t))).
(** extract_mace_data.py:498-504 *)
Definition export_readout_1 (t : torch_model) : option (list N) :=
  let K := t_num_channels t in
  w <- reshaped ((t_L_max t + 1) * K * K) (mdiv (t_linear_up1 t) (nsqrt (nofnat K))) ;;
  Some (map (fun v => v * t_scale t) (matmul K K 1 (inv K (slice 0 (K * K) w)) (mdiv (t_readout0 t) (nsqrt (nofnat K))))).
(** extract_mace_data.py:508-513: transposed to (16, channels) *)
Definition export_readout_2_1 (t : torch_model) : option (list N) :=
  let K := t_num_channels t in
  w <- reshaped (K * 16) (t_readout1_1 t) ;;
  Some (mdiv (for_all (16 * K) (fun p => nth (p mod K * 16 + p / K)%nat w nzero)) (nsqrt (nofnat K))).
(** extract_mace_data.py:514-516 *)
Definition export_readout_2_2 (t : torch_model) : list N := map (fun v => v / nsqrt (nofnat 16) * t_scale t) (t_readout1_2 t).

(** extract_mace_data.py:19-519.  The output dictionary is the file the C++ code reads (MaceModel.v); entries that are not written (no ZBL, no density
    scaling) are never read and are zero or empty here.  [C[i][lm][k]] is read as a function of its three keys. *)
Definition extract_mace_data (t : torch_model) (species : list nat) (num_spline_points : nat) : option (mace_file N) :=
  match t_interactions t with
  | [b0; b1] =>
    if negb (is_first b0) then None else
    if negb (is_second b1) then None else
    if negb (t_l_max t =? 3) then None else
    let K := t_num_channels t in
    let an := export_numbers t species in
    let mn := t_atomic_numbers t in
    let h := grid_step (t_r_cut t) num_spline_points in
    energies <- export_energies t an ;;
    zbl <- (match t_zbl t with
            | None => Some (false, nzero, nzero, [], [], 0%Z)
            | Some None => None
            | Some (Some z) => Some (true, zp_a_exp z, zp_a_prefactor z, map (fun c => t_scale t * c) (zp_c z), zp_covalent_radii z, zp_p z)
            end) ;;
    let '(has_zbl, a_exp, a_prefactor, c, radii, p) := zbl in
    R0 <- export_radial t an num_spline_points ((t_l_max t + 1) * K) (t_rad0 t) ;;
    R1 <- export_radial t an num_spline_points (length (t_paths t) * K) (t_rad1 t) ;;
    H0 <- export_H0 t an ;;
    D0 <- (if is_density b0 then export_density t an num_spline_points (t_dens0 t) else Some ([], [])) ;;
    A0 <- export_A0 t (is_density b0) an ;;
    M0 <- export_M0 K (t_l_max t) (t_L_max t) (t_correlation0 t) mn an (t_U0 t) (t_W0 t) ;;
    H1 <- export_H1 t ;;
    coupling <- export_coupling t ;;
    D1 <- (if is_density b1 then export_density t an num_spline_points (t_dens1 t) else Some ([], [])) ;;
    A1 <- export_A1 t (is_density b1) ;;
    M1 <- export_M1 K (t_l_max t) mn an (t_U1 t) (t_W1 t) ;;
    H2 <- export_H2_H1 t an ;;
    r1 <- export_readout_1 t ;;
    r2 <- export_readout_2_1 t ;;
    Some (mkFile K (t_l_max t) (t_L_max t) an energies
            has_zbl a_exp a_prefactor c radii p
            h (fst R0) (snd R0) (fst R1) (snd R1)
            H0 A0 (is_density b0) (if is_density b0 then h else nzero) (fst D0) (snd D0)
            (fun i lm k => nth k (nth lm (nth i (fst M0) []) []) []) (fun lm => nth lm (snd M0) [])
            H1 (map (fun p => fst (fst p)) (t_paths t)) (map (fun p => snd (fst p)) (t_paths t)) (map snd (t_paths t))
            (map (fun e => fst (fst e)) coupling) (map (fun e => snd (fst e)) coupling) (map snd coupling)
            A1 (is_density b1) (if is_density b1 then h else nzero) (fst D1) (snd D1)
            (fun i k => nth k (nth i (fst M1) []) []) (snd M1)
            H2 (export_H2_M1 t) r1 r2 (export_readout_2_2 t) (t_cst t))
  | _ => None
  end.
End Export.
Arguments torch_model : clear implicits.
Arguments zbl_params : clear implicits.
