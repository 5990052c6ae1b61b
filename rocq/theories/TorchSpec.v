(** The energy of a two-layer MACE model as the PyTorch modules compute it, layer by layer and before any fusing of weights.
    Only the data of the model ([torch_model]) and the vocabulary of symmetric contractions (ExportPolySpec) and of neighbours (EnergySpec) are used. *)
From Coq Require Import List Arith ZArith Bool Reals Sorted.
From Verif Require Import Base Instances MlpSpec MaceSpec MaceSpec2 ExportPolySpec EnergySpec ExportFullModel.
Import ListNotations.
Local Open Scope R_scope.

(** e3nn Linear on one irrep: [a] input channels, [c] output channels, weights (a, c), normalised by the fan-in *)
Definition linear (a c : nat) (w : list R) (v : nat -> R) (k : nat) : R := sum a (fun q => v q * nth (q * c + k) w 0) / sqrt (INR a).
Definition one_hot (z e : nat) : R := if (e =? z)%nat then 1 else 0.
(** e3nn FullyConnectedTensorProduct of [a] channels with the one-hot vector of element [z] out of [n]: weights (a, n, c) *)
Definition with_element (a n c : nat) (w : list R) (v : nat -> R) (z k : nat) : R :=
  sum a (fun u => sum n (fun e => v u * one_hot z e * nth ((u * n + e) * c + k) w 0)) / sqrt (INR (a * n)).
(** the interpolant that stands for a radial function g: values at the knots 1e-12 + i h, slopes by the spline library, cell of r / h *)
Definition knot_step (r_cut : R) (points : nat) : R := (r_cut - 1 / 10 ^ 12) / INR (points - 1).
Definition knots (r_cut : R) (points : nat) : list R := map (fun i => 1 / 10 ^ 12 + INR i * knot_step r_cut points) (seq 0 points).
Definition interpolant (spl : list R -> list R -> list R * list R) (r_cut : R) (points : nat) (g : R -> R) (r : R) : R :=
  let ks := knots r_cut points in hermite (knot_step r_cut points) (map g ks) (snd (spl ks (map g ks))) r.

Section Torch.
Variable sph : nat -> R -> R -> R -> list R * list R.
Variable spl : list R -> list R -> list R * list R.
Variable points : nat.
Variable t : torch_model RNum.
(** the position in the model of the element of a node type *)
Variable el : nat -> nat.
Variable x : input RNum.
Notation n := (length (t_atomic_numbers t)).
Notation K := (t_num_channels t).
Notation l_max := (t_l_max t).
Notation L_max := (t_L_max t).
Definition zi (i : nat) : nat := el (nth i (i_node_types x) 0%nat).
Definition radial (g : R -> R) (e : nbr) : R := interpolant spl (t_r_cut t) points g (nb_r e).
(** spherical harmonics of an edge, as one list *)
Definition Y (e : nbr) (l m : nat) : R := 2 * sqrt PI * nth (l * l + m) (fst (sph l_max (nb_z e) (nb_x e) (nb_y e))) 0.
Definition by_degree {A} (L : nat) (g : nat -> nat -> A) : list A := flat_map (fun l => map (g l) (seq 0 (2 * l + 1))) (seq 0 (L + 1)).
(** denominator of the messages *)
Definition denominator (b : block) (avg : R) (dens : nat -> nat -> R -> R) (i : nat) : R :=
  if is_density b then 1 + suml (neighbours x i) (fun e => radial (dens (zi i) (el (nb_type e))) e) else avg.

(** first interaction and product *)
Definition up0 (z k : nat) : R := linear K K (t_linear_up0 t) (linear n K (t_node_embedding t) (one_hot z)) k.
Definition conv0 (i l m k : nat) : R :=
  suml (neighbours x i) (fun e => radial (fun r => nth (l * K + k) (t_rad0 t (zi i) (el (nb_type e)) r) 0) e * Y e l m * up0 (el (nb_type e)) k).
Definition message0 (b : block) (i l m k : nat) : R :=
  with_element K n K (nth l (t_skip_tp0 t) [])
    (fun u => linear K K (nth l (t_linear0 t) []) (fun q => conv0 i l m q) u / denominator b (t_avg_num_neighbors0 t) (t_dens0 t) i) (zi i) k.
Definition product0 (b : block) (i L M k : nat) : R :=
  contraction 3 ((l_max + 1) * (l_max + 1)) M (t_U0 t L) (weight (order_weights 3 (t_W0 t L)) (zi i) k) (by_degree l_max (fun l m => message0 b i l m k)).
Definition feats0 (b : block) (i L M k : nat) : R := linear K K (skipn (L * K * K) (t_prod_linear0 t)) (fun q => product0 b i L M q) k.

(** second interaction and product; features, harmonics and weights are passed to conv_tp in the layouts of e3nn *)
Definition up1 (b : block) (i L M k : nat) : R := linear K K (skipn (L * K * K) (t_linear_up1 t)) (fun q => feats0 b i L M q) k.
Definition H_layout (b : block) (j : nat) : list R :=
  flat_map (fun L => flat_map (fun k => map (fun M => up1 b j L M k) (seq 0 (2 * L + 1))) (seq 0 K)) (seq 0 (L_max + 1)).
Definition conv1 (b : block) (i p : nat) : R :=
  suml (neighbours x i) (fun e => nth p (t_conv_tp t (H_layout b (nb_index e)) (by_degree l_max (Y e))
    (map (fun c => radial (fun r => nth c (t_rad1 t (zi i) (el (nb_type e)) r) 0) e) (seq 0 (length (t_paths t) * K)))) 0).
(** position of (path, channel, m) in the output of conv_tp *)
Definition degree (t : torch_model RNum) (le : nat) : nat := fst (fst (nth le (t_paths t) (0, 0, 0)%nat)).
Definition out_pos (le k m : nat) : nat := (list_sum (map (fun j => 2 * degree t j + 1) (seq 0 le)) * K + k * (2 * degree t le + 1) + m)%nat.
(** the paths of degree l, in order *)
Definition paths_of (l : nat) : list nat := filter (fun le => degree t le =? l)%nat (seq 0 (length (t_paths t))).
Definition message1 (b b' : block) (i l m k : nat) : R :=
  linear (length (paths_of l) * K) K (nth l (t_linear1 t) []) (fun c => conv1 b i (out_pos (nth (c / K) (paths_of l) 0%nat) (c mod K) m)) k
  / denominator b' (t_avg_num_neighbors1 t) (t_dens1 t) i.
Definition product1 (b b' : block) (i k : nat) : R :=
  contraction 3 ((l_max + 1) * (l_max + 1)) 0 (t_U1 t) (weight (order_weights 3 (t_W1 t)) (zi i) k) (by_degree l_max (fun l m => message1 b b' i l m k)).
Definition feats1 (b b' : block) (i k : nat) : R :=
  linear K K (t_prod_linear1 t) (product1 b b' i) k + with_element K n K (t_skip_tp1 t) (feats0 b i 0 0) (zi i) k.

(** readouts, repulsion, scale and shift *)
Definition pair_repulsion (i : nat) : R :=
  match t_zbl t with
  | Some (Some zp) => suml (neighbours x i) (fun e => zbl_energy (zp_a_exp zp) (zp_a_prefactor zp) (zp_c zp) (zp_covalent_radii zp) (zp_p zp)
      (nth (zi i) (t_atomic_numbers t) 0%nat) (nth (el (nb_type e)) (t_atomic_numbers t) 0%nat) (nb_r e))
  | _ => 0
  end.
Definition torch_energy (i : nat) : R :=
  match t_interactions t with
  | [b; b'] =>
    nth (zi i) (t_atomic_energies t) 0 + t_shift t +
    t_scale t * (pair_repulsion i + linear K 1 (t_readout0 t) (feats0 b i 0 0) 0 +
                 linear 16 1 (t_readout1_2 t) (fun j => silu (t_cst t) (linear K 16 (t_readout1_1 t) (feats1 b b' i) j)) 0)
  | _ => 0
  end.
End Torch.

(** e3nn TensorProduct with connection mode "uvu" and external weights: path (l, l1, l2), coupling coefficients C *)
Definition uvu (K : nat) (paths : list (nat * nat * nat)) (C : nat -> nat -> nat -> nat -> R) (H Y W : list R) : list R :=
  flat_map (fun le => let '(l, l1, l2) := nth le paths (0, 0, 0)%nat in
    flat_map (fun k => map (fun m =>
      nth (le * K + k) W 0 * sum (2 * l1 + 1) (fun m1 => sum (2 * l2 + 1) (fun m2 =>
        C le m m1 m2 * nth (l1 * l1 + m1) Y 0 * nth (l2 * l2 * K + k * (2 * l2 + 1) + m2) H 0))) (seq 0 (2 * l + 1))) (seq 0 K)) (seq 0 (length paths)).

(** What the export relies on: classes of blocks, shapes of the tensors, order of the paths, correlation order 3, symmetry of the radial functions *)
Record torch_ok (t : torch_model RNum) (C : nat -> nat -> nat -> nat -> R) : Prop := {
  to_blocks : exists b0 b1, t_interactions t = [b0; b1] /\ is_first b0 = true /\ is_second b1 = true;
  to_l : t_l_max t = 3%nat;
  to_K : (1 <= t_num_channels t)%nat;
  to_n : t_atomic_numbers t <> [];
  to_mn : NoDup (t_atomic_numbers t);
  to_E0 : length (t_atomic_energies t) = length (t_atomic_numbers t);
  to_zbl : match t_zbl t with
           | None => True
           | Some None => False
           | Some (Some zp) => (forall Z, In Z (t_atomic_numbers t) -> (Z < length (zp_covalent_radii zp))%nat) /\ (4 <= length (zp_c zp))%nat
           end;
  to_rad0 : forall a b r, t_rad0 t a b r = t_rad0 t b a r;
  to_rad1 : forall a b r, t_rad1 t a b r = t_rad1 t b a r;
  to_dens0 : forall a b r, t_dens0 t a b r = t_dens0 t b a r;
  to_dens1 : forall a b r, t_dens1 t a b r = t_dens1 t b a r;
  to_emb : length (t_node_embedding t) = (length (t_atomic_numbers t) * t_num_channels t)%nat;
  to_up0 : length (t_linear_up0 t) = (t_num_channels t * t_num_channels t)%nat;
  to_lin0 : length (t_linear0 t) = (t_l_max t + 1)%nat /\ forall w, In w (t_linear0 t) -> length w = (t_num_channels t * t_num_channels t)%nat;
  to_skip0 : length (t_skip_tp0 t) = (t_l_max t + 1)%nat /\
    forall w, In w (t_skip_tp0 t) -> length w = (t_num_channels t * length (t_atomic_numbers t) * t_num_channels t)%nat;
  to_corr0 : t_correlation0 t = 3%nat;
  to_M0 : forall l, (l <= t_L_max t)%nat -> length (fst (t_W0 t l)) = 2%nat /\
    shapes_ok (2 * l + 1) ((t_l_max t + 1) * (t_l_max t + 1)) 3 (length (t_atomic_numbers t)) (t_num_channels t) (t_U0 t l) (order_weights 3 (t_W0 t l)) /\
    forall corr, (1 <= corr <= 3)%nat -> no_small (t_U0 t l corr);
  to_prod0 : length (t_prod_linear0 t) = ((t_L_max t + 1) * t_num_channels t * t_num_channels t)%nat;
  to_up1 : length (t_linear_up1 t) = ((t_L_max t + 1) * t_num_channels t * t_num_channels t)%nat;
  to_sorted : StronglySorted le (map (fun p => fst (fst p)) (t_paths t));
  to_all_l : forall l, (l <= t_l_max t)%nat <-> In l (map (fun p => fst (fst p)) (t_paths t));
  to_l12 : forall p, In p (t_paths t) -> (snd (fst p) <= t_l_max t)%nat /\ (snd p <= t_L_max t)%nat;
  to_conv : forall H Y W, length H = ((t_L_max t + 1) * (t_L_max t + 1) * t_num_channels t)%nat ->
    length Y = ((t_l_max t + 1) * (t_l_max t + 1))%nat -> length W = (length (t_paths t) * t_num_channels t)%nat ->
    t_conv_tp t H Y W = uvu (t_num_channels t) (t_paths t) C H Y W;
  to_small : forall le m m1 m2, C le m m1 m2 = 0 \/ 1 / 10 ^ 12 < Rabs (C le m m1 m2);
  to_lin1 : length (t_linear1 t) = (t_l_max t + 1)%nat /\
    forall l, (l <= t_l_max t)%nat -> length (nth l (t_linear1 t) []) = (length (paths_of t l) * t_num_channels t * t_num_channels t)%nat;
  to_M1 : length (fst (t_W1 t)) = 2%nat /\
    shapes_ok 1 ((t_l_max t + 1) * (t_l_max t + 1)) 3 (length (t_atomic_numbers t)) (t_num_channels t) (t_U1 t) (order_weights 3 (t_W1 t)) /\
    forall corr, (1 <= corr <= 3)%nat -> no_small (t_U1 t corr);
  to_prod1 : length (t_prod_linear1 t) = (t_num_channels t * t_num_channels t)%nat;
  to_skip1 : length (t_skip_tp1 t) = (t_num_channels t * length (t_atomic_numbers t) * t_num_channels t)%nat;
  to_r0 : length (t_readout0 t) = t_num_channels t;
  to_r1 : length (t_readout1_1 t) = (t_num_channels t * 16)%nat;
  to_r2 : length (t_readout1_2 t) = 16%nat
}.
(** scipy: an interpolating spline, evaluated at its knots *)
Definition spl_ok (spl : list R -> list R -> list R * list R) : Prop :=
  forall ks ys, length ys = length ks -> fst (spl ks ys) = ys /\ length (snd (spl ks ys)) = length ks.
(** numpy.linalg: a matrix of full rank times its inverse is the identity *)
Definition inv_ok (rank : nat -> list R -> nat) (inv : nat -> list R -> list R) : Prop :=
  forall K W, length W = (K * K)%nat -> (K <= rank K W)%nat ->
  forall i j, (i < K)%nat -> (j < K)%nat -> sum K (fun q => nth (i * K + q) W 0 * nth (q * K + j) (inv K W) 0) = one_hot j i.
(** the weights of linear_up of the second interaction for l = 0 *)
Definition fused (t : torch_model RNum) : list R := map (fun v => v / sqrt (INR (t_num_channels t))) (firstn (t_num_channels t * t_num_channels t) (t_linear_up1 t)).
(** the same atoms and neighbours, with types numbered by two lists of species *)
Definition same_atoms (an an' : list nat) (x x' : input RNum) : Prop :=
  i_num_nodes x = i_num_nodes x' /\ i_num_neigh x = i_num_neigh x' /\ i_neigh_indices x = i_neigh_indices x' /\ i_xyz x = i_xyz x' /\ i_r x = i_r x' /\
  map (fun ty => nth ty an 0%nat) (i_node_types x) = map (fun ty => nth ty an' 0%nat) (i_node_types x') /\
  map (fun ty => nth ty an 0%nat) (i_neigh_types x) = map (fun ty => nth ty an' 0%nat) (i_neigh_types x').
