(** The energy of a node as a formula in the entries of the model file and in the neighbour lists (over the reals), independent of how
    [MACE::compute_node_energies_forces] evaluates it: no work vectors, no order of summation, no coefficients of splines. *)
From Coq Require Import List Arith ZArith Reals.
From Verif Require Import Base Instances MpSpec MlpSpec MaceModel MaceSpec ExportSpec ExportPolySpec.
Import ListNotations.
Local Open Scope R_scope.

Definition suml {A} (l : list A) (g : A -> R) : R := fold_right Rplus 0 (map g l).

(** The cubic Hermite interpolant of values and derivatives at the knots 0, h, 2h, ... *)
Definition hermite (h : R) (vs ds : list R) (r : R) : R :=
  let q := Z.to_nat (Int_part (r / h)) in
  let t := r / h - INR q in
  (1 + 2 * t) * (1 - t) ^ 2 * nth q vs 0 + h * (t * (1 - t) ^ 2) * nth q ds 0 +
  t ^ 2 * (3 - 2 * t) * nth (q + 1) vs 0 + h * (t ^ 2 * (t - 1)) * nth (q + 1) ds 0.

(** The entry for an unordered pair in a list that follows the order of [upairs] *)
Definition pair_entry {A} (d : A) (T : nat) (tabs : list A) (t u : nat) : A :=
  match find (fun e => (fst (fst e) =? Nat.min t u)%nat && (snd (fst e) =? Nat.max t u)%nat)%bool (combine (upairs T) tabs) with
  | Some (_, e) => e
  | None => d
  end.

(** Screened nuclear repulsion of Ziegler, Biersack and Littmark with the polynomial envelope of degree p *)
Definition zbl_envelope (p : Z) (u : R) : R :=
  1 - (IZR p + 1) * (IZR p + 2) / 2 * powerRZ u p + IZR p * (IZR p + 2) * powerRZ u (p + 1) - IZR p * (IZR p + 1) / 2 * powerRZ u (p + 2).
Definition zbl_energy (a_exp a_prefactor : R) (c radii : list R) (p : Z) (Zu Zv : nat) (r : R) : R :=
  let a := a_prefactor * 0.529 / (Rpower (INR Zu) a_exp + Rpower (INR Zv) a_exp) in
  let phi := nth 0 c 0 * exp (-3.2 * (r / a)) + nth 1 c 0 * exp (-0.9423 * (r / a)) +
             nth 2 c 0 * exp (-0.4028 * (r / a)) + nth 3 c 0 * exp (-0.2016 * (r / a)) in
  let r_max := nth Zu radii 0 + nth Zv radii 0 in
  if Rlt_dec r r_max then 1 / 2 * (14.3996 * INR Zu * INR Zv / r) * phi * zbl_envelope p (r / r_max) else 0.

(** A neighbour of a node *)
Record nbr := mkNbr { nb_type : nat; nb_index : nat; nb_x : R; nb_y : R; nb_z : R; nb_r : R }.
Definition neighbours (x : input RNum) (i : nat) : list nbr :=
  map (fun p => mkNbr (nth p (i_neigh_types x) 0%nat) (nth p (i_neigh_indices x) 0%nat)
                  (nth (3 * p) (i_xyz x) 0) (nth (3 * p + 1) (i_xyz x) 0) (nth (3 * p + 2) (i_xyz x) 0) (nth p (i_r x) 0))
    (seq (list_sum (firstn i (i_num_neigh x))) (nth i (i_num_neigh x) 0%nat)).

Section Formula.
Variable sph : nat -> R -> R -> R -> list R * list R.
Variable f : mace_file RNum.
Variable x : input RNum.
Notation T := (length (f_atomic_numbers f)).
Notation K := (f_num_channels f).
Notation l_max := (f_l_max f).
Definition tp (i : nat) : nat := nth i (i_node_types x) 0%nat.

Definition radial0 (t u : nat) (r : R) (l k : nat) : R :=
  hermite (f_radial_spline_h f) (nth (l * K + k) (pair_entry [] T (f_radial_spline_values_0 f) t u) [])
    (nth (l * K + k) (pair_entry [] T (f_radial_spline_derivs_0 f) t u) []) r.
Definition radial1 (t u : nat) (r : R) (le k : nat) : R :=
  hermite (f_radial_spline_h f) (nth (le * K + k) (pair_entry [] T (f_radial_spline_values_1 f) t u) [])
    (nth (le * K + k) (pair_entry [] T (f_radial_spline_derivs_1 f) t u) []) r.
Definition density0 (t u : nat) (r : R) : R :=
  hermite (f_A0_spline_h f) (pair_entry [] T (f_A0_spline_values f) t u) (pair_entry [] T (f_A0_spline_derivs f) t u) r.
Definition density1 (t u : nat) (r : R) : R :=
  hermite (f_A1_spline_h f) (pair_entry [] T (f_A1_spline_values f) t u) (pair_entry [] T (f_A1_spline_derivs f) t u) r.
(** Spherical harmonic (l, m), 0 <= m <= 2l, of the direction of a neighbour; sphericart is called with (z, x, y) *)
Definition Ylm (e : nbr) (l m : nat) : R := 2 * sqrt PI * nth (l * l + m) (fst (sph l_max (nb_z e) (nb_x e) (nb_y e))) 0.

(** layer 0 *)
Definition Phi0 (i l m k : nat) : R :=
  suml (neighbours x i) (fun e => radial0 (tp i) (nb_type e) (nb_r e) l k * Ylm e l m * nth (nb_type e * K + k) (f_H0_weights f) 0).
Definition A0 (i l m k : nat) : R :=
  sum K (fun q => Phi0 i l m q * nth (q * K + k) (nth l (nth (tp i) (f_A0_weights f) []) []) 0) /
  (if f_A0_scaled f then 1 + suml (neighbours x i) (fun e => density0 (tp i) (nb_type e) (nb_r e)) else 1).
Definition all_lm (g : nat -> nat -> R) : list R := flat_map (fun l => map (g l) (seq 0 (2 * l + 1))) (seq 0 (l_max + 1)).
Definition M0 (i L M k : nat) : R :=
  poly (f_M0_weights f (tp i) (L * L + M)%nat k) (f_M0_monomials f (L * L + M)%nat) (all_lm (fun l m => A0 i l m k)).
Definition H1 (i L M k : nat) : R := sum K (fun q => M0 i L M q * nth (L * K * K + q * K + k) (f_H1_weights f) 0).

(** layer 1: the columns (path, m1, m2) of the coupling and its rows (l, m, e), e counting the paths of degree l *)
Definition columns : list (nat * nat * nat) :=
  flat_map (fun le => flat_map (fun m1 => map (fun m2 => (le, m1, m2)) (seq 0 (2 * nth le (f_Phi1_l2 f) 0%nat + 1)))
    (seq 0 (2 * nth le (f_Phi1_l1 f) 0%nat + 1))) (seq 0 (length (f_Phi1_l f))).
Definition npaths (l : nat) : nat := count_occ Nat.eq_dec (f_Phi1_l f) l.
Definition row (l m e : nat) : nat := (list_sum (map (fun l' => (2 * l' + 1) * npaths l') (seq 0 l)) + m * npaths l + e)%nat.
Definition message (i : nat) (c : nat * nat * nat) (k : nat) : R :=
  let '(le, m1, m2) := c in
  suml (neighbours x i) (fun e => radial1 (tp i) (nb_type e) (nb_r e) le k * Ylm e (nth le (f_Phi1_l1 f) 0%nat) m1 *
                                  H1 (nb_index e) (nth le (f_Phi1_l2 f) 0%nat) m2 k).
Definition Phi1 (i l m e k : nat) : R :=
  sum (length (f_Phi1_clebsch_gordan f)) (fun p =>
    if (nth p (f_Phi1_lme f) 0 =? row l m e)%nat
    then nth p (f_Phi1_clebsch_gordan f) 0 * message i (nth (nth p (f_Phi1_lelm1lm2 f) 0%nat) columns (0, 0, 0)%nat) k
    else 0).
Definition A1 (i l m k : nat) : R :=
  sum (npaths l) (fun e => sum K (fun q => Phi1 i l m e q * nth ((e * K + q) * K + k) (nth l (f_A1_weights f) []) 0)) /
  (if f_A1_scaled f then 1 + suml (neighbours x i) (fun e => density1 (tp i) (nb_type e) (nb_r e)) else 1).
Definition M1 (i k : nat) : R := poly (f_M1_weights f (tp i) k) (f_M1_monomials f) (all_lm (fun l m => A1 i l m k)).
Definition H2 (i k : nat) : R :=
  sum K (fun q => H1 i 0 0 q * nth (q * K + k) (nth (tp i) (f_H2_weights_for_H1 f) []) 0) +
  sum K (fun q => M1 i q * nth (q * K + k) (f_H2_weights_for_M1 f) 0).

Definition repulsion (i : nat) : R :=
  if f_has_zbl f then suml (neighbours x i) (fun e =>
    zbl_energy (f_zbl_a_exp f) (f_zbl_a_prefactor f) (f_zbl_c f) (f_zbl_covalent_radii f) (f_zbl_p f)
      (nth (tp i) (f_atomic_numbers f) 0%nat) (nth (nb_type e) (f_atomic_numbers f) 0%nat) (nb_r e)) else 0.
Definition node_energy (i : nat) : R :=
  nth (tp i) (f_atomic_energies f) 0 + repulsion i +
  sum K (fun k => nth k (f_readout_1_weights f) 0 * H1 i 0 0 k) +
  sum 16 (fun j => nth j (f_readout_2_weights_2 f) 0 *
    silu (f_readout_2_scale_factor f) (sum K (fun k => nth (j * K + k) (f_readout_2_weights_1 f) 0 * H2 i k))).
End Formula.

(** every monomial is listed once *)
Definition monomials_once (f : mace_file RNum) : Prop :=
  (forall lm, (lm < (f_L_max f + 1) * (f_L_max f + 1))%nat -> NoDup (f_M0_monomials f lm)) /\ NoDup (f_M1_monomials f).
