(** Property theorems about spherical_harmonic.cpp. *)
From Coq Require Import List Arith ZArith Lia Reals Lra.
From Verif Require Import Base Instances SphModel SphSpec SphProofs.
Import ListNotations.
Local Open Scope R_scope.

(** C34: conjugation symmetry.  [c m] is the complex value of sample [i], degree [l] and order [m]. *)
Theorem C34_conjugation : forall (sph : nat -> R -> R -> R -> list R) L n xyz,
  sphericart_len (N:=RNum) sph -> length xyz = (3 * n)%nat ->
  exists C, sphericart_complex (N:=RNum) sph L xyz = Some C /\ length C = (n * ((L+1)*(L+1)))%nat /\
    forall i l m, (i < n)%nat -> (l <= L)%nat -> (- Z.of_nat l <= m <= Z.of_nat l)%Z ->
      nth (lm L i l (- m)) C (0,0) = times (sign m) (conj (nth (lm L i l m) C (0,0))).
Proof. exact conjugation. Qed.
Print Assumptions C34_conjugation.

(** C34: the norm of every degree is that of the real harmonics of the sample *)
Theorem C34_norm : forall (sph : nat -> R -> R -> R -> list R) L n xyz,
  sphericart_len (N:=RNum) sph -> length xyz = (3 * n)%nat ->
  exists C, sphericart_complex (N:=RNum) sph L xyz = Some C /\
    forall i l, (i < n)%nat -> (l <= L)%nat ->
      let real := sph L (nth (3*i) xyz 0) (nth (3*i+1) xyz 0) (nth (3*i+2) xyz 0) in
      sum_m l (fun m => abs2 (nth (lm L i l m) C (0,0))) = sum_m l (fun m => nth (lm L 0 l m) real 0 * nth (lm L 0 l m) real 0).
Proof. exact norm_kept. Qed.
Print Assumptions C34_norm.

(** C34: entry by entry the single-harmonic function *)
Theorem C34_single : forall (sph : nat -> R -> R -> R -> list R) L n xyz,
  sphericart_len (N:=RNum) sph -> sphericart_stable (N:=RNum) sph -> length xyz = (3 * n)%nat ->
  exists C, sphericart_complex (N:=RNum) sph L xyz = Some C /\
    forall i l m, (i < n)%nat -> (l <= L)%nat -> (- Z.of_nat l <= m <= Z.of_nat l)%Z ->
      sphericart_sph_harm (N:=RNum) sph (Z.of_nat l) m (nth (3*i) xyz 0) (nth (3*i+1) xyz 0) (nth (3*i+2) xyz 0)
      = Some (nth (lm L i l m) C (0,0)).
Proof. exact single_same. Qed.
Print Assumptions C34_single.

Example C34_example :
  sphericart_len (N:=RNum) ex_sph /\ sphericart_stable (N:=RNum) ex_sph /\ length [1; 2; 3; -1; 0; 5] = (3 * 2)%nat /\
  lm 2 1 2 (-1) = 14%nat /\ sum_m 1 (fun m => nth (lm 2 0 1 m) (ex_sph 2 (-1) 0 5) 0 * nth (lm 2 0 1 m) (ex_sph 2 (-1) 0 5) 0) = 5.
Proof. exact ex_sph_ok. Qed.

(** C36: off the half plane y = 0, x < 0 the Cartesian functions are the angular ones at the spherical angles of the vector;
    on the half plane (azimuth pi) they are wrong by the factor (-1)^m *)
Theorem C36_xyz_partial : forall tgamma assoc_legendre l m x y z phi rho,
  0 < rho -> x = rho * cos phi -> y = rho * sin phi -> y <> 0 \/ 0 < x ->
  sph_harm_xyz tgamma assoc_legendre l m x y z = sph_harm tgamma assoc_legendre l m (acos (z / sqrt (x*x+y*y+z*z))) phi
  /\ real_sph_harm_xyz tgamma assoc_legendre l m x y z = real_sph_harm tgamma assoc_legendre l m (acos (z / sqrt (x*x+y*y+z*z))) phi.
Proof. exact xyz_off. Qed.
Print Assumptions C36_xyz_partial.

Theorem C36_half_plane_partial : forall tgamma assoc_legendre l m x z, x < 0 ->
  sph_harm tgamma assoc_legendre l m (acos (z / sqrt (x*x+0*0+z*z))) PI = times (sign m) (sph_harm_xyz tgamma assoc_legendre l m x 0 z)
  /\ real_sph_harm tgamma assoc_legendre l m (acos (z / sqrt (x*x+0*0+z*z))) PI
     = sign m * real_sph_harm_xyz tgamma assoc_legendre l m x 0 z.
Proof. exact xyz_half. Qed.
Print Assumptions C36_half_plane_partial.

(** C36 is false: at (-1, 0, 0) and l = m = 1 *)
Theorem C36_refuted : forall tgamma assoc_legendre,
  tgamma 1 = 1 -> tgamma 3 = 2 -> (forall t, assoc_legendre 1%nat 1%nat t = sqrt (1 - t*t)) ->
  exists x y z rho phi, 0 < rho /\ x = rho * cos phi /\ y = rho * sin phi /\
    sph_harm_xyz tgamma assoc_legendre 1 1 x y z <> sph_harm tgamma assoc_legendre 1 1 (acos (z / sqrt (x*x+y*y+z*z))) phi /\
    real_sph_harm_xyz tgamma assoc_legendre 1 1 x y z <> real_sph_harm tgamma assoc_legendre 1 1 (acos (z / sqrt (x*x+y*y+z*z))) phi.
Proof. exact xyz_wrong. Qed.
Print Assumptions C36_refuted.

Example C36_example :
  (exists tgamma : R -> R, tgamma 1 = 1 /\ tgamma 3 = 2) /\
  0 < 5 /\ exists phi, 3 = 5 * cos phi /\ -4 = 5 * sin phi.
Proof. exact ex_angles. Qed.

(** C52: the angular functions obey the conjugation symmetry, and the change of basis made by sphericart_sph_harm turns
    the values of real_sph_harm into those of sph_harm *)
Theorem C52_conjugation : forall tgamma assoc_legendre, (forall t, 0 < t -> 0 < tgamma t) ->
  forall l m polar azimuth, (- Z.of_nat l <= m <= Z.of_nat l)%Z ->
  sph_harm tgamma assoc_legendre l (- m) polar azimuth = times (sign m) (conj (sph_harm tgamma assoc_legendre l m polar azimuth)).
Proof. exact angular_conj. Qed.
Print Assumptions C52_conjugation.

Theorem C52_basis : forall tgamma assoc_legendre (sph : nat -> R -> R -> R -> list R),
  (forall t, 0 < t -> 0 < tgamma t) ->
  forall l x y z polar azimuth,
  (forall q, (- Z.of_nat l <= q <= Z.of_nat l)%Z ->
     sphericart_real_sph_harm (N:=RNum) sph (Z.of_nat l) q x y z = Some (real_sph_harm tgamma assoc_legendre l q polar azimuth)) ->
  forall m, (- Z.of_nat l <= m <= Z.of_nat l)%Z ->
  sphericart_sph_harm (N:=RNum) sph (Z.of_nat l) m x y z = Some (sph_harm tgamma assoc_legendre l m polar azimuth).
Proof. exact basis. Qed.
Print Assumptions C52_basis.

Example C52_example : exists (tgamma : R -> R) (sph : nat -> R -> R -> R -> list R),
  (forall t, 0 < t -> 0 < tgamma t) /\
  forall l q, (- Z.of_nat l <= q <= Z.of_nat l)%Z ->
    sphericart_real_sph_harm (N:=RNum) sph (Z.of_nat l) q 1 2 3 = Some (real_sph_harm tgamma (fun _ _ t => t) l q 1 2).
Proof. exact ex_basis. Qed.
