(** Model of libsymmetrix/source/spherical_harmonic.cpp.

    External functions are section variables: the harmonics of sphericart (one sample at a time: [sph l_max x y z] is the
    list of the [(l_max+1)^2] values), [std::tgamma], [std::assoc_legendre], and, over the reals, [cos], [sin], [acos] and the
    exponential of a complex number.  [int] arguments that may be negative are [Z]. *)
From Coq Require Import List Arith ZArith Reals.
From Verif Require Import Base Instances.
Import ListNotations.

Section Sphericart.
Context {N : Num}.
Local Open Scope num_scope.
Variable sph : nat -> N -> N -> N -> list N.

(** [std::complex<double>] and the operators used (libstdc++: <complex>) *)
Definition cx : Type := (N * N)%type.
Definition cimag : cx := (nzero, none).                                     (* {0.0, 1.0} *)
Definition cmulr (a : cx) (t : N) : cx := (fst a * t, snd a * t).           (* complex * double, double * complex *)
Definition raddc (t : N) (a : cx) : cx := (fst a + t, snd a).               (* double + complex *)
Definition rsubc (t : N) (a : cx) : cx := (t - fst a, - snd a).             (* double - complex *)
Definition cofr (t : N) : cx := (t, nzero).                                 (* conversion *)

(** spherical_harmonic.cpp:58-64 sphericart_real_sph_harm *)
Definition sphericart_real_sph_harm (l m : Z) (x y z : N) : option N :=
  check (0 <=? l)%Z ;;
  rdZ (sph (Z.to_nat l) x y z) (l * (l + 1) + m)%Z.

(** spherical_harmonic.cpp:46-56 sphericart_sph_harm *)
Definition sphericart_sph_harm (l m : Z) (x y z : N) : option cx :=
  if (m <? 0)%Z then
    a <- sphericart_real_sph_harm l (- m)%Z x y z ;;
    b <- sphericart_real_sph_harm l m x y z ;;
    Some (cmulr (rsubc a (cmulr cimag b)) (none / nsqrt (nlit 2 1)))
  else if (m =? 0)%Z then
    a <- sphericart_real_sph_harm l m x y z ;; Some (cofr a)
  else
    a <- sphericart_real_sph_harm l m x y z ;;
    b <- sphericart_real_sph_harm l (- m)%Z x y z ;;
    Some (cmulr (raddc a (cmulr cimag b)) (npowi (nlit (-1) 1) m / nsqrt (nlit 2 1))).

(** write at an [int] index *)
Definition wrZ {A} (a : list A) (i : Z) (v : A) : option (list A) := if (i <? 0)%Z then None else wr a (Z.to_nat i) v.

(** sphericart: [compute(xyz, sph)] for several samples, one block of [(l_max+1)^2] values per sample *)
Definition sph_compute (l_max : nat) (xyz : list N) : list N :=
  flat_map (fun i => sph l_max (nth (3*i) xyz nzero) (nth (3*i+1) xyz nzero) (nth (3*i+2) xyz nzero)) (seq 0 (length xyz / 3)).

(** spherical_harmonic.cpp:66-72 sphericart_real *)
Definition sphericart_real (l_max : nat) (xyz : list N) : list N := sph_compute l_max xyz.

(** spherical_harmonic.cpp:74-101 sphericart_complex; the loop over m runs over k = m + l *)
Definition sphericart_complex (l_max : nat) (xyz : list N) : option (list cx) :=
  let inv_sq_2 := none / nsqrt (nlit 2 1) in
  let n_samples := (length xyz / 3)%nat in
  let sph_real := sph_compute l_max xyz in
  for_ n_samples (fun i sph_complex =>
    let i0 := Z.of_nat (i * (l_max+1) * (l_max+1))%nat in
    for_ (l_max + 1) (fun ln sph_complex =>
      let l := Z.of_nat ln in
      for_ (2 * ln + 1) (fun k sph_complex =>
        let m := (Z.of_nat k - l)%Z in
        if (m <? 0)%Z then
          a <- rdZ sph_real (i0 + l*(l+1) - m)%Z ;;
          b <- rdZ sph_real (i0 + l*(l+1) + m)%Z ;;
          wrZ sph_complex (i0 + l*(l+1) + m)%Z (cmulr (rsubc a (cmulr cimag b)) inv_sq_2)
        else if (m =? 0)%Z then
          a <- rdZ sph_real (i0 + l*(l+1))%Z ;;
          wrZ sph_complex (i0 + l*(l+1))%Z (cofr a)
        else
          a <- rdZ sph_real (i0 + l*(l+1) + m)%Z ;;
          b <- rdZ sph_real (i0 + l*(l+1) - m)%Z ;;
          wrZ sph_complex (i0 + l*(l+1) + m)%Z (cmulr (raddc a (cmulr cimag b)) (npowi (nlit (-1) 1) m * inv_sq_2)))
        sph_complex) sph_complex)
    (repeat (nzero, nzero) (n_samples * (l_max+1) * (l_max+1))%nat).
End Sphericart.

(** ** Over the reals *)
Section Angles.
Local Open Scope R_scope.
Variable tgamma : R -> R.
Variable assoc_legendre : nat -> nat -> R -> R.

Definition ctimes (a b : R * R) : R * R := (fst a * fst b - snd a * snd b, fst a * snd b + snd a * fst b).
Definition cexp (a : R * R) : R * R := (exp (fst a) * cos (snd a), exp (fst a) * sin (snd a)).
Definition cscale (t : R) (a : R * R) : R * R := (t * fst a, t * snd a).

(** spherical_harmonic.cpp:7-19 sph_harm *)
Definition sph_harm (l : nat) (m : Z) (polar azimuth : R) : R * R :=
  let lz := IZR (Z.of_nat l) in let mz := IZR m in
  let phase := cexp (cscale azimuth (cscale mz (0, 1))) in
  if (0 <=? m)%Z then
    cscale (powerRZ (-1) m
            * sqrt ((2 * lz + 1) / (4 * PI) * tgamma (1 + lz - mz) / tgamma (1 + lz + mz))
            * assoc_legendre l (Z.to_nat m) (cos polar)) phase
  else
    cscale (powerRZ (-1) m
            * sqrt ((2 * lz + 1) / (4 * PI) * tgamma (1 + lz - mz) / tgamma (1 + lz + mz))
            * powerRZ (-1) m * tgamma (1 + lz + mz) / tgamma (1 + lz - mz) * assoc_legendre l (Z.to_nat (- m)) (cos polar)) phase.

(** [(y>0)-(y<0)] *)
Definition sgn (y : R) : R := (if Rlt_dec 0 y then 1 else 0) - (if Rlt_dec y 0 then 1 else 0).

(** spherical_harmonic.cpp:21-26 sph_harm_xyz *)
Definition sph_harm_xyz (l : nat) (m : Z) (x y z : R) : R * R :=
  let r := sqrt (x*x + y*y + z*z) in
  let polar := acos (z / r) in
  let azimuth := sgn y * acos (x / sqrt (x*x + y*y)) in
  sph_harm l m polar azimuth.

(** spherical_harmonic.cpp:28-36 real_sph_harm *)
Definition real_sph_harm (l : nat) (m : Z) (polar azimuth : R) : R :=
  if (m <? 0)%Z then sqrt 2 * powerRZ (-1) m * snd (sph_harm l (- m) polar azimuth)
  else if (m =? 0)%Z then fst (sph_harm l m polar azimuth)
  else sqrt 2 * powerRZ (-1) m * fst (sph_harm l m polar azimuth).

(** spherical_harmonic.cpp:38-43 real_sph_harm_xyz *)
Definition real_sph_harm_xyz (l : nat) (m : Z) (x y z : R) : R :=
  let r := sqrt (x*x + y*y + z*z) in
  let polar := acos (z / r) in
  let azimuth := sgn y * acos (x / sqrt (x*x + y*y)) in
  real_sph_harm l m polar azimuth.
End Angles.
