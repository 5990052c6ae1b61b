(** Proofs about sph_harm and its Cartesian entry points. *)
From Coq Require Import List Arith ZArith Lia Reals Lra.
From Verif Require Import Base Instances SphModel SphSpec SphLemmas.
Import ListNotations.
Local Open Scope R_scope.

Lemma mult_angle a b (n : nat) : cos a = cos b -> sin a = sin b ->
  cos (INR n * a) = cos (INR n * b) /\ sin (INR n * a) = sin (INR n * b).
Proof.
  intros Hc Hs. induction n as [|n [IH1 IH2]].
  - rewrite !Rmult_0_l. split; reflexivity.
  - rewrite S_INR, !Rmult_plus_distr_r, !Rmult_1_l, !cos_plus, !sin_plus, IH1, IH2, Hc, Hs. split; reflexivity.
Qed.

Lemma mult_angleZ a b (m : Z) : cos a = cos b -> sin a = sin b ->
  cos (IZR m * a) = cos (IZR m * b) /\ sin (IZR m * a) = sin (IZR m * b).
Proof.
  intros Hc Hs. destruct (Z_le_gt_dec 0 m) as [H|H].
  - rewrite <- (Z2Nat.id m H), <- INR_IZR_INZ. apply mult_angle; assumption.
  - replace m with (- Z.of_nat (Z.to_nat (- m)))%Z by lia. rewrite opp_IZR, <- INR_IZR_INZ.
    rewrite !Ropp_mult_distr_l_reverse, !cos_neg, !sin_neg.
    destruct (mult_angle a b (Z.to_nat (- m)) Hc Hs) as [-> ->]. split; reflexivity.
Qed.

Definition phase (m : Z) (a : R) : R * R := cexp (cscale a (cscale (IZR m) (0, 1))).

Lemma phase_eq m a : phase m a = (cos (IZR m * a), sin (IZR m * a)).
Proof.
  unfold phase, cexp, cscale. cbn [fst snd]. rewrite !Rmult_0_r, exp_0, !Rmult_1_l, Rmult_1_r.
  rewrite (Rmult_comm a). reflexivity.
Qed.

Lemma phase_same m a b : cos a = cos b -> sin a = sin b -> phase m a = phase m b.
Proof. intros Hc Hs. rewrite !phase_eq. destruct (mult_angleZ a b m Hc Hs) as [-> ->]. reflexivity. Qed.

Section Oracle.
Variable tgamma : R -> R.
Variable assoc_legendre : nat -> nat -> R -> R.
Notation Y := (sph_harm tgamma assoc_legendre).
Notation RY := (real_sph_harm tgamma assoc_legendre).

(** modulus part *)
Definition amp (l : nat) (m : Z) (polar : R) : R :=
  let lz := IZR (Z.of_nat l) in let mz := IZR m in
  if (0 <=? m)%Z then powerRZ (-1) m
            * sqrt ((2 * lz + 1) / (4 * PI) * tgamma (1 + lz - mz) / tgamma (1 + lz + mz))
            * assoc_legendre l (Z.to_nat m) (cos polar)
  else powerRZ (-1) m
            * sqrt ((2 * lz + 1) / (4 * PI) * tgamma (1 + lz - mz) / tgamma (1 + lz + mz))
            * powerRZ (-1) m * tgamma (1 + lz + mz) / tgamma (1 + lz - mz) * assoc_legendre l (Z.to_nat (- m)) (cos polar).

Lemma sph_harm_amp l m p a : Y l m p a = cscale (amp l m p) (phase m a).
Proof. unfold sph_harm, amp, phase. destruct (0 <=? m)%Z; reflexivity. Qed.

Lemma sph_harm_angle l m p a b : cos a = cos b -> sin a = sin b -> Y l m p a = Y l m p b.
Proof. intros. rewrite !sph_harm_amp. f_equal. apply phase_same; assumption. Qed.

Lemma real_angle l m p a b : cos a = cos b -> sin a = sin b -> RY l m p a = RY l m p b.
Proof. intros. unfold real_sph_harm. rewrite !(sph_harm_angle l _ p a b) by assumption. reflexivity. Qed.

(** the azimuth computed by the Cartesian entry points *)
Definition az (x y : R) : R := sgn y * acos (x / sqrt (x*x + y*y)).

Lemma rho_pos x y : x <> 0 \/ y <> 0 -> 0 < sqrt (x*x+y*y).
Proof. intros H. apply sqrt_lt_R0. destruct H; nra. Qed.

Lemma ratio_bound x y : x <> 0 \/ y <> 0 -> -1 <= x / sqrt (x*x+y*y) <= 1.
Proof.
  intros H. pose proof (rho_pos x y H) as P. pose proof (sqrt_sqrt (x*x+y*y) ltac:(nra)) as Q.
  set (r := sqrt (x*x+y*y)) in *.
  assert (E : x / r * r = x) by (field; lra).
  set (q := x / r) in *.
  assert (B : q * q <= 1).
  { apply (Rmult_le_reg_r (r*r)); [nra|]. replace (q*q*(r*r)) with ((q*r)*(q*r)) by ring. rewrite E, Q. nra. }
  split; nra.
Qed.

Lemma az_cos_sin x y : y <> 0 \/ 0 < x ->
  cos (az x y) = x / sqrt (x*x+y*y) /\ sin (az x y) = y / sqrt (x*x+y*y).
Proof.
  intros H. assert (H0 : x <> 0 \/ y <> 0) by (destruct H; [right|left]; lra).
  pose proof (rho_pos x y H0) as P. pose proof (ratio_bound x y H0) as B.
  pose proof (sqrt_sqrt (x*x+y*y) ltac:(nra)) as Q.
  assert (S : sqrt (1 - (x / sqrt (x*x+y*y))²) = Rabs y / sqrt (x*x+y*y)).
  { apply sqrt_lem_1.
    - unfold Rsqr. nra.
    - apply Rmult_le_pos; [apply Rabs_pos|]. left. apply Rinv_0_lt_compat, P.
    - unfold Rsqr, Rdiv. replace (Rabs y * / sqrt (x*x+y*y) * (Rabs y * / sqrt (x*x+y*y)))
        with (Rabs y * Rabs y * (/ sqrt (x*x+y*y) * / sqrt (x*x+y*y))) by ring.
      replace (Rabs y * Rabs y) with (y * y) by (fold (Rsqr y) (Rsqr (Rabs y)); apply Rsqr_abs).
      rewrite <- Rinv_mult, Q. replace (x * / sqrt (x*x+y*y) * (x * / sqrt (x*x+y*y)))
        with (x * x * (/ sqrt (x*x+y*y) * / sqrt (x*x+y*y))) by ring.
      rewrite <- Rinv_mult, Q. field. destruct H0; nra. }
  unfold az, sgn. destruct (Rlt_dec 0 y), (Rlt_dec y 0); try lra.
  - replace ((1-0) * acos (x / sqrt (x*x+y*y))) with (acos (x / sqrt (x*x+y*y))) by ring.
    rewrite cos_acos, sin_acos, S by exact B. rewrite Rabs_pos_eq by lra. split; reflexivity.
  - replace ((0-1) * acos (x / sqrt (x*x+y*y))) with (- acos (x / sqrt (x*x+y*y))) by ring.
    rewrite cos_neg, sin_neg, cos_acos, sin_acos, S by exact B. rewrite Rabs_left by lra. split; [reflexivity|].
    unfold Rdiv. ring.
  - assert (y = 0) by lra. assert (0 < x) by (destruct H; lra). subst y.
    replace ((0-0) * acos (x / sqrt (x*x+0*0))) with 0 by ring. rewrite cos_0, sin_0.
    assert (E : sqrt (x*x+0*0) = x). { replace (x*x+0*0) with (x*x) by ring. apply sqrt_square. lra. }
    rewrite E. split; field; lra.
Qed.

(** on the half plane y = 0, x < 0 the computed azimuth is 0 instead of pi *)
Lemma az_half x : x < 0 -> az x 0 = 0.
Proof.
  intros H. unfold az, sgn. destruct (Rlt_dec 0 0); [lra|]. ring.
Qed.

Lemma angle_of x y phi rho : x <> 0 \/ y <> 0 -> 0 < rho -> x = rho * cos phi -> y = rho * sin phi ->
  cos phi = x / sqrt (x*x+y*y) /\ sin phi = y / sqrt (x*x+y*y).
Proof.
  intros H0 Hr Hx Hy.
  assert (E : sqrt (x*x+y*y) = rho).
  { apply sqrt_lem_1; [nra|lra|]. rewrite Hx, Hy. pose proof (sin2_cos2 phi) as T. unfold Rsqr in T.
    replace (rho * cos phi * (rho * cos phi) + rho * sin phi * (rho * sin phi)) with (rho * rho * (sin phi * sin phi + cos phi * cos phi)) by ring.
    rewrite T. ring. }
  rewrite E, Hx, Hy. split; field; lra.
Qed.

Lemma xyz_ok l m x y z phi rho : y <> 0 \/ 0 < x -> 0 < rho -> x = rho * cos phi -> y = rho * sin phi ->
  sph_harm_xyz tgamma assoc_legendre l m x y z = Y l m (acos (z / sqrt (x*x+y*y+z*z))) phi
  /\ real_sph_harm_xyz tgamma assoc_legendre l m x y z = RY l m (acos (z / sqrt (x*x+y*y+z*z))) phi.
Proof.
  intros H Hr Hx Hy. assert (H0 : x <> 0 \/ y <> 0) by (destruct H; [right|left]; lra).
  destruct (az_cos_sin x y H) as [A1 A2]. destruct (angle_of x y phi rho H0 Hr Hx Hy) as [B1 B2].
  unfold sph_harm_xyz, real_sph_harm_xyz. cbv zeta. fold (az x y). split.
  - apply sph_harm_angle; congruence.
  - apply real_angle; congruence.
Qed.

Lemma phase_PI m : phase m PI = cscale (sign m) (phase m 0).
Proof.
  assert (P : forall q, cos (IZR (2*q) * PI) = 1 /\ sin (IZR (2*q) * PI) = 0).
  { intros q. destruct (mult_angleZ (2*PI) 0 q) as [U1 U2].
    - rewrite cos_2PI, cos_0. reflexivity.
    - rewrite sin_2PI, sin_0. reflexivity.
    - rewrite Rmult_0_r, cos_0 in U1. rewrite Rmult_0_r, sin_0 in U2.
      rewrite mult_IZR. replace (2 * IZR q * PI) with (IZR q * (2*PI)) by ring. split; assumption. }
  rewrite !phase_eq, Rmult_0_r, cos_0, sin_0. unfold cscale. cbn [fst snd]. unfold sign.
  destruct (Z.Even_or_Odd m) as [[q ->]|[q ->]].
  - rewrite (proj2 (Z.even_spec (2*q))) by (exists q; reflexivity). destruct (P q) as [-> ->]. apply f_equal2; ring.
  - replace (Z.even (2*q+1)) with false
      by (rewrite Z.even_add, (proj2 (Z.even_spec (2*q))); [reflexivity|exists q; reflexivity]).
    rewrite plus_IZR, Rmult_plus_distr_r, Rmult_1_l, cos_plus, sin_plus, cos_PI, sin_PI.
    destruct (P q) as [-> ->]. apply f_equal2; ring.
Qed.

Lemma xyz_half l m x z : x < 0 ->
  Y l m (acos (z / sqrt (x*x+0*0+z*z))) PI = times (sign m) (sph_harm_xyz tgamma assoc_legendre l m x 0 z)
  /\ RY l m (acos (z / sqrt (x*x+0*0+z*z))) PI = sign m * real_sph_harm_xyz tgamma assoc_legendre l m x 0 z.
Proof.
  intros H. unfold sph_harm_xyz, real_sph_harm_xyz. cbv zeta. fold (az x 0). rewrite (az_half x H).
  assert (G : forall m p, Y l m p PI = times (sign m) (Y l m p 0)).
  { intros m' p. rewrite !sph_harm_amp, phase_PI. unfold cscale, times. cbn [fst snd]. apply f_equal2; ring. }
  split; [apply G|]. unfold real_sph_harm.
  destruct (Z.ltb_spec m 0); [|destruct (Z.eqb_spec m 0)]; rewrite G; unfold times; cbn [fst snd]; rewrite ?sign_opp; try ring.
Qed.

(** conjugation symmetry; [tgamma] positive on the arguments used *)
Hypothesis Hg : forall t, 0 < t -> 0 < tgamma t.

Lemma amp_neg l m p : (0 < m <= Z.of_nat l)%Z -> amp l (- m) p = sign m * amp l m p.
Proof.
  intros Hm. unfold amp. destruct (Z.leb_spec 0 (- m)); [lia|]. destruct (Z.leb_spec 0 m); [|lia].
  rewrite Z.opp_involutive, !opp_IZR, !sign_pow, sign_opp.
  assert (Hl : IZR m <= IZR (Z.of_nat l)) by (apply IZR_le; lia).
  assert (Hp : 0 < IZR m) by (apply IZR_lt; lia).
  set (lz := IZR (Z.of_nat l)) in *. set (mz := IZR m) in *.
  replace (1 + lz - - mz) with (1 + lz + mz) by ring. replace (1 + lz + - mz) with (1 + lz - mz) by ring.
  pose proof (Hg (1+lz+mz) ltac:(lra)) as G1. pose proof (Hg (1+lz-mz) ltac:(lra)) as G2.
  set (a := tgamma (1+lz+mz)) in *. set (b := tgamma (1+lz-mz)) in *.
  set (k := (2*lz+1)/(4*PI)).
  assert (Hk : 0 < k). { unfold k. apply Rdiv_lt_0_compat; [lra|]. pose proof PI_RGT_0. lra. }
  assert (E : sqrt (k * a / b) = sqrt (k * b / a) * (a / b)).
  { apply sqrt_lem_1.
    - left. apply Rdiv_lt_0_compat; [apply Rmult_lt_0_compat|]; assumption.
    - apply Rmult_le_pos; [apply sqrt_pos|]. left. apply Rdiv_lt_0_compat; assumption.
    - replace (sqrt (k*b/a) * (a/b) * (sqrt (k*b/a) * (a/b))) with (sqrt (k*b/a) * sqrt (k*b/a) * ((a/b) * (a/b))) by ring.
      rewrite sqrt_sqrt. { field. lra. }
      left. apply Rdiv_lt_0_compat; [apply Rmult_lt_0_compat|]; assumption. }
  rewrite E. pose proof (sign_sq m) as S.
  set (c := sqrt (k*b/a)) in *. set (P := assoc_legendre l (Z.to_nat m) (cos p)).
  transitivity ((sign m * sign m) * c * P). { field. lra. }
  ring.
Qed.

Lemma phase_neg m a : phase (- m) a = conj (phase m a).
Proof.
  rewrite !phase_eq, opp_IZR, !Ropp_mult_distr_l_reverse, cos_neg, sin_neg. reflexivity.
Qed.

Lemma sph_harm_conj l m p a : (- Z.of_nat l <= m <= Z.of_nat l)%Z -> Y l (- m) p a = times (sign m) (conj (Y l m p a)).
Proof.
  intros Hm.
  assert (K : forall m, (0 < m <= Z.of_nat l)%Z -> Y l (- m) p a = times (sign m) (conj (Y l m p a))).
  { intros q Hq. rewrite !sph_harm_amp, amp_neg, phase_neg by assumption. unfold cscale, times, conj. cbn [fst snd].
    apply f_equal2; ring. }
  destruct (Z.lt_trichotomy m 0) as [H|[H|H]].
  - pose proof (K (- m)%Z ltac:(lia)) as E. rewrite Z.opp_involutive in E. rewrite E.
    rewrite sign_opp. pose proof (sign_sq m) as S. unfold times, conj. cbn [fst snd].
    destruct (Y l (- m) p a) as [u v]. cbn [fst snd]. apply f_equal2.
    + rewrite <- Rmult_assoc, S. ring.
    + transitivity (sign m * sign m * v); [rewrite S|]; ring.
  - subst m. rewrite Z.opp_0, sph_harm_amp, phase_eq. unfold conj, times, cscale. cbn [fst snd]. rewrite Rmult_0_l, sin_0, cos_0.
    change (sign 0) with 1. generalize (amp l 0 p). intros t. apply f_equal2; ring.
  - apply K. lia.
Qed.

(** the complex harmonics are the change of basis of sphericart_sph_harm applied to real_sph_harm *)
Lemma basis_change l m p a : (- Z.of_nat l <= m <= Z.of_nat l)%Z -> centry (fun q => RY l q p a) m = Y l m p a.
Proof.
  intros Hm. pose proof (sqrt_lt_R0 2 ltac:(lra)) as H2. pose proof (sign_sq m) as S.
  unfold centry, real_sph_harm. destruct (Z.ltb_spec m 0) as [H|H].
  - destruct (Z.ltb_spec (- m) 0); [lia|]. destruct (Z.eqb_spec (- m) 0); [lia|].
    pose proof (sph_harm_conj l (- m) p a ltac:(lia)) as E. rewrite Z.opp_involutive in E. rewrite E.
    rewrite !sign_pow, sign_opp. unfold times, conj. cbn [fst snd]. apply f_equal2; field; lra.
  - destruct (Z.eqb_spec m 0) as [E|E].
    + subst m. cbn [Z.ltb Z.eqb Z.compare]. rewrite !sph_harm_amp, phase_eq. unfold cscale. cbn [fst snd].
      rewrite Rmult_0_l, sin_0. rewrite Rmult_0_r. reflexivity.
    + destruct (Z.ltb_spec (- m) 0); [|lia]. rewrite Z.opp_involutive, !sign_pow, sign_opp.
      destruct (Y l m p a) as [u v]. cbn [fst snd]. apply f_equal2.
      * transitivity (sign m * sign m * u); [field; lra|rewrite S; ring].
      * transitivity (sign m * sign m * v); [field; lra|rewrite S; ring].
Qed.
End Oracle.

Lemma xyz_refuted tgamma al : tgamma 1 = 1 -> tgamma 3 = 2 -> (forall t, al 1%nat 1%nat t = sqrt (1 - t*t)) ->
  sph_harm_xyz tgamma al 1 1 (-1) 0 0 <> sph_harm tgamma al 1 1 (acos (0 / sqrt (-1 * -1 + 0*0 + 0*0))) PI /\
  real_sph_harm_xyz tgamma al 1 1 (-1) 0 0 <> real_sph_harm tgamma al 1 1 (acos (0 / sqrt (-1 * -1 + 0*0 + 0*0))) PI.
Proof.
  intros G1 G3 Hal.
  destruct (xyz_half tgamma al 1 1 (-1) 0 ltac:(lra)) as [U1 U2]. rewrite U1, U2. change (sign 1) with (-1).
  assert (F : fst (sph_harm_xyz tgamma al 1 1 (-1) 0 0) <> 0).
  { unfold sph_harm_xyz. cbv zeta. fold (az (-1) 0). rewrite (az_half (-1)) by lra.
    rewrite sph_harm_amp, phase_eq, (Rmult_0_r 1), cos_0. unfold cscale, amp. cbn [fst snd Z.leb Z.compare Z.of_nat Pos.of_succ_nat].
    replace (Z.to_nat 1) with 1%nat by reflexivity. rewrite Hal, Rmult_1_r.
    replace (-1 * -1 + 0*0 + 0*0) with 1 by ring. rewrite sqrt_1. replace (0 / 1) with 0 by field.
    rewrite cos_acos by lra. replace (1 - 0*0) with 1 by ring. rewrite sqrt_1.
    replace (1 + 1 - 1) with 1 by ring. replace (1 + 1 + 1) with 3 by ring. rewrite G1, G3.
    rewrite sign_pow; change (sign 1) with (-1).
    pose proof PI_RGT_0. assert (0 < sqrt ((2*1+1)/(4*PI)*1/2)).
    { apply sqrt_lt_R0. apply Rdiv_lt_0_compat; [|lra]. rewrite Rmult_1_r. apply Rdiv_lt_0_compat; lra. }
    lra. }
  split.
  - intros E. apply (f_equal fst) in E. unfold times in E. cbn [fst] in E. lra.
  - assert (Q : real_sph_harm_xyz tgamma al 1 1 (-1) 0 0 = sqrt 2 * -1 * fst (sph_harm_xyz tgamma al 1 1 (-1) 0 0)).
    { unfold real_sph_harm_xyz, real_sph_harm, sph_harm_xyz. cbn [Z.ltb Z.eqb Z.compare].
      rewrite sign_pow; change (sign 1) with (-1). reflexivity. }
    rewrite Q. set (f := fst _) in *. pose proof (sqrt_lt_R0 2 ltac:(lra)).
    intros E. apply F. apply (Rmult_eq_reg_l (sqrt 2)); lra.
Qed.
