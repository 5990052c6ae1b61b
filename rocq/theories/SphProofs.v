(** The statements of PropertiesSph assembled. *)
From Coq Require Import List Arith ZArith Lia Reals Lra.
From Verif Require Import Base BaseLemmas Instances SphModel SphSpec SphLemmas SphAngles.
Import ListNotations.
Local Open Scope R_scope.

Lemma conjugation : forall (sph : nat -> R -> R -> R -> list R) L n xyz,
  sphericart_len (N:=RNum) sph -> length xyz = (3 * n)%nat ->
  exists C, sphericart_complex (N:=RNum) sph L xyz = Some C /\ length C = (n * ((L+1)*(L+1)))%nat /\
    forall i l m, (i < n)%nat -> (l <= L)%nat -> (- Z.of_nat l <= m <= Z.of_nat l)%Z ->
      nth (lm L i l (- m)) C (0,0) = times (sign m) (conj (nth (lm L i l m) C (0,0))).
Proof.
  intros sph L n xyz HL HX. destruct (complex_R sph HL L n xyz HX) as [C [E [HC K]]].
  exists C. split; [exact E|]. split; [exact HC|]. intros i l m Hi Hl Hm.
  transitivity (centry (rval sph L xyz i l) (- m)); [apply K; lia|].
  rewrite centry_conj. apply f_equal. apply f_equal. symmetry. apply K; assumption.
Qed.

Lemma norm_kept : forall (sph : nat -> R -> R -> R -> list R) L n xyz,
  sphericart_len (N:=RNum) sph -> length xyz = (3 * n)%nat ->
  exists C, sphericart_complex (N:=RNum) sph L xyz = Some C /\
    forall i l, (i < n)%nat -> (l <= L)%nat ->
      let real := sph L (nth (3*i) xyz 0) (nth (3*i+1) xyz 0) (nth (3*i+2) xyz 0) in
      sum_m l (fun m => abs2 (nth (lm L i l m) C (0,0))) = sum_m l (fun m => nth (lm L 0 l m) real 0 * nth (lm L 0 l m) real 0).
Proof.
  intros sph L n xyz HL HX. destruct (complex_R sph HL L n xyz HX) as [C [E [HC K]]].
  exists C. split; [exact E|]. intros i l Hi Hl real.
  etransitivity; [|exact (centry_norm (rval sph L xyz i l) l)].
  apply sum_m_ext. intros m Hm. apply f_equal. apply K; assumption.
Qed.

Lemma single_same : forall (sph : nat -> R -> R -> R -> list R) L n xyz,
  sphericart_len (N:=RNum) sph -> sphericart_stable (N:=RNum) sph -> length xyz = (3 * n)%nat ->
  exists C, sphericart_complex (N:=RNum) sph L xyz = Some C /\
    forall i l m, (i < n)%nat -> (l <= L)%nat -> (- Z.of_nat l <= m <= Z.of_nat l)%Z ->
      sphericart_sph_harm (N:=RNum) sph (Z.of_nat l) m (nth (3*i) xyz 0) (nth (3*i+1) xyz 0) (nth (3*i+2) xyz 0)
      = Some (nth (lm L i l m) C (0,0)).
Proof.
  intros sph L n xyz HL HS HX. destruct (complex_R sph HL L n xyz HX) as [C [E [HC K]]].
  exists C. split; [exact E|]. intros i l m Hi Hl Hm.
  etransitivity; [exact (single_R sph HL HS L n xyz i l m HX Hi Hl Hm)|].
  apply f_equal. symmetry. apply K; assumption.
Qed.

Definition ex_sph (L : nat) (x y z : R) : list R := map (fun k => INR k + x) (seq 0 ((L+1)*(L+1))).

Lemma ex_sph_ok :
  sphericart_len (N:=RNum) ex_sph /\ sphericart_stable (N:=RNum) ex_sph /\ length [1; 2; 3; -1; 0; 5] = (3 * 2)%nat /\
  lm 2 1 2 (-1) = 14%nat /\ sum_m 1 (fun m => nth (lm 2 0 1 m) (ex_sph 2 (-1) 0 5) 0 * nth (lm 2 0 1 m) (ex_sph 2 (-1) 0 5) 0) = 5.
Proof.
  split; [|split; [|split; [|split]]].
  - intros L x y z. unfold ex_sph. rewrite map_length, seq_length. reflexivity.
  - intros L L' x y z k Hk HL. unfold ex_sph. rewrite !nth_error_map.
    assert (P : forall n, (k < n)%nat -> nth_error (seq 0 n) k = Some k).
    { intros n Hn. rewrite (nth_error_nth' _ 0%nat) by (rewrite seq_length; lia). rewrite seq_nth by lia. reflexivity. }
    rewrite !P by nia. reflexivity.
  - reflexivity.
  - reflexivity.
  - unfold sum_m, ex_sph, lm. cbn -[Rplus Rmult INR IZR]. rewrite !INR_IZR_INZ. cbn [Z.of_nat Pos.of_succ_nat Pos.succ]. change (Pos.to_nat 1) with 1%nat. change (Pos.to_nat 2) with 2%nat. change (Pos.to_nat 3) with 3%nat. lra.
Qed.

Lemma xyz_off : forall tgamma assoc_legendre l m x y z phi rho,
  0 < rho -> x = rho * cos phi -> y = rho * sin phi -> y <> 0 \/ 0 < x ->
  sph_harm_xyz tgamma assoc_legendre l m x y z = sph_harm tgamma assoc_legendre l m (acos (z / sqrt (x*x+y*y+z*z))) phi
  /\ real_sph_harm_xyz tgamma assoc_legendre l m x y z = real_sph_harm tgamma assoc_legendre l m (acos (z / sqrt (x*x+y*y+z*z))) phi.
Proof. intros. apply (xyz_ok _ _ l m x y z phi rho); assumption. Qed.

Lemma xyz_half : forall tgamma assoc_legendre l m x z, x < 0 ->
  sph_harm tgamma assoc_legendre l m (acos (z / sqrt (x*x+0*0+z*z))) PI = times (sign m) (sph_harm_xyz tgamma assoc_legendre l m x 0 z)
  /\ real_sph_harm tgamma assoc_legendre l m (acos (z / sqrt (x*x+0*0+z*z))) PI
     = sign m * real_sph_harm_xyz tgamma assoc_legendre l m x 0 z.
Proof. intros. apply SphAngles.xyz_half. assumption. Qed.

Lemma xyz_wrong : forall tgamma assoc_legendre,
  tgamma 1 = 1 -> tgamma 3 = 2 -> (forall t, assoc_legendre 1%nat 1%nat t = sqrt (1 - t*t)) ->
  exists x y z rho phi, 0 < rho /\ x = rho * cos phi /\ y = rho * sin phi /\
    sph_harm_xyz tgamma assoc_legendre 1 1 x y z <> sph_harm tgamma assoc_legendre 1 1 (acos (z / sqrt (x*x+y*y+z*z))) phi /\
    real_sph_harm_xyz tgamma assoc_legendre 1 1 x y z <> real_sph_harm tgamma assoc_legendre 1 1 (acos (z / sqrt (x*x+y*y+z*z))) phi.
Proof.
  intros tg al G1 G3 Ha. exists (-1), 0, 0, 1, PI. rewrite cos_PI, sin_PI.
  split; [lra|]. split; [lra|]. split; [lra|]. apply xyz_refuted; assumption.
Qed.

Lemma ex_angles :
  (exists tgamma : R -> R, tgamma 1 = 1 /\ tgamma 3 = 2) /\
  0 < 5 /\ exists phi, 3 = 5 * cos phi /\ -4 = 5 * sin phi.
Proof.
  split; [exists (fun t => (t + 1) / 2); lra|]. split; [lra|].
  assert (E : sqrt (3*3 + -4 * -4) = 5) by (apply sqrt_lem_1; lra).
  destruct (az_cos_sin 3 (-4) ltac:(lra)) as [A B]. rewrite E in A, B.
  exists (az 3 (-4)). rewrite A, B. lra.
Qed.

Lemma angular_conj : forall tgamma assoc_legendre, (forall t, 0 < t -> 0 < tgamma t) ->
  forall l m polar azimuth, (- Z.of_nat l <= m <= Z.of_nat l)%Z ->
  sph_harm tgamma assoc_legendre l (- m) polar azimuth = times (sign m) (conj (sph_harm tgamma assoc_legendre l m polar azimuth)).
Proof. intros. apply sph_harm_conj; assumption. Qed.

Lemma basis : forall tgamma assoc_legendre (sph : nat -> R -> R -> R -> list R),
  (forall t, 0 < t -> 0 < tgamma t) ->
  forall l x y z polar azimuth,
  (forall q, (- Z.of_nat l <= q <= Z.of_nat l)%Z ->
     sphericart_real_sph_harm (N:=RNum) sph (Z.of_nat l) q x y z = Some (real_sph_harm tgamma assoc_legendre l q polar azimuth)) ->
  forall m, (- Z.of_nat l <= m <= Z.of_nat l)%Z ->
  sphericart_sph_harm (N:=RNum) sph (Z.of_nat l) m x y z = Some (sph_harm tgamma assoc_legendre l m polar azimuth).
Proof.
  intros tg al sph Hg l x y z p a P m Hm. rewrite <- (basis_change tg al Hg l m p a Hm).
  unfold sphericart_sph_harm, centry. destruct (Z.ltb_spec m 0).
  - rewrite !P by lia. cbn [bind]. unfold cmulr, rsubc, cmulr, cimag. cbn [fst snd]. rewrite ?RNum_zero, ?RNum_one.
    f_equal. apply f_equal2; toR; unfold Rdiv; ring.
  - destruct (Z.eqb_spec m 0).
    + subst m. rewrite !P by lia. cbn [bind]. unfold cofr. rewrite RNum_zero. reflexivity.
    + rewrite !P by lia. cbn [bind]. rewrite <- sign_pow. unfold cmulr, raddc, cmulr, cimag. cbn [fst snd].
      rewrite ?RNum_zero, ?RNum_one. f_equal. apply f_equal2; toR; unfold Rdiv; ring.
Qed.

Lemma ex_basis : exists (tgamma : R -> R) (sph : nat -> R -> R -> R -> list R),
  (forall t, 0 < t -> 0 < tgamma t) /\
  forall l q, (- Z.of_nat l <= q <= Z.of_nat l)%Z ->
    sphericart_real_sph_harm (N:=RNum) sph (Z.of_nat l) q 1 2 3 = Some (real_sph_harm tgamma (fun _ _ t => t) l q 1 2).
Proof.
  exists (fun t => t), (fun L _ _ _ => tab ((L+1)*(L+1)) (fun k => real_sph_harm (fun t => t) (fun _ _ t => t) L (Z.of_nat k - Z.of_nat (L*(L+1))) 1 2)).
  split; [auto|]. intros l q Hq. unfold sphericart_real_sph_harm.
  destruct (Z.leb_spec 0 (Z.of_nat l)); [|lia]. rewrite Nat2Z.id.
  erewrite rdZ_pos with (i := Z.to_nat (Z.of_nat l * (Z.of_nat l + 1) + q)) (d := 0); [|nia|rewrite length_tab; nia].
  rewrite nth_tab by nia. f_equal. f_equal. nia.
Qed.
