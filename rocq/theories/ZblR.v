(** Analysis of the ZBL model over the reals. *)
From Coq Require Import Reals List Arith ZArith Lra Lia.
From Coquelicot Require Import Coquelicot.
From Verif Require Import Base BaseLemmas Instances RSums ZblModel.
Import ListNotations.
Local Open Scope R_scope.

(** ** Envelope polynomial in x = r / r_max, p = n + 1 *)
Definition Penv (n : nat) (x : R) : R :=
  let q := INR (S n) in
  1 - (q + 1) * (q + 2) / 2 * x ^ (S n) + q * (q + 2) * x ^ (S (S n)) - q * (q + 1) / 2 * x ^ (S (S (S n))).

Definition dPenv (n : nat) (x : R) : R :=
  let q := INR (S n) in - (q * (q + 1) * (q + 2) / 2) * x ^ n * (1 - x) ^ 2.

Lemma Penv_deriv n x : derivable_pt_lim (Penv n) x (dPenv n x).
Proof.
  apply is_derive_Reals. unfold Penv, dPenv.
  auto_derive; [ easy | ].
  cbn [pred]. change (match n with O => 1 | S _ => INR n + 1 end) with (INR (S n)). rewrite !S_INR. cbn [pow]. set (y := x ^ n). set (q := INR n). field.
Qed.

Lemma Penv_0 n : Penv n 0 = 1.
Proof. unfold Penv. rewrite !pow_i by lia. ring. Qed.

Lemma Penv_1 n : Penv n 1 = 0.
Proof. unfold Penv. rewrite !pow1. field. Qed.

Lemma dPenv_1 n : dPenv n 1 = 0.
Proof. unfold dPenv. replace ((1 - 1) ^ 2) with 0 by ring. ring. Qed.

Lemma dPenv_nonpos n x : 0 <= x -> dPenv n x <= 0.
Proof.
  intros Hx. unfold dPenv.
  pose proof (pos_INR (S n)) as Hq. set (q := INR (S n)) in *.
  assert (0 <= x ^ n) by (apply pow_le; assumption).
  assert (0 <= (1 - x) ^ 2) by (apply pow2_ge_0).
  assert (0 <= q * (q + 1) * (q + 2) / 2).
  { apply Rmult_le_pos; [ repeat apply Rmult_le_pos; lra | lra ]. }
  assert (0 <= (q * (q + 1) * (q + 2) / 2) * x ^ n * (1 - x) ^ 2) by (apply Rmult_le_pos; [ apply Rmult_le_pos | ]; assumption).
  lra.
Qed.

Lemma Penv_decr n x y : 0 <= x <= y -> Penv n y <= Penv n x.
Proof.
  intros [H0 H]. destruct (Req_dec x y) as [->|Hne]; [ lra | ].
  destruct (MVT_cor2 (Penv n) (dPenv n) x y) as (c & Hc & Hc2); [ lra | intros; apply Penv_deriv | ].
  pose proof (dPenv_nonpos n c). nra.
Qed.

(** ** The model's envelope is that polynomial *)
Lemma npowi_nat x (n : nat) : @npowi RNum x (Z.of_nat n) = x ^ n.
Proof. simpl. symmetry. apply pow_powerRZ. Qed.

Lemma IZR_S n : IZR (Z.of_nat (S n)) = INR (S n).
Proof. symmetry. apply INR_IZR_INZ. Qed.

Lemma env_in r rm n : r < rm ->
  compute_envelope (N:=RNum) r rm (Z.of_nat (S n)) = Penv n (r / rm).
Proof.
  intros H. unfold compute_envelope.
  change (@nleb RNum rm r) with (if Rle_dec rm r then true else false).
  destruct (Rle_dec rm r); [ lra | ].
  replace (Z.of_nat (S n) + 1)%Z with (Z.of_nat (S (S n))) by lia.
  replace (Z.of_nat (S n) + 2)%Z with (Z.of_nat (S (S (S n)))) by lia.
  rewrite !npowi_nat, !RNum_ofZ, RNum_one, IZR_S. unfold Penv. simpl nadd; simpl nmul; simpl nsub; simpl ndiv.
  reflexivity.
Qed.

Lemma env_out r rm p : rm <= r -> compute_envelope (N:=RNum) r rm p = 0.
Proof.
  intros H. unfold compute_envelope.
  change (@nleb RNum rm r) with (if Rle_dec rm r then true else false).
  destruct (Rle_dec rm r); [ reflexivity | lra ].
Qed.

Lemma envg_in r rm n : r < rm ->
  compute_envelope_gradient (N:=RNum) r rm (Z.of_nat (S n)) = dPenv n (r / rm) / rm.
Proof.
  intros H. unfold compute_envelope_gradient.
  change (@nleb RNum rm r) with (if Rle_dec rm r then true else false).
  destruct (Rle_dec rm r); [ lra | ].
  replace (Z.of_nat (S n) + 1)%Z with (Z.of_nat (S (S n))) by lia.
  replace (Z.of_nat (S n) - 1)%Z with (Z.of_nat n) by lia.
  rewrite !npowi_nat, !RNum_ofZ, RNum_one, IZR_S. unfold dPenv.
  simpl nadd; simpl nmul; simpl nsub; simpl ndiv; simpl nopp.
  unfold Rdiv. apply f_equal2; [ | reflexivity ].
  change ((r * / rm) ^ (S n)) with ((r * / rm) * (r * / rm) ^ n).
  change ((r * / rm) ^ (S (S n))) with ((r * / rm) * ((r * / rm) * (r * / rm) ^ n)).
  change (match n with O => 1 | S _ => INR n + 1 end) with (INR (S n)). set (x := r * / rm). set (q := INR (S n)). field.
Qed.

Lemma envg_out r rm p : rm <= r -> compute_envelope_gradient (N:=RNum) r rm p = 0.
Proof.
  intros H. unfold compute_envelope_gradient.
  change (@nleb RNum rm r) with (if Rle_dec rm r then true else false).
  destruct (Rle_dec rm r); [ reflexivity | lra ].
Qed.

(** ** Gluing two differentiable pieces *)
Lemma dlim_glue (f g h : R -> R) x l :
  derivable_pt_lim f x l -> derivable_pt_lim g x l ->
  (forall y, y < x -> h y = f y) -> (forall y, x <= y -> h y = g y) -> f x = g x ->
  derivable_pt_lim h x l.
Proof.
  intros Hf Hg H1 H2 E eps Heps.
  destruct (Hf eps Heps) as [d1 D1]. destruct (Hg eps Heps) as [d2 D2].
  assert (Hd : 0 < Rmin d1 d2) by (apply Rmin_pos; [ apply (cond_pos d1) | apply (cond_pos d2) ]).
  exists (mkposreal _ Hd). intros k Hk Hk2. simpl in Hk2.
  destruct (Rlt_le_dec (x + k) x) as [Hlt|Hge].
  - rewrite (H1 (x + k)) by assumption. rewrite (H2 x) by lra. rewrite <- E.
    apply D1; [ assumption | ]. eapply Rlt_le_trans; [ exact Hk2 | apply Rmin_l ].
  - rewrite (H2 (x + k)) by lra. rewrite (H2 x) by lra.
    apply D2; [ assumption | ]. eapply Rlt_le_trans; [ exact Hk2 | apply Rmin_r ].
Qed.

Lemma Penv_scaled_deriv n rm r : rm <> 0 ->
  derivable_pt_lim (fun r => Penv n (r / rm)) r (dPenv n (r / rm) / rm).
Proof.
  intros Hrm. apply dlim_eq with (dPenv n (r / rm) * (1 / rm)); [ field; assumption | ].
  apply (dlim_comp (fun r => r / rm) (Penv n)); [ | apply Penv_deriv ].
  apply is_derive_Reals. auto_derive; [ exact I | field; assumption ].
Qed.

Lemma env_deriv n rm r : 0 < rm ->
  derivable_pt_lim (fun r => compute_envelope (N:=RNum) r rm (Z.of_nat (S n))) r
    (compute_envelope_gradient (N:=RNum) r rm (Z.of_nat (S n))).
Proof.
  intros Hrm. destruct (Rtotal_order r rm) as [H|[H|H]].
  - rewrite envg_in by assumption.
    apply (dlim_ext_loc (fun r => Penv n (r / rm))) with (del := rm - r); [ lra | | apply Penv_scaled_deriv; lra ].
    intros y Hy. symmetry. apply env_in. apply Rabs_def2 in Hy. lra.
  - subst r. rewrite envg_out by lra.
    apply (dlim_glue (fun r => Penv n (r / rm)) (fun _ => 0)).
    + apply dlim_eq with (dPenv n (rm / rm) / rm); [ | apply Penv_scaled_deriv; lra ].
      replace (rm / rm) with 1 by (field; lra). rewrite dPenv_1. field; lra.
    + apply dlim_const.
    + intros. apply env_in. assumption.
    + intros. apply env_out. assumption.
    + replace (rm / rm) with 1 by (field; lra). apply Penv_1.
  - rewrite envg_out by lra.
    apply (dlim_ext_loc (fun _ => 0)) with (del := r - rm); [ lra | | apply dlim_const ].
    intros y Hy. symmetry. apply env_out. apply Rabs_def2 in Hy. lra.
Qed.

Lemma env_le1 n rm r : 0 < rm -> 0 <= r ->
  0 <= compute_envelope (N:=RNum) r rm (Z.of_nat (S n)) <= 1.
Proof.
  intros Hrm Hr. destruct (Rlt_le_dec r rm) as [H|H].
  - rewrite env_in by assumption.
    assert (Hx : 0 <= r / rm <= 1).
    { split; [ apply Rmult_le_pos; [ lra | apply Rlt_le, Rinv_0_lt_compat; lra ] | ].
      apply Rmult_le_reg_r with rm; [ lra | ]. unfold Rdiv. rewrite Rmult_assoc, Rinv_l by lra. lra. }
    split.
    + rewrite <- (Penv_1 n). apply Penv_decr. exact Hx.
    + rewrite <- (Penv_0 n). apply Penv_decr. lra.
  - rewrite env_out by assumption. lra.
Qed.

Lemma envg_nonpos n rm r : 0 < rm -> 0 <= r ->
  compute_envelope_gradient (N:=RNum) r rm (Z.of_nat (S n)) <= 0.
Proof.
  intros Hrm Hr. destruct (Rlt_le_dec r rm) as [H|H].
  - rewrite envg_in by assumption.
    assert (Hi : 0 < / rm) by (apply Rinv_0_lt_compat; assumption).
    assert (dPenv n (r / rm) <= 0) by (apply dPenv_nonpos; apply Rmult_le_pos; lra).
    unfold Rdiv at 1. nra.
  - rewrite envg_out by assumption. lra.
Qed.

Lemma env_decr n rm x y : 0 < rm -> 0 <= x <= y ->
  compute_envelope (N:=RNum) y rm (Z.of_nat (S n)) <= compute_envelope (N:=RNum) x rm (Z.of_nat (S n)).
Proof.
  intros Hrm [H0 H]. destruct (Rlt_le_dec y rm) as [Hy|Hy].
  - rewrite !env_in by lra. apply Penv_decr.
    assert (Hi : 0 < / rm) by (apply Rinv_0_lt_compat; assumption).
    split; [ apply Rmult_le_pos; lra | apply Rmult_le_compat_r; lra ].
  - rewrite env_out by assumption. apply env_le1; assumption.
Qed.

Lemma env_0 n rm : 0 < rm -> compute_envelope (N:=RNum) 0 rm (Z.of_nat (S n)) = 1.
Proof. intros. rewrite env_in by assumption. unfold Rdiv. rewrite Rmult_0_l. apply Penv_0. Qed.

(** ** The whole potential *)
Section Pot.
Variable z : ZBL RNum.
Variables Zu Zv : nat.
Variables ru rv c0 c1 c2 c3 : R.
Variable n : nat.
Hypothesis Hru : rd (z_covalent_radii z) Zu = Some ru.
Hypothesis Hrv : rd (z_covalent_radii z) Zv = Some rv.
Hypothesis Hc : z_c z = [c0; c1; c2; c3].
Hypothesis Hp : z_p z = Z.of_nat (S n).

Definition za : R := z_a_prefactor z * (529/1000) / (Rpower (INR Zu) (z_a_exp z) + Rpower (INR Zv) (z_a_exp z)).
Definition zphi (r : R) : R :=
  c0 * exp (-32/10 * (r / za)) + c1 * exp (-9423/10000 * (r / za))
  + c2 * exp (-4028/10000 * (r / za)) + c3 * exp (-2016/10000 * (r / za)).
Definition zdphi (r : R) : R :=
  (-32/10 * (c0 * exp (-32/10 * (r / za))) + -9423/10000 * (c1 * exp (-9423/10000 * (r / za)))
  + -4028/10000 * (c2 * exp (-4028/10000 * (r / za))) + -2016/10000 * (c3 * exp (-2016/10000 * (r / za)))) / za.
Definition zpre : R := 143996/10000 * INR Zu * INR Zv.
Definition zE (r : R) : R :=
  zpre / r * zphi r * (1/2 * compute_envelope (N:=RNum) r (ru + rv) (z_p z)).
Definition zG (r : R) : R :=
  1/2 * (zpre / r * zphi r * compute_envelope_gradient (N:=RNum) r (ru + rv) (z_p z)
         + zpre * (r * zdphi r - zphi r) / (r * r) * compute_envelope (N:=RNum) r (ru + rv) (z_p z)).

Lemma rd_c : rd (z_c z) 0 = Some c0 /\ rd (z_c z) 1 = Some c1 /\ rd (z_c z) 2 = Some c2 /\ rd (z_c z) 3 = Some c3.
Proof. rewrite Hc. repeat split. Qed.

Lemma compute_zE r : zbl_compute z Zu Zv r = Some (zE r).
Proof.
  unfold zbl_compute. destruct rd_c as (E0 & E1 & E2 & E3).
  rewrite Hru, Hrv, E0, E1, E2, E3. cbn [bind]. rewrite !RNum_ofnat.
  unfold c_exps_0, c_exps_1, c_exps_2, c_exps_3, v_prefactor. reflexivity.
Qed.

Lemma compute_zG r : zbl_compute_gradient z Zu Zv r = Some (zG r).
Proof.
  unfold zbl_compute_gradient. destruct rd_c as (E0 & E1 & E2 & E3).
  rewrite Hru, Hrv, E0, E1, E2, E3. cbn [bind]. rewrite !RNum_ofnat.
  unfold c_exps_0, c_exps_1, c_exps_2, c_exps_3, v_prefactor. reflexivity.
Qed.

Lemma zphi_deriv r : derivable_pt_lim zphi r (zdphi r).
Proof.
  apply is_derive_Reals. unfold zphi, zdphi. auto_derive; [ easy | ]. unfold Rdiv. ring.
Qed.

Lemma zE_deriv r : 0 < ru + rv -> 0 < r -> derivable_pt_lim zE r (zG r).
Proof.
  intros Hrm Hr. unfold zE.
  apply dlim_eq with
    ((zpre * (r * zdphi r - zphi r) / (r * r)) * (1/2 * compute_envelope (N:=RNum) r (ru + rv) (z_p z))
     + (zpre / r * zphi r) * (1/2 * compute_envelope_gradient (N:=RNum) r (ru + rv) (z_p z))).
  { unfold zG. ring. }
  apply (dlim_mult (fun r => zpre / r * zphi r) (fun r => 1/2 * compute_envelope (N:=RNum) r (ru + rv) (z_p z))).
  - apply dlim_eq with ((- zpre / (r * r)) * zphi r + (zpre / r) * zdphi r).
    { field. lra. }
    apply (dlim_mult (fun r => zpre / r) zphi).
    + apply is_derive_Reals. auto_derive; [ lra | field; lra ].
    + apply zphi_deriv.
  - apply (dlim_scal (1/2)). rewrite Hp. apply env_deriv. exact Hrm.
Qed.

Lemma zE_out r : ru + rv <= r -> zE r = 0 /\ zG r = 0.
Proof. intros H. unfold zE, zG. rewrite env_out, envg_out by exact H. split; ring. Qed.

Lemma zphi_nonneg r : 0 <= c0 -> 0 <= c1 -> 0 <= c2 -> 0 <= c3 -> 0 <= zphi r.
Proof.
  intros. unfold zphi.
  repeat apply Rplus_le_le_0_compat; apply Rmult_le_pos; try assumption; apply Rlt_le, exp_pos.
Qed.

Lemma zdphi_nonpos r : 0 <= c0 -> 0 <= c1 -> 0 <= c2 -> 0 <= c3 -> 0 < za -> zdphi r <= 0.
Proof.
  intros H0 H1 H2 H3 Ha. unfold zdphi. unfold Rdiv at 1.
  assert (Hi : 0 < / za) by (apply Rinv_0_lt_compat; assumption).
  assert (P0 := Rmult_le_pos _ _ H0 (Rlt_le _ _ (exp_pos (-32/10 * (r / za))))).
  assert (P1 := Rmult_le_pos _ _ H1 (Rlt_le _ _ (exp_pos (-9423/10000 * (r / za))))).
  assert (P2 := Rmult_le_pos _ _ H2 (Rlt_le _ _ (exp_pos (-4028/10000 * (r / za))))).
  assert (P3 := Rmult_le_pos _ _ H3 (Rlt_le _ _ (exp_pos (-2016/10000 * (r / za))))).
  match goal with |- ?s * _ <= 0 => assert (s <= 0) by lra end. nra.
Qed.

Lemma za_pos : 0 < z_a_prefactor z -> 0 < za.
Proof.
  intros H. unfold za. unfold Rdiv. apply Rmult_lt_0_compat; [ lra | ].
  apply Rinv_0_lt_compat. unfold Rpower.
  pose proof (exp_pos (z_a_exp z * ln (INR Zu))). pose proof (exp_pos (z_a_exp z * ln (INR Zv))). lra.
Qed.

Lemma zpre_nonneg : 0 <= zpre.
Proof. unfold zpre. pose proof (pos_INR Zu). pose proof (pos_INR Zv). repeat apply Rmult_le_pos; lra. Qed.

Lemma zE_nonneg r : 0 < ru + rv -> 0 <= c0 -> 0 <= c1 -> 0 <= c2 -> 0 <= c3 -> 0 < r -> 0 <= zE r.
Proof.
  intros Hrm H0 H1 H2 H3 Hr. unfold zE. rewrite Hp.
  destruct (env_le1 n (ru + rv) r Hrm (Rlt_le _ _ Hr)) as [He _].
  pose proof zpre_nonneg. pose proof (zphi_nonneg r H0 H1 H2 H3).
  assert (0 < / r) by (apply Rinv_0_lt_compat; assumption).
  apply Rmult_le_pos; [ apply Rmult_le_pos; [ apply Rmult_le_pos; lra | assumption ] | lra ].
Qed.

Lemma zG_nonpos r : 0 < ru + rv -> 0 <= c0 -> 0 <= c1 -> 0 <= c2 -> 0 <= c3 ->
  0 < z_a_prefactor z -> 0 < r -> zG r <= 0.
Proof.
  intros Hrm H0 H1 H2 H3 Ha Hr. unfold zG. rewrite Hp.
  destruct (env_le1 n (ru + rv) r Hrm (Rlt_le _ _ Hr)) as [He _].
  pose proof (envg_nonpos n (ru + rv) r Hrm (Rlt_le _ _ Hr)) as Hg.
  pose proof zpre_nonneg as Hpre. pose proof (zphi_nonneg r H0 H1 H2 H3) as Hph.
  pose proof (zdphi_nonpos r H0 H1 H2 H3 (za_pos Ha)) as Hd.
  assert (Hi : 0 < / r) by (apply Rinv_0_lt_compat; assumption).
  assert (Hi2 : 0 < / (r * r)) by (apply Rinv_0_lt_compat; nra).
  set (e := compute_envelope _ _ _) in *. set (g := compute_envelope_gradient _ _ _) in *.
  assert (A : 0 <= zpre / r * zphi r) by (apply Rmult_le_pos; [ apply Rmult_le_pos; lra | assumption ]).
  assert (B : zpre * (r * zdphi r - zphi r) / (r * r) <= 0).
  { assert (r * zdphi r - zphi r <= 0) by nra.
    assert (zpre * (r * zdphi r - zphi r) <= 0) by nra. unfold Rdiv. nra. }
  assert (zpre / r * zphi r * g <= 0) by nra.
  assert (zpre * (r * zdphi r - zphi r) / (r * r) * e <= 0) by nra. lra.
Qed.

End Pot.

(** symmetry, for any arithmetic in which addition and multiplication of two scalars commute and
    the prefactor product associates: over the reals *)
Lemma zE_sym (z : ZBL RNum) Zu Zv r : zbl_compute z Zu Zv r = zbl_compute z Zv Zu r.
Proof.
  unfold zbl_compute.
  destruct (rd (z_covalent_radii z) Zu) as [ru|]; destruct (rd (z_covalent_radii z) Zv) as [rv|];
    cbn [bind]; try reflexivity.
  destruct (rd (z_c z) 0); [ | reflexivity ]. destruct (rd (z_c z) 1); [ | reflexivity ].
  destruct (rd (z_c z) 2); [ | reflexivity ]. destruct (rd (z_c z) 3); [ | reflexivity ]. cbn [bind].
  f_equal.
  replace (@nadd RNum ru rv) with (@nadd RNum rv ru) by apply Rplus_comm.
  replace (@nadd RNum (npow (nofnat Zu) (z_a_exp z)) (npow (nofnat Zv) (z_a_exp z)))
     with (@nadd RNum (npow (nofnat Zv) (z_a_exp z)) (npow (nofnat Zu) (z_a_exp z))) by apply Rplus_comm.
  replace (@nmul RNum (@nmul RNum v_prefactor (nofnat Zu)) (nofnat Zv))
     with (@nmul RNum (@nmul RNum v_prefactor (nofnat Zv)) (nofnat Zu)); [ reflexivity | ].
  simpl. ring.
Qed.
