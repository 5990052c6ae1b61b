(** Consequences of ZblR in the form used by PropertiesZbl. *)
From Coq Require Import List Arith ZArith Reals Lia Lra.
From Coquelicot Require Import Coquelicot.
From Verif Require Import Base BaseLemmas Instances RSums Segs Sys SysLoops ZblModel ZblR ZblProofs.
Import ListNotations.
Local Open Scope R_scope.

(** the value returned, 0 when there is none (never the case below) *)
Definition getR (o : option R) : R := match o with Some v => v | None => 0 end.

Lemma p_ge2 p : (2 <= p)%Z -> exists n, p = Z.of_nat (S n).
Proof. intros H. exists (Z.to_nat (p - 1)). lia. Qed.

Lemma lemma_C25 (z : ZBL RNum) Zu Zv (ru rv c0 c1 c2 c3 r : R) :
  rd (z_covalent_radii z) Zu = Some ru -> rd (z_covalent_radii z) Zv = Some rv ->
  z_c z = [c0; c1; c2; c3] -> (2 <= z_p z)%Z -> 0 < ru + rv -> 0 < r ->
  (exists E, zbl_compute z Zu Zv r = Some E) /\
  exists G, zbl_compute_gradient z Zu Zv r = Some G /\
    derivable_pt_lim (fun t => getR (zbl_compute z Zu Zv t)) r G.
Proof.
  intros Hu Hv Hc Hp Hrm Hr. destruct (p_ge2 _ Hp) as [n Hn]. split.
  - eexists. eapply compute_zE; eauto.
  - exists (zG z Zu Zv ru rv c0 c1 c2 c3 r). split; [eapply compute_zG; eauto|].
    apply dlim_ext with (zE z Zu Zv ru rv c0 c1 c2 c3).
    + intros t. rewrite (compute_zE z Zu Zv ru rv c0 c1 c2 c3); auto.
    + apply zE_deriv with (n := n); auto.
Qed.

Lemma envg_deriv_at n rm : 0 < rm ->
  derivable_pt_lim (fun r => compute_envelope_gradient (N:=RNum) r rm (Z.of_nat (S n))) rm 0.
Proof.
  intros H. apply dlim_glue with (f := fun r => dPenv n (r / rm) / rm) (g := fun _ => 0).
  - apply dlim_eq with ((dPenv n (rm / rm) * 0 + 0) / rm); [field; lra|].
    apply is_derive_Reals. unfold dPenv. auto_derive; [easy|].
    replace (rm * / rm) with 1 by (field; lra). unfold Rdiv. rewrite Rinv_r by lra.
    replace (1 - 1) with 0 by ring. simpl pow. ring.
  - apply dlim_const.
  - intros y Hy. apply envg_in; auto.
  - intros y Hy. apply envg_out; auto.
  - simpl. replace (rm / rm) with 1 by (field; lra). rewrite dPenv_1. unfold Rdiv. ring.
Qed.

Lemma dl_cont f x l : derivable_pt_lim f x l -> continuity_pt f x.
Proof. intros H. apply derivable_continuous_pt. exists l. exact H. Qed.

Lemma lemma_C26_cont (z : ZBL RNum) Zu Zv (ru rv c0 c1 c2 c3 : R) :
  rd (z_covalent_radii z) Zu = Some ru -> rd (z_covalent_radii z) Zv = Some rv ->
  z_c z = [c0; c1; c2; c3] -> (2 <= z_p z)%Z -> 0 < ru + rv ->
  continuity_pt (fun t => getR (zbl_compute z Zu Zv t)) (ru + rv) /\
  continuity_pt (fun t => getR (zbl_compute_gradient z Zu Zv t)) (ru + rv).
Proof.
  intros Hu Hv Hc Hp Hrm. destruct (p_ge2 _ Hp) as [n Hn].
  pose proof (lemma_C25 z Zu Zv ru rv c0 c1 c2 c3 (ru + rv) Hu Hv Hc Hp Hrm Hrm) as (_ & G & _ & HG).
  split; [exact (dl_cont _ _ _ HG)|].
  assert (D1 : exists l, derivable_pt_lim (fun r => zpre Zu Zv / r * zphi z Zu Zv c0 c1 c2 c3 r) (ru + rv) l).
  { eexists. apply is_derive_Reals. unfold zphi. auto_derive; [repeat split; lra|reflexivity]. }
  assert (D2 : exists l, derivable_pt_lim (fun r => zpre Zu Zv * (r * zdphi z Zu Zv c0 c1 c2 c3 r
                 - zphi z Zu Zv c0 c1 c2 c3 r) / (r * r)) (ru + rv) l).
  { eexists. apply is_derive_Reals. unfold zdphi, zphi. auto_derive; [|reflexivity].
    repeat split; try easy. intros E. apply Rmult_integral in E. lra. }
  destruct D1 as [l1 D1]. destruct D2 as [l2 D2].
  eapply dl_cont. apply dlim_ext with (zG z Zu Zv ru rv c0 c1 c2 c3).
  { intros t. rewrite (compute_zG z Zu Zv ru rv c0 c1 c2 c3); auto. }
  unfold zG. rewrite Hn. apply dlim_scal. apply dlim_plus.
  - apply dlim_mult; [exact D1|apply envg_deriv_at; auto].
  - apply dlim_mult; [exact D2|apply env_deriv; auto].
Qed.

Lemma lemma_C26_support (z : ZBL RNum) Zu Zv (ru rv c0 c1 c2 c3 r : R) :
  rd (z_covalent_radii z) Zu = Some ru -> rd (z_covalent_radii z) Zv = Some rv ->
  z_c z = [c0; c1; c2; c3] -> (2 <= z_p z)%Z -> ru + rv <= r ->
  zbl_compute z Zu Zv r = Some 0 /\ zbl_compute_gradient z Zu Zv r = Some 0.
Proof.
  intros Hu Hv Hc Hp Hr. destruct (p_ge2 _ Hp) as [n Hn].
  rewrite (compute_zE z Zu Zv ru rv c0 c1 c2 c3), (compute_zG z Zu Zv ru rv c0 c1 c2 c3) by auto.
  destruct (zE_out z Zu Zv ru rv c0 c1 c2 c3 r Hr) as [-> ->]. auto.
Qed.

Lemma lemma_C26_env p (rm : R) : (2 <= p)%Z -> 0 < rm ->
  compute_envelope (N:=RNum) 0 rm p = 1 /\
  (forall r, 0 <= r -> 0 <= compute_envelope (N:=RNum) r rm p <= 1) /\
  (forall r r', 0 <= r <= r' -> compute_envelope (N:=RNum) r' rm p <= compute_envelope (N:=RNum) r rm p) /\
  (forall r, rm <= r -> compute_envelope (N:=RNum) r rm p = 0 /\ compute_envelope_gradient (N:=RNum) r rm p = 0).
Proof.
  intros Hp Hrm. destruct (p_ge2 _ Hp) as [n ->]. repeat split.
  - apply env_0; auto.
  - apply env_le1; auto.
  - apply env_le1; auto.
  - intros r r' H. apply env_decr; auto.
  - apply env_out; auto.
  - apply envg_out; auto.
Qed.

Lemma Penv_pos n x : 0 <= x < 1 -> 0 < Penv n x.
Proof.
  intros [H0 H1].
  destruct (MVT_cor2 (Penv n) (dPenv n) x 1) as (c & Hc & Hc2); [lra|intros; apply Penv_deriv|].
  rewrite Penv_1 in Hc.
  assert (dPenv n c < 0).
  { unfold dPenv. pose proof (pos_INR n). rewrite S_INR. set (q := INR n) in *.
    assert (0 < c ^ n) by (apply pow_lt; lra).
    assert (0 < (1 - c) ^ 2) by (apply pow_lt; lra).
    assert (0 < (q + 1) * (q + 1 + 1) * (q + 1 + 2) / 2).
    { unfold Rdiv. repeat apply Rmult_lt_0_compat; lra. }
    assert (0 < ((q + 1) * (q + 1 + 1) * (q + 1 + 2) / 2) * c ^ n * (1 - c) ^ 2)
      by (apply Rmult_lt_0_compat; [apply Rmult_lt_0_compat; assumption|assumption]).
    lra. }
  nra.
Qed.

Lemma lemma_C27_sign (z : ZBL RNum) Zu Zv (ru rv c0 c1 c2 c3 r : R) :
  rd (z_covalent_radii z) Zu = Some ru -> rd (z_covalent_radii z) Zv = Some rv ->
  z_c z = [c0; c1; c2; c3] -> (2 <= z_p z)%Z -> 0 < ru + rv -> 0 < z_a_prefactor z ->
  0 <= c0 -> 0 <= c1 -> 0 <= c2 -> 0 <= c3 -> 0 < r ->
  exists E G, zbl_compute z Zu Zv r = Some E /\ zbl_compute_gradient z Zu Zv r = Some G /\
    0 <= E /\ G <= 0 /\
    (0 < c0 -> (0 < Zu)%nat -> (0 < Zv)%nat -> r < ru + rv -> 0 < E /\ G < 0).
Proof.
  intros Hu Hv Hc Hp Hrm Ha P0 P1 P2 P3 Hr. destruct (p_ge2 _ Hp) as [n Hn].
  exists (zE z Zu Zv ru rv c0 c1 c2 c3 r), (zG z Zu Zv ru rv c0 c1 c2 c3 r).
  rewrite (compute_zE z Zu Zv ru rv c0 c1 c2 c3), (compute_zG z Zu Zv ru rv c0 c1 c2 c3) by auto.
  repeat split; auto.
  - apply zE_nonneg with (n := n); auto.
  - apply zG_nonpos with (n := n); auto.
  - intros. unfold zE. rewrite Hn, env_in by assumption.
    assert (Hx : 0 <= r / (ru + rv) < 1).
    { split; [apply Rlt_le, Rdiv_lt_0_compat; lra|]. apply Rmult_lt_reg_r with (ru + rv); [lra|].
      unfold Rdiv. rewrite Rmult_assoc, Rinv_l by lra. lra. }
    pose proof (Penv_pos n _ Hx).
    assert (0 < INR Zu) by (apply lt_0_INR; assumption). assert (0 < INR Zv) by (apply lt_0_INR; assumption).
    assert (0 < zpre Zu Zv) by (unfold zpre; repeat apply Rmult_lt_0_compat; lra).
    assert (0 < zphi z Zu Zv c0 c1 c2 c3 r).
    { unfold zphi. pose proof (Rmult_lt_0_compat _ _ H (exp_pos (-32/10 * (r / za z Zu Zv)))).
      pose proof (Rmult_le_pos _ _ P1 (Rlt_le _ _ (exp_pos (-9423/10000 * (r / za z Zu Zv))))).
      pose proof (Rmult_le_pos _ _ P2 (Rlt_le _ _ (exp_pos (-4028/10000 * (r / za z Zu Zv))))).
      pose proof (Rmult_le_pos _ _ P3 (Rlt_le _ _ (exp_pos (-2016/10000 * (r / za z Zu Zv))))). lra. }
    unfold Rdiv at 1. assert (0 < / r) by (apply Rinv_0_lt_compat; assumption).
    repeat apply Rmult_lt_0_compat; try assumption; lra.
  - intros. unfold zG. rewrite Hn, env_in, envg_in by assumption.
    assert (Hx : 0 <= r / (ru + rv) < 1).
    { split; [apply Rlt_le, Rdiv_lt_0_compat; lra|]. apply Rmult_lt_reg_r with (ru + rv); [lra|].
      unfold Rdiv. rewrite Rmult_assoc, Rinv_l by lra. lra. }
    pose proof (Penv_pos n _ Hx).
    assert (0 < INR Zu) by (apply lt_0_INR; assumption). assert (0 < INR Zv) by (apply lt_0_INR; assumption).
    assert (Hpre : 0 < zpre Zu Zv) by (unfold zpre; repeat apply Rmult_lt_0_compat; lra).
    assert (Hphi : 0 < zphi z Zu Zv c0 c1 c2 c3 r).
    { unfold zphi. pose proof (Rmult_lt_0_compat _ _ H (exp_pos (-32/10 * (r / za z Zu Zv)))).
      pose proof (Rmult_le_pos _ _ P1 (Rlt_le _ _ (exp_pos (-9423/10000 * (r / za z Zu Zv))))).
      pose proof (Rmult_le_pos _ _ P2 (Rlt_le _ _ (exp_pos (-4028/10000 * (r / za z Zu Zv))))).
      pose proof (Rmult_le_pos _ _ P3 (Rlt_le _ _ (exp_pos (-2016/10000 * (r / za z Zu Zv))))). lra. }
    assert (Hir : 0 < / r) by (apply Rinv_0_lt_compat; assumption).
    assert (Hirr : 0 < / (r * r)) by (apply Rinv_0_lt_compat; nra).
    pose proof (zdphi_nonpos z Zu Zv c0 c1 c2 c3 r P0 P1 P2 P3 (za_pos z Zu Zv Ha)) as Hd.
    assert (Hg : dPenv n (r / (ru + rv)) / (ru + rv) <= 0).
    { pose proof (dPenv_nonpos n _ (proj1 Hx)). unfold Rdiv at 1.
      assert (0 < / (ru + rv)) by (apply Rinv_0_lt_compat; assumption). nra. }
    set (D := dPenv n (r / (ru + rv)) / (ru + rv)) in *. set (P := Penv n (r / (ru + rv))) in *.
    assert (T1 : zpre Zu Zv / r * zphi z Zu Zv c0 c1 c2 c3 r * D <= 0).
    { assert (0 < zpre Zu Zv / r * zphi z Zu Zv c0 c1 c2 c3 r) by (apply Rmult_lt_0_compat; [apply Rmult_lt_0_compat; assumption|assumption]).
      nra. }
    assert (T2 : zpre Zu Zv * (r * zdphi z Zu Zv c0 c1 c2 c3 r - zphi z Zu Zv c0 c1 c2 c3 r) / (r * r) * P < 0).
    { assert (0 < zpre Zu Zv * / (r * r) * P)
        by (apply Rmult_lt_0_compat; [apply Rmult_lt_0_compat; assumption|assumption]).
      assert (r * zdphi z Zu Zv c0 c1 c2 c3 r - zphi z Zu Zv c0 c1 c2 c3 r < 0) by nra.
      unfold Rdiv. nra. }
    lra.
Qed.

Lemma lemma_C50 (z : ZBL RNum) Zu Zv (ru rv c0 c1 c2 c3 r : R) :
  rd (z_covalent_radii z) Zu = Some ru -> rd (z_covalent_radii z) Zv = Some rv ->
  z_c z = [c0; c1; c2; c3] -> (2 <= z_p z)%Z -> 0 < r < ru + rv ->
  let a := z_a_prefactor z * 0.529 / (Rpower (INR Zu) (z_a_exp z) + Rpower (INR Zv) (z_a_exp z)) in
  let x := r / (ru + rv) in let p := IZR (z_p z) in let n := Z.to_nat (z_p z) in
  zbl_compute z Zu Zv r = Some (
    1 / 2 * (14.3996 * INR Zu * INR Zv / r)
    * (c0 * exp (-3.2 * r / a) + c1 * exp (-0.9423 * r / a) + c2 * exp (-0.4028 * r / a) + c3 * exp (-0.2016 * r / a))
    * (1 - (p + 1) * (p + 2) / 2 * x ^ n + p * (p + 2) * x ^ (n + 1) - p * (p + 1) / 2 * x ^ (n + 2))).
Proof.
  intros Hu Hv Hc Hp [Hr Hrm] a x p n0. destruct (p_ge2 _ Hp) as [n Hn].
  rewrite (compute_zE z Zu Zv ru rv c0 c1 c2 c3) by auto. f_equal.
  unfold zE. rewrite Hn, env_in by assumption. unfold Penv, zphi, zpre.
  replace (za z Zu Zv) with a by (unfold za, a; lra).
  unfold p, n0, x. rewrite Hn, Nat2Z.id, <- INR_IZR_INZ.
  replace (S n + 1)%nat with (S (S n)) by lia. replace (S n + 2)%nat with (S (S (S n))) by lia.
  replace (-32 / 10 * (r / a)) with (-3.2 * r / a) by (unfold Rdiv; lra).
  replace (-9423 / 10000 * (r / a)) with (-0.9423 * r / a) by (unfold Rdiv; lra).
  replace (-4028 / 10000 * (r / a)) with (-0.4028 * r / a) by (unfold Rdiv; lra).
  replace (-2016 / 10000 * (r / a)) with (-0.2016 * r / a) by (unfold Rdiv; lra).
  replace (143996/10000) with 14.3996 by lra.
  field. lra.
Qed.

(** ** C28 *)
Lemma zbl_defined {N : Num} (z : ZBL N) Zu Zv (r : N) :
  (Zu < length (z_covalent_radii z))%nat -> (Zv < length (z_covalent_radii z))%nat -> (4 <= length (z_c z))%nat ->
  exists E G, zbl_compute z Zu Zv r = Some E /\ zbl_compute_gradient z Zu Zv r = Some G.
Proof.
  intros Hu Hv Hc. unfold zbl_compute, zbl_compute_gradient.
  rewrite (rd_some (z_covalent_radii z) Zu nzero), (rd_some (z_covalent_radii z) Zv nzero) by auto.
  rewrite !(fun i Hi => rd_some (z_c z) i nzero (Nat.lt_le_trans i 4 _ Hi Hc)) by lia.
  cbn [bind]. eexists. eexists. split; reflexivity.
Qed.

Lemma lemma_C28 {N : Num} (z : ZBL N) (an : list nat) (s : sys N) (ne nf : list N) :
  (forall nd, In nd s -> (n_type nd < length an)%nat) ->
  (forall e, In e (all_edges s) -> (e_type e < length an)%nat) ->
  (forall Z, In Z an -> (Z < length (z_covalent_radii z))%nat) -> (4 <= length (z_c z))%nat ->
  (length s <= length ne)%nat -> (3 * length (all_edges s) <= length nf)%nat ->
  exists ne' nf', 
    compute_ZBL z (length s) (f_node_types s) (f_num_neigh s) (f_neigh_types s) an (f_r s) (f_xyz s) ne nf
      = Some (ne', nf') /\
    length ne' = length ne /\ length nf' = length nf /\
    (forall i nd, nth_error s i = Some nd -> exists Es,
       Forall2 (fun e E => zbl_compute z (nth (n_type nd) an 0%nat) (nth (e_type e) an 0%nat) (e_r e) = Some E)
         (n_edges nd) Es /\
       nth i ne' nzero = fold_left nadd Es (nth i ne nzero)) /\
    (forall i nd j e, nth_error s i = Some nd -> nth_error (n_edges nd) j = Some e ->
       exists G, zbl_compute_gradient z (nth (n_type nd) an 0%nat) (nth (e_type e) an 0%nat) (e_r e) = Some G /\
       let q := (3 * edge_index s i j)%nat in
       nth q nf' nzero = nsub (nth q nf nzero) (nmul (ndiv (e_x e) (e_r e)) G) /\
       nth (q+1) nf' nzero = nsub (nth (q+1) nf nzero) (nmul (ndiv (e_y e) (e_r e)) G) /\
       nth (q+2) nf' nzero = nsub (nth (q+2) nf nzero) (nmul (ndiv (e_z e) (e_r e)) G)) /\
    (forall k, (length s <= k)%nat -> nth k ne' nzero = nth k ne nzero) /\
    (forall k, (3 * length (all_edges s) <= k)%nat -> nth k nf' nzero = nth k nf nzero).
Proof.
  intros Hn He Han Hc Lne Lnf.
  set (E := fun (nd : node N) (e : edge N) =>
    match zbl_compute z (nth (n_type nd) an 0%nat) (nth (e_type e) an 0%nat) (e_r e) with Some v => v | None => nzero end).
  set (G := fun (nd : node N) (e : edge N) =>
    match zbl_compute_gradient z (nth (n_type nd) an 0%nat) (nth (e_type e) an 0%nat) (e_r e) with Some v => v | None => nzero end).
  assert (H : forall nd e, In nd s -> In e (n_edges nd) ->
    (n_type nd < length an)%nat /\ (e_type e < length an)%nat /\
    zbl_compute z (nth (n_type nd) an 0%nat) (nth (e_type e) an 0%nat) (e_r e) = Some (E nd e) /\
    zbl_compute_gradient z (nth (n_type nd) an 0%nat) (nth (e_type e) an 0%nat) (e_r e) = Some (G nd e)).
  { intros nd e H1 H2. assert (I : In e (all_edges s)) by (apply in_flat_map; eauto).
    specialize (Hn _ H1). specialize (He _ I).
    destruct (zbl_defined z (nth (n_type nd) an 0%nat) (nth (e_type e) an 0%nat) (e_r e)) as (v & w & Ev & Ew);
      auto; try (apply Han, nth_In; auto).
    unfold E, G. rewrite Ev, Ew. auto. }
  rewrite <- length_pairs in *.
  destruct (split_at ne (length s) Lne) as (ne0 & tne & -> & L1).
  destruct (split_at nf (3 * length (pairs s)) Lnf) as (nf0 & tnf & -> & L2).
  pose proof (compute_ZBL_ok z an s E G H Hn ne0 nf0 tne tnf L1 ltac:(lia)) as OK.
  set (ne1 := flat_map (eg s E ne0) (seq 0 (length s))) in *.
  set (nf1 := flat_map (fg s G nf0) (seq 0 (length (pairs s)))) in *.
  assert (Lg : forall x, length (fg s G nf0 x) = 3%nat)
    by (intros x; unfold fg, zf; destruct (nth x (pairs s) dpr); reflexivity).
  assert (L1' : length ne1 = length s).
  { unfold ne1. rewrite length_flat_map_const with (c := 1%nat) by auto. rewrite seq_length. lia. }
  assert (L2' : length nf1 = (3 * length (pairs s))%nat).
  { unfold nf1. rewrite length_flat_map_const with (c := 3%nat) by auto. rewrite seq_length. lia. }
  exists (ne1 ++ tne), (nf1 ++ tnf). split; [exact OK|].
  split; [rewrite !app_length; lia|]. split; [rewrite !app_length; lia|].
  split; [|split; [|split]].
  - intros i nd Hi. assert (Hil : (i < length s)%nat) by (apply nth_error_Some; congruence).
    exists (map (E nd) (n_edges nd)). split.
    + assert (In nd s) by (eapply nth_error_In; eauto).
      assert (HH : forall e, In e (n_edges nd) ->
        zbl_compute z (nth (n_type nd) an 0%nat) (nth (e_type e) an 0%nat) (e_r e) = Some (E nd e))
        by (intros e Ie; apply H; auto).
      clear -HH. induction (n_edges nd) as [|e l IH]; simpl; constructor.
      * apply HH; simpl; auto.
      * apply IH. intros; apply HH; simpl; auto.
    + rewrite !app_nth1 by lia. unfold ne1.
      assert (X : nth i (flat_map (eg s E ne0) (seq 0 (length s))) nzero = nth 0 (eg s E ne0 i) nzero).
      { rewrite <- (Nat.mul_1_r i) at 1. rewrite <- (Nat.add_0_r (i * 1)).
        apply nth_error_nth. rewrite nth_error_flat_map_const with (c := 1%nat) (x := i); auto.
        rewrite (nth_error_nth' _ 0%nat) by (rewrite seq_length; auto). rewrite seq_nth; auto. }
      rewrite X. unfold eg. cbn [nth]. rewrite (nth_error_nth s i dnd Hi). unfold nfold.
      generalize (nth i ne0 nzero). clear. induction (n_edges nd) as [|e l IH]; intros a; simpl; auto.
  - intros i nd j e Hi Hj. rewrite edge_index_eo.
    pose proof (nth_pairs s i j nd e Hi Hj) as Hp. set (q := (eo s i + j)%nat) in *.
    assert (Hq : (q < length (pairs s))%nat) by (apply nth_error_Some; congruence).
    exists (G nd e). split; [apply H; eapply nth_error_In; eauto|]. cbv zeta.
    assert (X : forall k, (k < 3)%nat -> nth (3*q+k) (nf1 ++ tnf) nzero = nth k (fg s G nf0 q) nzero).
    { intros k Hk. rewrite app_nth1 by lia. apply nth_error_nth. unfold nf1.
      rewrite (Nat.mul_comm 3). rewrite nth_error_flat_map_const with (c := 3%nat) (x := q); auto.
      - apply nth_error_nth'. rewrite Lg. auto.
      - rewrite (nth_error_nth' _ 0%nat) by (rewrite seq_length; auto). rewrite seq_nth; auto. }
    rewrite <- (Nat.add_0_r (3*q)) at 1. rewrite !X by lia.
    rewrite !app_nth1 by lia.
    unfold fg. rewrite (nth_error_nth _ _ dpr Hp). unfold zf, ff. cbn [nth].
    replace (3*q)%nat with (q*3)%nat by lia. auto.
  - intros k Hk. rewrite !app_nth2 by lia. f_equal. lia.
  - intros k Hk. rewrite !app_nth2 by lia. f_equal. lia.
Qed.
