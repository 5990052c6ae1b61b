(** The evaluation of the Kokkos pair style in mode no_mpi_message_passing: first layer on all nodes, second on the leading ones.
    Used in proofs only. *)
From Coq Require Import List Arith ZArith Bool Lia Reals Lra FunctionalExtensionality.
From Verif Require Import Base BaseLemmas Segs BlasLemmas Instances RSums MpModel MpProofs ZblModel MaceModel Sys SysLoops MaceGrid
  MacePure MaceStages1 MaceStages4 MaceStages6 MacePipe DistPipe DistNo.
From Verif Require Import KkSem KkSound KkWp KkWp2 KkModel KkHost KkTac KkK1 KkK2 KkK3 KkK4 KkK5 KkK6 KkK7 KkEq KkChain KkSim KkStage1 KkStage2 KkStage3 KkStage4 KkStage5
  KkNoSim KkNoEval KkPairMpiModel.
Import ListNotations.
Local Open Scope R_scope.

Section St.
Variable sph : nat -> RNum -> RNum -> RNum -> list RNum * list RNum.
Variable junk : rmem -> cell -> R.
Variable km : kmace RNum.
Variable mm : mace_model RNum.
Variables (P0 P1 : nat -> @mpoly RNum).
Variable fe : list RNum -> RNum.
Variable fg : list RNum -> nat -> RNum.
Variable H : nat.
Variables (w0 w1 : nat -> nat -> R) (V0 V1 : view RNum).
Variables s1 s2 : sys RNum.
Notation s := (s1 ++ s2).
Notation n := (length s).
Notation n1 := (length s1).
Hypothesis KI : kin km mm P0 P1 fe fg H w0 w1 V0 V1 s n.
Hypothesis KI1 : kin km mm P0 P1 fe fg H w0 w1 V0 V1 s1 n.
Hypothesis KF : s2 = [] \/ (s1 <> [] /\ kin km mm P0 P1 fe fg H w0 w1 V0 V1 (fake s1 s2) n).
Hypothesis W : mace_wf mm.
Notation nE := (length (epairs s)).
Notation nE1 := (length (epairs s1)).
Notation K := (k_num_channels km).
Notation L := (k_num_lm km).
Notation M := (k_num_LM km).
Notation kk f := (f _ _ _ _ _ _ _ _ _ _ _ _ _ KI1) (only parsing).
Lemma n1_le : (n1 <= n)%nat.
Proof. rewrite app_length. lia. Qed.

(** the forces of the trailing edges are 0 *)
Definition tf (m : rmem) : Prop := forall x, (3 * nE1 <= x)%nat -> va m (bF, [x]) = 0.
Lemma tf_st m m' : st m' bF = st m bF -> tf m -> tf m'.
Proof. intros E X i Hi. rewrite (st_va _ _ _ _ E). auto. Qed.
Lemma no_init l m (Q : rmem -> Prop) : good km m ->
  (forall m', good km m' -> has1 m' bE n1 (zE (N:=RNum) mm s1) -> has1 m' bF (3 * nE1) (eflat s1 3 (zF (N:=RNum) mm s1)) -> (3 * nE <= extent m' bF 0)%nat -> tf m' ->
     tz n1 m' -> lsame m m' -> hok l m' Q) ->
  hok ([grow bE n1 [n1]; zero bE; grow bF (3 * nE) [(3 * nE)%nat]; zero bF]
    ++ (if k_has_zbl km then [HRun (kk_ZBL (KkModel.k_zbl km) n1 (f_node_types s) (f_num_neigh s) (f_neigh_types s) (k_atomic_numbers km) (f_r s) (f_xyz s))] else []) ++ l) m Q.
Proof.
  intros G HQ. cbn [app].
  apply (hok_grow km bE n1); auto. intros m0 G0 U0 X0.
  assert (LS : lsame m m0) by (apply (lsame_oth (one bE) m m); [exact U0|lsb|intros b _; reflexivity]). clear U0.
  apply (hok_zero km); auto. intros m2 G2 U2 D2 V2. carryd D2. apply (lsame_oth _ _ _ _ U2 ltac:(lsb)) in LS. clear U2 D2.
  assert (HE : has1 m2 bE n1 (fun _ => 0)) by (split; [ext_|]; intros; apply V2).
  assert (HT : tz n1 m2) by (intros i Hi; apply V2). clear V2 X0.
  assert (exists m1, (if (extent m2 bF 0 <? 3 * nE)%nat then realloc bF [(3 * nE)%nat] m2 else m2) = m1 /\
    good km m1 /\ oth (one bF) m2 m1 /\ (3 * nE <= extent m1 bF 0)%nat) as (m1 & Em1 & G1 & U1 & X1).
  { destruct (Nat.ltb_spec (extent m2 bF 0) (3 * nE)) as [E|E]; eexists; (split; [reflexivity|]).
    - split; [apply good_F; auto|]. split; [apply oth_set|]. unfold extent, realloc. rewrite dims_set_eq. cbn. auto.
    - split; [exact G2|]. split; [apply oth_refl|exact E]. }
  apply (hok_hop (fun m => if (extent m bF 0 <? 3 * nE)%nat then realloc bF [(3 * nE)%nat] m else m)). rewrite Em1. clear Em1.
  carry U1. apply (lsame_oth _ _ _ _ U1 ltac:(lsb)) in LS. clear U1 m0 G0.
  apply (hok_zero km); auto. intros m3 G3 U3 D3 V3. carryd D3. carry U3.
  apply (lsame_oth _ _ _ _ U3 ltac:(lsb)) in LS. pose proof (nE_pre s1 s2) as HN.
  assert (HF : has1 m3 bF (3 * nE1) (fun _ => 0)) by (split; [lia|]; intros; apply V3).
  assert (HX : tf m3) by (intros x _; apply V3).
  clear U3 D3 V3 G1 G2 m1 m2.
  destruct (k_has_zbl km) eqn:Hz; cbn [app].
  - eapply hok_k.
    { eapply wp_sim; [rewrite nt_pre, nn_pre, et_pre, r_pre, xyz_pre; apply ps_zbl|].
      apply (k_zbl' km s1 (KkModel.k_zbl km) _ _ m3 ((kk ki_zbl) Hz) (kk ki_T)); cv km G3. }
    cbn beta. intros m4 KP (VF & VE & VT & VX). apply (tz_va n1 m3 m4 VT) in HT. pose proof (proj1 HE) as XE. pose proof (proj1 HF) as XF. carryk KP.
    pose proof Hz as Hz'. rewrite (kk ki_z) in Hz'.
    apply HQ.
    + apply (good_keep km _ _ _ KP); auto.
    + split; [ext_|]. intros i Hi. rewrite VE by auto. rewrite (proj2 HE) by auto. unfold zE. rewrite Hz'.
      rewrite (nfold_esq s1 i (fun i e => zen (N:=RNum) mm (ty s1 i) (e_type e) (e_r e))) by auto. rewrite RNum_zero. reflexivity.
    + split; [ext_|]. intros x Hx. assert (Ex : x = (3 * (x / 3) + x mod 3)%nat) by apply Nat.div_mod_eq.
      assert (Hq : (x / 3 < nE1)%nat) by (apply Nat.div_lt_upper_bound; lia). assert (Ha : (x mod 3 < 3)%nat) by (apply Nat.mod_upper_bound; lia).
      rewrite Ex at 1. rewrite VF by auto. rewrite <- Ex, (proj2 HF) by auto. unfold eflat, zF. rewrite Hz'.
      rewrite RNum_zero. reflexivity.
    + ext_.
    + intros x Hx. rewrite VX by exact Hx. apply HX. exact Hx.
    + exact HT.
    + apply (lsame_oth _ _ _ _ (oth_keep _ _ _ KP) ltac:(lsb)) in LS. exact LS.
  - rewrite (kk ki_z) in Hz. apply HQ; auto.
    + eapply has1_eq; [|exact HE]. intros i Hi. unfold zE. rewrite Hz. symmetry. apply RNum_zero.
    + eapply has1_eq; [|exact HF]. intros x Hx. unfold eflat, zF. rewrite Hz. symmetry. apply RNum_zero.
Qed.

Lemma cnd_st m m' e b (bv bd : buf) f g : st m' bv = st m bv -> st m' bd = st m bd ->
  (b = true -> has2 m bv e 1 f /\ has2 m bd e 1 g) -> b = true -> has2 m' bv e 1 f /\ has2 m' bd e 1 g.
Proof. intros E1 E2 X Hb. destruct (X Hb). split; eapply has2_st; eauto. Qed.
Ltac carryc U := match type of U with oth _ ?m ?m1 =>
  repeat match goal with
  | X : (_ = true -> has2 m ?bv _ _ _ /\ has2 m ?bd _ _ _) |- _ => pose proof (cnd_st m m1 _ _ bv bd _ _ (U bv eq_refl) (U bd eq_refl) X); clear X
  | X : lsame ?m0 m |- _ => apply (lsame_oth _ m0 m m1 U ltac:(lsb)) in X
  | X : tf m |- _ => apply (tf_st m m1 (U bF eq_refl)) in X
  end; carry U; clear U end.

Notation HH := (pH1 (N:=RNum) sph mm P0 s).
Notation Ha := (noHa (N:=RNum) sph mm P0 P1 fg s1 s2).
Notation F2 := (noF2 (N:=RNum) sph mm P0 P1 fg s1 s2).
Theorem no_full m : good km m ->
  hok (kk_no_mpi_evaluation sph junk km n1 n nE (f_node_types s) (f_num_neigh s) (f_neigh_indices s1) (f_neigh_types s) (f_xyz s) (f_r s)) m
    (fun m' => good km m' /\ has1 m' bE n1 (hE (N:=RNum) sph mm P1 fe s1 HH) /\ has1 m' bF (3 * nE) (eflat s 3 (rrF (N:=RNum) sph mm P0 s Ha F2)) /\ lsame m m').
Proof.
  intros G. pose proof n1_le as HnH. pose proof (nE_pre s1 s2) as HN. unfold kk_no_mpi_evaluation.
  apply no_init; auto. intros m0 G0 HE HF XF HX HT LS. clear G.
  apply (st_Y sph junk km mm P0 P1 fe fg H w0 w1 V0 V1 s n KI); auto. intros m1 G1 U1 HY HYg. carryc U1. clear m0 G0.
  apply (st_R0 km mm P0 P1 fe fg H w0 w1 V0 V1 s n KI); auto. intros m2 G2 U2 HR0 HR0d. carryc U2. clear m1 G1.
  apply (st_A0 sph km mm P0 P1 fe fg H w0 w1 V0 V1 s n KI); auto. intros m3 G3 U3 HA0 HS0. carryc U3. clear m2 G2.
  apply (st_M0 sph junk km mm P0 P1 fe fg H w0 w1 V0 V1 s n KI); auto. intros m4 G4 U4 HM0 HV0. carryc U4. clear m3 G3.
  apply (st_H1 sph km mm P0 P1 fe fg H w0 w1 V0 V1 s n KI); auto. intros m5 G5 U5 HH1. carryc U5. clear m4 G4.
  assert (HL : (L <> 0)%nat) by (unfold k_num_lm; nia).
  assert (HY1 : has1 m5 bY (nE1 * L) (eflat s1 L (Yv (N:=RNum) sph mm))).
  { split; [pose proof (proj1 HY); nia|]. intros x Hx. rewrite (proj2 HY) by nia. apply eflat_pre; auto. }
  assert (HYg1 : has1 m5 bYg (3 * nE1 * L) (eflat s1 (3 * L) (Yg (N:=RNum) sph mm))).
  { split; [pose proof (proj1 HYg); nia|]. intros x Hx. rewrite (proj2 HYg) by nia. apply eflat_pre; nia. }
  apply (no_R1 km mm P0 P1 fe fg H w0 w1 V0 V1 s1 s2 n KI1 KF); auto. intros m6a G6a U6a HR1 HR1d. carryc U6a. clear m5 G5.
  rewrite nn_pre at 1.
  apply (hok_sim1 (kk_compute_Phi1 km n1 (f_num_neigh s1) (f_neigh_indices s1))); [apply hs_Phi1|].
  apply (st_P1 sph km mm P0 P1 fe fg H w0 w1 V0 V1 s1 n KI1 HH); auto. intros m6 G6 U6 HP1 XP1. carryc U6. clear m6a G6a.
  apply (st_A1 sph km mm P0 P1 fe fg H w0 w1 V0 V1 s1 n KI1 HH); auto. intros m7a G7a U7a HA1a. carryc U7a. clear m6 G6.
  apply (no_sA1 sph km mm P0 P1 fe fg H w0 w1 V0 V1 s1 s2 n KI1 KF HH HnH); auto. intros m7 G7 U7 HA1 HS1. clear HA1a. carryc U7. clear m7a G7a.
  rewrite nt_pre at 1.
  apply (hok_sim1 (kk_compute_M1 km n1 (f_node_types s1))); [apply hs_M1|].
  apply (st_M1 sph km mm P0 P1 fe fg H w0 w1 V0 V1 s1 n KI1 HH); auto. intros m8 G8 U8 HM1 HV1. carryc U8. clear m7 G7.
  rewrite nt_pre at 1.
  apply (hok_sim1 (kk_compute_H2 km n1 (f_node_types s1))); [apply hs_H2|].
  apply (st_H2 sph km mm P0 P1 fe fg H w0 w1 V0 V1 s1 n KI1 HH HnH); auto. intros m9 G9 U9 HH2 XH2. carryc U9. clear m8 G8.
  rewrite nt_pre at 1.
  apply (hok_sim1 (kk_compute_readouts junk km n1 (f_node_types s1))); [apply hs_ro|].
  apply (st_ro sph junk km mm P0 P1 fe fg H w0 w1 V0 V1 s1 n KI1 HH HnH); auto. intros m10 G10 U10 _ HT' HE' HH1a HH2a XH1a. clear HE XH2 HT.
  rewrite <- (st_ext _ _ bH1 0 (U10 bH1 eq_refl)) in XH1a. rename HE' into HE, HT' into HT. carryc U10. clear m9 G9.
  rewrite nt_pre at 1.
  apply (hok_sim1 (kk_reverse_H2 km n1 (f_node_types s1) false)); [apply hs_rH2|].
  apply (st_rH2 sph km mm P0 P1 fe fg H w0 w1 V0 V1 s1 n KI1 HH HnH); auto; [ext_|]. intros m11 G11 U11 HqH1a HqM1 XH. clear XH1a HH1a. carryc U11. clear m10 G10.
  rewrite nt_pre at 1.
  apply (hok_sim1 (kk_reverse_M1 km n1 (f_node_types s1))); [apply hs_rM1|].
  apply (st_rM1 sph km mm P0 P1 fe fg H w0 w1 V0 V1 s1 n KI1 HH); auto; [ext_|]. intros m12 G12 U12 HqA1r. rewrite <- (st_ext _ _ bH1 0 (U12 bH1 eq_refl)), <- (st_ext _ _ bH1a 0 (U12 bH1a eq_refl)) in XH. carryc U12. clear m11 G11.
  rewrite nn_pre, xyz_pre, r_pre.
  apply (hok_sim1 (kk_reverse_A1_scaled km n1 (f_num_neigh s1) (f_xyz s1) (f_r s1))); [apply hs_rsA1|].
  rewrite <- nn_pre, <- xyz_pre, <- r_pre.
  apply (st_rsA1 sph km mm P0 P1 fe fg H w0 w1 V0 V1 s1 n KI1 HH); auto. intros m13 G13 U13 HqA1 HqF1 [VX DX]. clear HqA1r HF.
  assert (HX' : tf m13) by (intros x Hx; rewrite VX by exact Hx; apply HX; exact Hx). clear HX VX.
  assert (XF' : (3 * nE <= extent m13 bF 0)%nat) by (unfold extent; rewrite DX; exact XF). clear XF DX. rename XF' into XF, HX' into HX.
  rewrite <- (st_ext _ _ bH1 0 (U13 bH1 eq_refl)), <- (st_ext _ _ bH1a 0 (U13 bH1a eq_refl)) in XH. carryc U13. clear m12 G12.
  apply (st_rA1 sph km mm P0 P1 fe fg H w0 w1 V0 V1 s1 n KI1 W HH); auto. intros m14 G14 U14 HqdP1.
  rewrite <- (st_ext _ _ bH1 0 (U14 bH1 eq_refl)), <- (st_ext _ _ bH1a 0 (U14 bH1a eq_refl)) in XH. carryc U14. clear m13 G13.
  apply (st_rP1 sph km mm P0 P1 fe fg H w0 w1 V0 V1 s1 n KI1 W HH); auto; [rewrite nn_pre, xyz_pre, r_pre; apply ps_rP1r|rewrite length_xyz, Nat.mul_comm; ext_|].
  intros m15 G15 U15 HqF2 HqH1 [VX DX]. clear HqF1 HqH1a XH.
  assert (HX' : tf m15) by (intros x Hx; rewrite VX by exact Hx; apply HX; exact Hx). clear HX VX.
  assert (XF' : (3 * nE <= extent m15 bF 0)%nat) by (unfold extent; rewrite DX; exact XF). clear XF DX. rename XF' into XF, HX' into HX.
  carryc U15. clear m14 G14.
  assert (HF : has1 m15 bF (3 * nE) (eflat s 3 F2)).
  { apply (has1_F s n (le_n n)); [exact XF|]. intros q a Hq Ha0. unfold noF2, lead. destruct (le_lt_dec nE1 q) as [Hc|Hc].
    - rewrite HX by lia. assert (n1 <= ow s q)%nat.
      { unfold ow. rewrite epairs_pre, app_nth2 by exact Hc. match goal with |- (_ <= fst (nth ?k ?l ?d))%nat => assert (Hin : In (nth k l d) l) end.
        { apply nth_In. rewrite epairs_pre, app_length in Hq. lia. }
        apply in_flat_map in Hin. destruct Hin as (i & Hi & Hin). apply in_seq in Hi. apply in_map_iff in Hin. destruct Hin as (e & <- & _). cbn [fst]. exact (proj1 Hi). }
      destruct (Nat.ltb_spec (ow s q) n1); [lia|]. symmetry. apply RNum_zero.
    - rewrite (F_has1 s1 n1 (le_n n1) _ _ _ _ HqF2) by auto. rewrite ow_pre, eg_pre by exact Hc. rewrite (proj2 (Nat.ltb_lt _ _)) by (apply ow_lt; exact Hc). reflexivity. }
  clear HqF2 HX XF.
  apply (st_rH1 km mm P0 P1 fe fg H w0 w1 V0 V1 s n KI (le_n n) Ha); auto; [ext_|]. intros m16 G16 U16 HqM0. carryc U16. clear m15 G15.
  apply (st_rM0 sph junk km mm P0 P1 fe fg H w0 w1 V0 V1 s n KI (le_n n) Ha); auto; [ext_|]. intros m17 G17 U17 HqA0r. carryc U17. clear m16 G16.
  apply (st_rsA0 sph km mm P0 P1 fe fg H w0 w1 V0 V1 s n KI (le_n n) Ha F2); auto. intros m18 G18 U18 HqA0 HqF3. clear HqA0r HF. carryc U18. clear m17 G17.
  rewrite <- (app_nil_r (kk_reverse_A0 _ _ _ _ _)).
  apply (st_rA0 sph km mm P0 P1 fe fg H w0 w1 V0 V1 s n KI (le_n n) Ha F2); auto. intros m19 G19 U19 HpF. clear HqF3. carryc U19. clear m18 G18.
  apply hok_nil. auto 20.
Qed.
End St.
