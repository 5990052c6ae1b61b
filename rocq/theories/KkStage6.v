(** The whole Kokkos evaluation: all stages in the order of compute_node_energies_forces.  Used in proofs only. *)
From Coq Require Import List Arith ZArith Bool Lia Reals Lra FunctionalExtensionality.
From Verif Require Import Base BaseLemmas Segs BlasLemmas Instances RSums MpModel MpProofs ZblModel MaceModel Sys SysLoops MaceGrid
  MacePure MaceStages1 MaceStages4 MaceStages6 MacePipe DistPipe.
From Verif Require Import KkSem KkSound KkWp KkWp2 KkModel KkHost KkTac KkK1 KkK2 KkK3 KkK4 KkK5 KkK6 KkK7 KkEq KkChain KkSim KkStage1 KkStage2 KkStage3 KkStage4 KkStage5.
Import ListNotations.
Local Open Scope R_scope.

Section St.
Variable sph : nat -> RNum -> RNum -> RNum -> list RNum * list RNum.
Variable junk : rmem -> cell -> R.
Variable km : kmace RNum.
Variable mm : mace_model RNum.
Variables (P0 P1 : nat -> @mpoly RNum).
Variable fe : list RNum -> RNum.
Variable fg : list RNum -> nat -> RNum.
Variable H : nat.
Variables (w0 w1 : nat -> nat -> R) (V0 V1 : view RNum).
Variable s : sys RNum.
Hypothesis KI : kin km mm P0 P1 fe fg H w0 w1 V0 V1 s (length s).
Hypothesis W : mace_wf mm.
Notation n := (length s).
Notation nE := (length (epairs s)).
Notation K := (k_num_channels km).
Notation L := (k_num_lm km).
Notation M := (k_num_LM km).
Notation C := (k_num_lelm1lm2 km).
Notation NE := (k_num_lme km).
Notation C0 := ((k_l_max km + 1) * K)%nat.
Notation C1 := (length (k_Phi1_l km) * K)%nat.
Notation nb i := (length (es s i)).
Notation kk f := (f _ _ _ _ _ _ _ _ _ _ _ _ _ KI) (only parsing).
Notation pE' := (pE (N:=RNum) sph mm P0 P1 fe s).
Notation pF' := (pF (N:=RNum) sph mm P0 P1 fg s).

Lemma cnd_st m m' b (bv bd : buf) f g : st m' bv = st m bv -> st m' bd = st m bd ->
  (b = true -> has2 m bv nE 1 f /\ has2 m bd nE 1 g) -> b = true -> has2 m' bv nE 1 f /\ has2 m' bd nE 1 g.
Proof. intros E1 E2 X Hb. destruct (X Hb). split; eapply has2_st; eauto. Qed.
Ltac carryc U := match type of U with oth _ ?m ?m1 =>
  repeat match goal with
  | X : (_ = true -> has2 m ?bv _ _ _ /\ has2 m ?bd _ _ _) |- _ => pose proof (cnd_st m m1 _ bv bd _ _ (U bv eq_refl) (U bd eq_refl) X); clear X
  | X : dims m ?b = ?e |- _ => rewrite <- (st_dims _ _ _ (U b eq_refl)) in X
  | X : lsame ?m0 m |- _ => apply (lsame_oth _ m0 m m1 U ltac:(lsb)) in X
  end; carry U; clear U end.

(** the features and adjoints left in the views *)
Definition kmids (m' : rmem) : Prop :=
  (has3 m' bA0 n L K (pA0 (N:=RNum) sph mm s) /\ has3 m' bM0 n M K (pM0 (N:=RNum) sph mm P0 s) /\ has3 m' bH1 n M K (pH1 (N:=RNum) sph mm P0 s)) /\
  (has3 m' bA1 n L K (pA1 (N:=RNum) sph mm P0 s) /\ has2 m' bM1 n K (pM1 (N:=RNum) sph mm P0 P1 s) /\ has2 m' bH2 n K (pH2 (N:=RNum) sph mm P0 P1 s)) /\
  (has2 m' bM1a n K (qM1 (N:=RNum) sph mm P0 P1 fg s) /\ has3 m' bA1a n L K (qA1 (N:=RNum) sph mm P0 P1 fg s) /\
   has3 m' bM0a n M K (qM0 (N:=RNum) sph mm P0 P1 fg s) /\ has3 m' bA0a n L K (qA0 (N:=RNum) sph mm P0 P1 fg s)).

Theorem st_full m : good km m ->
  hok (kk_compute_node_energies_forces sph junk km n (f_node_types s) (f_num_neigh s) (f_neigh_indices s) (f_neigh_types s) (f_xyz s) (f_r s)) m
    (fun m' => good km m' /\ has1 m' bE n pE' /\ has1 m' bF (3 * nE) (eflat s 3 pF') /\ kmids m' /\ tz n m' /\
       dims m' bE = (if (extent m bE 0 <? n)%nat then [n] else dims m bE) /\ lsame m m').
Proof.
  intros G. unfold kk_compute_node_energies_forces. rewrite (app_assoc [_; _; _; _]).
  apply (st_init km mm P0 P1 fe fg H w0 w1 V0 V1 s n KI); auto. intros m0 G0 HE HF HD HT LS. remember (if (extent m bE 0 <? n)%nat then [n] else dims m bE) as dd. clear Heqdd G.
  apply (st_R0 km mm P0 P1 fe fg H w0 w1 V0 V1 s n KI); auto. intros m1a G1a U1a HR0 HR0d. carryc U1a. clear m0 G0.
  apply (st_R1 km mm P0 P1 fe fg H w0 w1 V0 V1 s n KI); auto. intros m1 G1 U1 HR1 HR1d. carryc U1. clear m1a G1a.
  apply (st_Y sph junk km mm P0 P1 fe fg H w0 w1 V0 V1 s n KI); auto. intros m2 G2 U2 HY HYg. carryc U2. clear m1 G1.
  apply (st_A0 sph km mm P0 P1 fe fg H w0 w1 V0 V1 s n KI); auto. intros m3 G3 U3 HA0 HS0. carryc U3. clear m2 G2.
  apply (st_M0 sph junk km mm P0 P1 fe fg H w0 w1 V0 V1 s n KI); auto. intros m4 G4 U4 HM0 HV0. carryc U4. clear m3 G3.
  apply (st_H1 sph km mm P0 P1 fe fg H w0 w1 V0 V1 s n KI); auto. intros m5 G5 U5 HH1. carryc U5. clear m4 G4.
  apply (st_P1 sph km mm P0 P1 fe fg H w0 w1 V0 V1 s n KI (pH1 (N:=RNum) sph mm P0 s)); auto. intros m6 G6 U6 HP1 XP1. carryc U6. clear m5 G5.
  apply (st_A1 sph km mm P0 P1 fe fg H w0 w1 V0 V1 s n KI (pH1 (N:=RNum) sph mm P0 s)); auto. intros m7a G7a U7a HA1a. carryc U7a. clear m6 G6.
  apply (st_sA1 sph km mm P0 P1 fe fg H w0 w1 V0 V1 s n KI (pH1 (N:=RNum) sph mm P0 s)); auto. intros m7 G7 U7 HA1 HS1. clear HA1a. carryc U7. clear m7a G7a.
  apply (st_M1 sph km mm P0 P1 fe fg H w0 w1 V0 V1 s n KI (pH1 (N:=RNum) sph mm P0 s)); auto. intros m8 G8 U8 HM1 HV1. carryc U8. clear m7 G7.
  apply (st_H2 sph km mm P0 P1 fe fg H w0 w1 V0 V1 s n KI (pH1 (N:=RNum) sph mm P0 s)); auto. intros m9 G9 U9 HH2 XH2. carryc U9. clear m8 G8.
  apply (st_ro sph junk km mm P0 P1 fe fg H w0 w1 V0 V1 s n KI (pH1 (N:=RNum) sph mm P0 s)); auto. intros m10 G10 U10 D10 HT' HE' HH1a HH2a XH1a. rewrite HD in D10. clear HD HE XH2 HT.
  rewrite <- (st_ext _ _ bH1 0 (U10 bH1 eq_refl)) in XH1a. rename D10 into HD, HE' into HE, HT' into HT. carryc U10. clear m9 G9.
  apply (st_rH2 sph km mm P0 P1 fe fg H w0 w1 V0 V1 s n KI (pH1 (N:=RNum) sph mm P0 s) (le_n n)); auto; [ext_|]. intros m11 G11 U11 HqH1a HqM1 XH. clear XH1a HH1a. carryc U11. clear m10 G10.
  apply (st_rM1 sph km mm P0 P1 fe fg H w0 w1 V0 V1 s n KI (pH1 (N:=RNum) sph mm P0 s)); auto; [ext_|]. intros m12 G12 U12 HqA1r. rewrite <- (st_ext _ _ bH1 0 (U12 bH1 eq_refl)), <- (st_ext _ _ bH1a 0 (U12 bH1a eq_refl)) in XH. carryc U12. clear m11 G11.
  apply (st_rsA1 sph km mm P0 P1 fe fg H w0 w1 V0 V1 s n KI (pH1 (N:=RNum) sph mm P0 s)); auto. intros m13 G13 U13 HqA1 HqF1 _. clear HqA1r HF.
  rewrite <- (st_ext _ _ bH1 0 (U13 bH1 eq_refl)), <- (st_ext _ _ bH1a 0 (U13 bH1a eq_refl)) in XH. carryc U13. clear m12 G12.
  apply (st_rA1 sph km mm P0 P1 fe fg H w0 w1 V0 V1 s n KI W (pH1 (N:=RNum) sph mm P0 s)); auto. intros m14 G14 U14 HqdP1.
  rewrite <- (st_ext _ _ bH1 0 (U14 bH1 eq_refl)), <- (st_ext _ _ bH1a 0 (U14 bH1a eq_refl)) in XH. carryc U14. clear m13 G13.
  apply (st_rP1 sph km mm P0 P1 fe fg H w0 w1 V0 V1 s n KI W (pH1 (N:=RNum) sph mm P0 s)); auto; [apply ps_refl|rewrite length_xyz, Nat.mul_comm; ext_|]. intros m15 G15 U15 HqF2 HqH1 _. clear HqF1 HqH1a XH. carryc U15. clear m14 G14.
  apply (st_rH1 km mm P0 P1 fe fg H w0 w1 V0 V1 s n KI (le_n n) (qH1 (N:=RNum) sph mm P0 P1 fg s)); auto; [ext_|]. intros m16 G16 U16 HqM0. carryc U16. clear m15 G15.
  apply (st_rM0 sph junk km mm P0 P1 fe fg H w0 w1 V0 V1 s n KI (le_n n) (qH1 (N:=RNum) sph mm P0 P1 fg s)); auto; [ext_|]. intros m17 G17 U17 HqA0r. carryc U17. clear m16 G16.
  apply (st_rsA0 sph km mm P0 P1 fe fg H w0 w1 V0 V1 s n KI (le_n n) (qH1 (N:=RNum) sph mm P0 P1 fg s) (qF2 (N:=RNum) sph mm P0 P1 fg s)); auto. intros m18 G18 U18 HqA0 HqF3. clear HqA0r HqF2. carryc U18. clear m17 G17.
  rewrite <- (app_nil_r (kk_reverse_A0 _ _ _ _ _)).
  apply (st_rA0 sph km mm P0 P1 fe fg H w0 w1 V0 V1 s n KI (le_n n) (qH1 (N:=RNum) sph mm P0 P1 fg s) (qF2 (N:=RNum) sph mm P0 P1 fg s)); auto. intros m19 G19 U19 HpF. clear HqF3. carryc U19. clear m18 G18.
  apply hok_nil. unfold kmids. auto 20.
Qed.
End St.
