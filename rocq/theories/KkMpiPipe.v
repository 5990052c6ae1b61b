(** The evaluation of the Kokkos pair style in mode mpi_message_passing, between the communications.  Used in proofs only. *)
From Coq Require Import List Arith ZArith Bool Lia Reals Lra FunctionalExtensionality.
From Verif Require Import Base BaseLemmas Segs BlasLemmas Instances RSums MpModel MpProofs ZblModel MaceModel Sys SysLoops MaceGrid
  MacePure MaceStages1 MaceStages4 MaceStages6 MacePipe DistPipe.
From Verif Require Import KkSem KkSound KkWp KkWp2 KkModel KkHost KkTac KkK1 KkK2 KkK3 KkK4 KkK5 KkK6 KkK7 KkEq KkChain KkSim KkStage1 KkStage2 KkStage3 KkStage4 KkStage5
  KkPairMpi2Model.
Import ListNotations.
Local Open Scope R_scope.

(** ** "Sort H1" with the identity as list *)
Section Sort.
Variable km : kmace RNum.
Notation K := (k_num_channels km).
Notation M := (k_num_LM km).
Definition so_own (b : buf) (d : nat) (c : cell) : option nat :=
  if buf_dec b (fst c) then match snd c with [i; j; k] => Some (nth d [i; j; k] 0%nat) | _ => None end else None.
Definition so_sp (m : rmem) (b : buf) (c : cell) (v : R) : Prop :=
  if buf_dec b (fst c) then match snd c with [i; j; k] => (j < M)%nat -> (k < K)%nat -> v = va m (bH1, [i; j; k]) | _ => True end else True.
Lemma so_own_inv b d c i : so_own b d c = Some i -> exists x y z, c = (b, [x; y; z]) /\ nth d [x; y; z] 0%nat = i.
Proof.
  unfold so_own. destruct c as [b' idx]. cbn [fst snd]. destruct (buf_dec b b') as [<-|]; [|discriminate]. destruct idx as [|x [|y [|z [|? ?]]]]; try discriminate.
  intros E. apply some_inj in E. eauto 6.
Qed.
Lemma so_own_at b d x y z : so_own b d (b, [x; y; z]) = Some (nth d [x; y; z] 0%nat).
Proof. unfold so_own. cbn [fst snd]. destruct (buf_dec b b); congruence. Qed.
Lemma so_own_ne b d b' idx : b <> b' -> so_own b d (b', idx) = None.
Proof. intros H. unfold so_own. cbn [fst snd]. destruct (buf_dec b b'); congruence. Qed.
Lemma so_read b i j k : can_read (kd (kd (kd top (so_own b 0) none_ i) (so_own b 1) none_ j) (so_own b 2) none_ k (bH1, [i; j; k])) = true.
Proof.
  destruct (buf_dec b bH1) as [->|N].
  - rewrite (kd_own_ok _ _ _ k); [reflexivity| |apply so_own_at]. apply kd_own_ok; [|apply so_own_at]. apply kd_own_ok; [reflexivity|apply so_own_at].
  - unfold kd at 1. unfold kd at 1. unfold kd at 1. unfold top. cbn [none_]. rewrite !so_own_ne by exact N. reflexivity.
Qed.
Lemma k_sort n b m : b <> bScr -> cov m bH1 [n; M; K] -> cov m b [n; M; K] ->
  wp top (sort_H1 (N:=RNum) km n (seq 0 n) b) m (fun _ m' => keep (o_1 b) m m' /\
    forall i j k, (i < n)%nat -> (j < M)%nat -> (k < K)%nat -> va m' (b, [i; j; k]) = va m (bH1, [i; j; k])).
Proof.
  intros Hb C1 C2. unfold sort_H1.
  apply (wp_pfor top (so_own b 0) none_ (so_sp m b) nadd_).
  - intros i Hi. apply (wp_pfor _ (so_own b 1) none_ (so_sp m b) nadd_).
    + intros j Hj. apply (wp_pfor _ (so_own b 2) none_ (so_sp m b) nadd_).
      * intros k Hk. apply wp_bind. rewrite (rd_some (seq 0 n) i 0%nat) by (rewrite seq_length; exact Hi). rewrite seq_nth by exact Hi. cbn [lift Nat.add]. apply wp_ret.
        apply wp_get; [apply so_read|al|].
        apply wp_put_; [apply kd_own_ok; [apply kd_own_ok; [apply kd_own_ok; [reflexivity|]|]|]; apply so_own_at|apply C2; solve_in|].
        apply kpost_own. intros c P O. apply so_own_inv in O. destruct O as (x & y & z & -> & Ez). apply kd_own in P. destruct P as [P Ey]. apply kd_own in P. destruct P as [_ Ex].
        rewrite so_own_at in Ex, Ey. apply some_inj in Ex, Ey. cbn [nth] in Ex, Ey, Ez. subst x y z. unfold so_sp. cbn [fst snd]. destruct (buf_dec b b); [|congruence]. intros _ _. apply va_store_eq.
      * intros m' (_ & P1 & _). apply kpost_own. intros c P O. apply so_own_inv in O. destruct O as (x & y & z & -> & Ey). apply kd_own in P. destruct P as [_ Ex].
        rewrite so_own_at in Ex. apply some_inj in Ex. cbn [nth] in Ex, Ey. subst x y.
        unfold so_sp. cbn [fst snd]. destruct (buf_dec b b) as [_|N0]; [|exact Logic.I]. intros Hj' Hz.
        pose proof (P1 (b, [i; j; z]) z) as Q. unfold so_sp in Q. cbn [fst snd] in Q. destruct (buf_dec b b) as [_|]; [|congruence]. apply Q; auto; [|apply so_own_at].
        apply kd_own_ok; [apply kd_own_ok; [reflexivity|]|]; apply so_own_at.
    + intros m' (_ & P1 & _). apply kpost_own. intros c P O. apply so_own_inv in O. destruct O as (x & y & z & -> & Ex). cbn [nth] in Ex. subst x.
      unfold so_sp. cbn [fst snd]. destruct (buf_dec b b) as [_|N0]; [|exact Logic.I]. intros Hj Hz.
      pose proof (P1 (b, [i; y; z]) y) as Q. unfold so_sp in Q. cbn [fst snd] in Q. destruct (buf_dec b b) as [_|]; [|congruence]. apply Q; auto; [|apply so_own_at].
      apply kd_own_ok; [reflexivity|apply so_own_at].
  - intros m' (D & P1 & _ & _ & P4). split.
    + split; [exact D|]. intros b' idx Hb'. apply P4. unfold idle, top. cbn [fst]. assert (N : b <> b') by (intros <-; unfold o_1 in Hb'; destruct b; try discriminate Hb'; destruct (buf_dec _ _); congruence).
      destruct b'; cbn [fst]; try (split; [apply so_own_ne; exact N|reflexivity]); exact Logic.I.
    + intros i j k Hi Hj Hk. pose proof (P1 (b, [i; j; k]) i) as Q. unfold so_sp in Q. cbn [fst snd] in Q. destruct (buf_dec b b) as [_|]; [|congruence]. apply Q; auto; apply so_own_at.
Qed.
End Sort.

Section St.
Variable sph : nat -> RNum -> RNum -> RNum -> list RNum * list RNum.
Variable junk : rmem -> cell -> R.
Variable km : kmace RNum.
Variable mm : mace_model RNum.
Variables (P0 P1 : nat -> @mpoly RNum).
Variable fe : list RNum -> RNum.
Variable fg : list RNum -> nat -> RNum.
Variable H : nat.
Variables (w0 w1 : nat -> nat -> R) (V0 V1 : view RNum).
Variable s : sys RNum.
Variable nH : nat.
Hypothesis KI : kin km mm P0 P1 fe fg H w0 w1 V0 V1 s nH.
Hypothesis W : mace_wf mm.
Notation n := (length s).
Hypothesis HnH : (n <= nH)%nat.
Notation nE := (length (epairs s)).
Notation K := (k_num_channels km).
Notation L := (k_num_lm km).
Notation M := (k_num_LM km).
Notation C0 := ((k_l_max km + 1) * K)%nat.

(** what the second and third part use of the first layer *)
Record lay1 (m : rmem) : Prop := {
  y_good : good km m;
  y_Y : has1 m bY (nE * L) (eflat s L (Yv (N:=RNum) sph mm));
  y_Yg : has1 m bYg (3 * nE * L) (eflat s (3 * L) (Yg (N:=RNum) sph mm));
  y_R0 : has2 m bR0 nE C0 (fun q p => kR mm s (R0v (N:=RNum) mm s) (ow s q) (eg s q) p);
  y_R0d : has2 m bR0d nE C0 (fun q p => kR mm s (R0d (N:=RNum) mm s) (ow s q) (eg s q) p);
  y_A0 : has3 m bA0 n L K (pA0 (N:=RNum) sph mm s);
  y_S0 : k_A0_scaled km = true -> has2 m bA0v nE 1 (vA0 mm s) /\ has2 m bA0d nE 1 (dA0 mm s);
  y_M0 : has3 m bM0 n M K (pM0 (N:=RNum) sph mm P0 s);
  y_V0 : hasV km n m (vM0 sph km mm P0 s) }.
Lemma cnd_st m m' e b (bv bd : buf) f g : st m' bv = st m bv -> st m' bd = st m bd ->
  (b = true -> has2 m bv e 1 f /\ has2 m bd e 1 g) -> b = true -> has2 m' bv e 1 f /\ has2 m' bd e 1 g.
Proof. intros E1 E2 X Hb. destruct (X Hb). split; eapply has2_st; eauto. Qed.
Ltac carryc U := match type of U with oth _ ?m ?m1 =>
  repeat match goal with
  | X : (_ = true -> has2 m ?bv _ _ _ /\ has2 m ?bd _ _ _) |- _ => pose proof (cnd_st m m1 _ _ bv bd _ _ (U bv eq_refl) (U bd eq_refl) X); clear X
  | X : lsame ?m0 m |- _ => apply (lsame_oth _ m0 m m1 U ltac:(lsb)) in X
  | X : dims m bH1 = _ |- _ => rewrite <- (st_dims m m1 bH1 (U bH1 eq_refl)) in X
  end; carry U; clear U end.
Lemma lay1_set m b ext v : jnt b = false -> szok km b ext -> (b = bH1 \/ b = bH1a \/ b = bLh) -> lay1 m -> lay1 (set_view m b ext v).
Proof.
  intros J S Hb [G HY HYg HR HRd HA HS HM HV]. pose proof (good_set km m b ext v J S G) as G'. pose proof (oth_set m b ext v) as U.
  destruct Hb as [->|[->| ->]]; carryc U; constructor; auto.
Qed.
Lemma lay1_keep m m' : keep (o_1 bH1) m m' \/ keep (o_1 bLh) m m' -> lay1 m -> lay1 m'.
Proof.
  intros Hk [G HY HYg HR HRd HA HS HM HV]. destruct Hk as [Hk|Hk]; pose proof (good_keep km _ _ _ Hk G) as G'; apply oth_keep in Hk; carryc Hk; constructor; auto.
Qed.

(** the energies and forces of the first part *)
Definition zero_ (m : rmem) : Prop := tz n m /\ has1 m bE n (zE (N:=RNum) mm s) /\ has1 m bF (3 * nE) (eflat s 3 (zF (N:=RNum) mm s)).
Lemma zero_st m m' : st m' bE = st m bE -> st m' bF = st m bF -> zero_ m -> zero_ m'.
Proof. intros E1 E2 (A & B & C). split; [eapply tz_st; eauto|]. split; eapply has1_st; eauto. Qed.

Lemma first_ok m : good km m ->
  hok (kk_mpi_first sph junk km n nE (f_node_types s) (f_num_neigh s) (f_neigh_types s) (f_xyz s) (f_r s)) m
    (fun m' => lay1 m' /\ zero_ m' /\ has3 m' bH1 n M K (pH1 (N:=RNum) sph mm P0 s) /\ lsame m m').
Proof.
  intros G. unfold kk_mpi_first. replace (3 * nE)%nat with (length (f_xyz s)) by (rewrite length_xyz; lia). rewrite app_assoc.
  apply (st_init km mm P0 P1 fe fg H w0 w1 V0 V1 s nH KI); auto. intros m0 G0 HE HF _ HT LS. clear G.
  apply (st_Y sph junk km mm P0 P1 fe fg H w0 w1 V0 V1 s nH KI); auto. intros m1 G1 U1 HY HYg. carryc U1. clear m0 G0.
  apply (st_R0 km mm P0 P1 fe fg H w0 w1 V0 V1 s nH KI); auto. intros m2 G2 U2 HR0 HR0d. carryc U2. clear m1 G1.
  apply (st_A0 sph km mm P0 P1 fe fg H w0 w1 V0 V1 s nH KI); auto. intros m3 G3 U3 HA0 HS0. carryc U3. clear m2 G2.
  apply (st_M0 sph junk km mm P0 P1 fe fg H w0 w1 V0 V1 s nH KI); auto. intros m4 G4 U4 HM0 HV0. carryc U4. clear m3 G3.
  rewrite <- (app_nil_r (kk_compute_H1 _ _)).
  apply (st_H1 sph km mm P0 P1 fe fg H w0 w1 V0 V1 s nH KI); auto. intros m5 G5 U5 HH1. carryc U5. clear m4 G4.
  apply hok_nil. split; [constructor; auto|]. split; [split; auto|]. auto.
Qed.

Variable Hf : nat -> nat -> nat -> R.
Notation pE' := (hE (N:=RNum) sph mm P1 fe s Hf).
Notation F2' := (gF2 (N:=RNum) sph mm P1 fg s Hf).
Notation gH := (fun i L k => at_ (N:=RNum) (gH1l (N:=RNum) sph mm P1 fg s Hf nH) (i * (num_LM mm * m_num_channels mm) + (L * m_num_channels mm + k))).
Lemma second_gen m m0 d : lsame m0 m -> dims m bH1 = d -> lay1 m -> zero_ m -> has3 m bH1 nH M K Hf ->
  hok (kk_mpi_second junk km n (f_node_types s) (f_num_neigh s) (f_neigh_indices s) (f_neigh_types s) (f_xyz s) (f_r s)) m
    (fun m' => lay1 m' /\ has1 m' bE n pE' /\ has1 m' bF (3 * nE) (eflat s 3 F2') /\ has3 m' bH1a nH M K gH /\ lsame m0 m' /\ dims m' bH1 = d).
Proof.
  intros LS DH [G HY HYg HR HRd HA HS HM HV] (HT & HE & HF) HH1. unfold kk_mpi_second.
  apply (st_R1 km mm P0 P1 fe fg H w0 w1 V0 V1 s nH KI); auto. intros m1 G1 U1 HR1 HR1d. carryc U1. clear m G.
  apply (st_P1 sph km mm P0 P1 fe fg H w0 w1 V0 V1 s nH KI Hf); auto. intros m6 G6 U6 HP1 XP1. carryc U6. clear m1 G1.
  apply (st_A1 sph km mm P0 P1 fe fg H w0 w1 V0 V1 s nH KI Hf); auto. intros m7a G7a U7a HA1a. carryc U7a. clear m6 G6.
  apply (st_sA1 sph km mm P0 P1 fe fg H w0 w1 V0 V1 s nH KI Hf); auto. intros m7 G7 U7 HA1 HS1. clear HA1a. carryc U7. clear m7a G7a.
  apply (st_M1 sph km mm P0 P1 fe fg H w0 w1 V0 V1 s nH KI Hf); auto. intros m8 G8 U8 HM1 HV1. carryc U8. clear m7 G7.
  apply (st_H2 sph km mm P0 P1 fe fg H w0 w1 V0 V1 s nH KI Hf HnH); auto. intros m9 G9 U9 HH2 XH2. carryc U9. clear m8 G8.
  apply (st_ro sph junk km mm P0 P1 fe fg H w0 w1 V0 V1 s nH KI Hf HnH); auto. intros m10 G10 U10 _ HT' HE' HH1a HH2a XH1a. clear HE XH2 HT.
  rewrite <- (st_ext _ _ bH1 0 (U10 bH1 eq_refl)) in XH1a. rename HE' into HE, HT' into HT. carryc U10. clear m9 G9.
  apply (st_rH2 sph km mm P0 P1 fe fg H w0 w1 V0 V1 s nH KI Hf HnH); auto; [ext_|]. intros m11 G11 U11 HqH1a HqM1 XH. clear XH1a HH1a. carryc U11. clear m10 G10.
  apply (st_rM1 sph km mm P0 P1 fe fg H w0 w1 V0 V1 s nH KI Hf); auto; [ext_|]. intros m12 G12 U12 HqA1r. rewrite <- (st_ext _ _ bH1 0 (U12 bH1 eq_refl)), <- (st_ext _ _ bH1a 0 (U12 bH1a eq_refl)) in XH. carryc U12. clear m11 G11.
  apply (st_rsA1 sph km mm P0 P1 fe fg H w0 w1 V0 V1 s nH KI Hf); auto. intros m13 G13 U13 HqA1 HqF1 _. clear HqA1r HF.
  rewrite <- (st_ext _ _ bH1 0 (U13 bH1 eq_refl)), <- (st_ext _ _ bH1a 0 (U13 bH1a eq_refl)) in XH. carryc U13. clear m12 G12.
  apply (st_rA1 sph km mm P0 P1 fe fg H w0 w1 V0 V1 s nH KI W Hf); auto. intros m14 G14 U14 HqdP1.
  rewrite <- (st_ext _ _ bH1 0 (U14 bH1 eq_refl)), <- (st_ext _ _ bH1a 0 (U14 bH1a eq_refl)) in XH. carryc U14. clear m13 G13.
  rewrite <- (app_nil_r (kk_reverse_Phi1 _ _ _ _ _ _ _ _)).
  apply (st_rP1 sph km mm P0 P1 fe fg H w0 w1 V0 V1 s nH KI W Hf); auto; [apply ps_refl|rewrite length_xyz, Nat.mul_comm; ext_|].
  intros m15 G15 U15 HqF2 HqH1 _. clear HqF1 HqH1a XH. carryc U15.
  apply hok_nil. split; [constructor; auto|]. auto 20.
Qed.
Lemma second_ok m : lay1 m -> zero_ m -> has3 m bH1 nH M K Hf ->
  hok (kk_mpi_second junk km n (f_node_types s) (f_num_neigh s) (f_neigh_indices s) (f_neigh_types s) (f_xyz s) (f_r s)) m
    (fun m' => lay1 m' /\ has1 m' bE n pE' /\ has1 m' bF (3 * nE) (eflat s 3 F2') /\ has3 m' bH1a nH M K gH /\ lsame m m' /\ dims m' bH1 = dims m bH1).
Proof. apply second_gen; [intros b _|]; reflexivity. Qed.

Variable Had : nat -> nat -> nat -> R.
Variable Fd : nat -> edge RNum -> nat -> R.
Variable En : nat -> R.
Lemma third_ok m m0 l (Q : rmem -> Prop) : lsame m0 m -> lay1 m -> has1 m bE n En -> has1 m bF (3 * nE) (eflat s 3 Fd) -> has3 m bH1a n M K Had ->
  (forall m', good km m' -> has1 m' bE n En -> has1 m' bF (3 * nE) (eflat s 3 (rrF (N:=RNum) sph mm P0 s Had Fd)) -> lsame m0 m' -> dims m' bH1 = dims m bH1 -> hok l m' Q) ->
  hok (kk_mpi_third junk km n (f_node_types s) (f_num_neigh s) (f_xyz s) (f_r s) ++ l) m Q.
Proof.
  intros LS [G HY HYg HR0 HR0d HA0 HS HM HV] HE HF HqH1 X. unfold kk_mpi_third. rewrite <- !app_assoc.
  assert (DH : dims m bH1 = dims m bH1) by reflexivity. revert X DH. generalize (dims m bH1) at 1 3. intros d X DH.
  apply (st_rH1 km mm P0 P1 fe fg H w0 w1 V0 V1 s nH KI HnH Had); auto; [ext_|]. intros m16 G16 U16 HqM0. carryc U16. clear m G.
  apply (st_rM0 sph junk km mm P0 P1 fe fg H w0 w1 V0 V1 s nH KI HnH Had); auto; [ext_|]. intros m17 G17 U17 HqA0r. carryc U17. clear m16 G16.
  apply (st_rsA0 sph km mm P0 P1 fe fg H w0 w1 V0 V1 s nH KI HnH Had Fd); auto. intros m18 G18 U18 HqA0 HqF3. clear HqA0r HF. carryc U18. clear m17 G17.
  apply (st_rA0 sph km mm P0 P1 fe fg H w0 w1 V0 V1 s nH KI HnH Had Fd); auto. intros m19 G19 U19 HpF. clear HqF3. carryc U19. clear m18 G18.
  apply X; auto.
Qed.
End St.
