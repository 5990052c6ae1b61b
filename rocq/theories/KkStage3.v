(** Stages of the Kokkos evaluator: Phi1, A1, M1, H2, readouts.  Used in proofs only. *)
From Coq Require Import List Arith ZArith Bool Lia Reals Lra FunctionalExtensionality.
From Verif Require Import Base BaseLemmas Segs BlasLemmas Instances RSums MpModel MpProofs ZblModel MaceModel Sys SysLoops MaceGrid
  MacePure MaceStages1 MaceStages4 MaceStages6 MacePipe DistPipe.
From Verif Require Import KkSem KkSound KkWp KkWp2 KkModel KkHost KkTac KkK1 KkK2 KkK3 KkK4 KkK5 KkK6 KkK7 KkEq KkChain KkStage1 KkStage2.
Import ListNotations.
Local Open Scope R_scope.

Section St.
Variable sph : nat -> RNum -> RNum -> RNum -> list RNum * list RNum.
Variable junk : rmem -> cell -> R.
Variable km : kmace RNum.
Variable mm : mace_model RNum.
Variables (P0 P1 : nat -> @mpoly RNum).
Variable fe : list RNum -> RNum.
Variable fg : list RNum -> nat -> RNum.
Variable H : nat.
Variables (w0 w1 : nat -> nat -> R) (V0 V1 : view RNum).
Variable s : sys RNum.
Variable nH : nat.
Hypothesis KI : kin km mm P0 P1 fe fg H w0 w1 V0 V1 s nH.
Hypothesis W : mace_wf mm.
Notation n := (length s).
Notation nE := (length (epairs s)).
Notation K := (k_num_channels km).
Notation L := (k_num_lm km).
Notation M := (k_num_LM km).
Notation C := (k_num_lelm1lm2 km).
Notation NE := (k_num_lme km).
Notation C0 := ((k_l_max km + 1) * K)%nat.
Notation C1 := (length (k_Phi1_l km) * K)%nat.
Notation nb i := (length (es s i)).
Notation kk f := (f _ _ _ _ _ _ _ _ _ _ _ _ _ KI) (only parsing).
Notation kLm' := (kLm km mm P0 P1 fe fg H w0 w1 V0 V1 s nH KI).
Notation kLM' := (kLM km mm P0 P1 fe fg H w0 w1 V0 V1 s nH KI).
Notation zF' := (zF (N:=RNum) mm s).
(** the features of the first layer *)
Variable Hf : nat -> nat -> nat -> R.
Hypothesis HnH : (n <= nH)%nat.
Notation pP1r' := (hP1r (N:=RNum) sph mm s Hf).
Notation pP1_' := (hP1 (N:=RNum) sph mm s Hf).
Notation pA1' := (hA1 (N:=RNum) sph mm s Hf).
Notation pM1' := (hM1 (N:=RNum) sph mm P1 s Hf).
Notation pH2' := (hH2 (N:=RNum) sph mm P1 s Hf).
Notation vY := (eflat s L (Yv (N:=RNum) sph mm)).
Notation vR1 := (fun q p => R1v (N:=RNum) mm s (ow s q) (eg s q) p).

Definition t_P1 (x : buf) : bool := match x with bScr | bP1r | bP1 => true | _ => false end.
Lemma st_P1 l m (Q : rmem -> Prop) : good km m -> has1 m bY (nE * L) vY -> has2 m bR1 nE C1 vR1 -> has3 m bH1 nH M K Hf ->
  (forall m', good km m' -> oth t_P1 m m' -> has3 m' bP1 n NE K pP1_' -> (n <= extent m' bP1r 0)%nat -> hok l m' Q) ->
  hok (kk_compute_Phi1 km n (f_num_neigh s) (f_neigh_indices s) ++ l) m Q.
Proof.
  intros G HY HR HH HQ. unfold kk_compute_Phi1. cbn [app].
  apply (hok_grow km bP1r n); auto. intros m1 G1 U1 X1. carry U1.
  apply (hok_grow km bP1 n); auto. intros m2 G2 U2 X2. carry U2.
  apply (hok_zero km); auto. intros m3 G3 U3 D3 V3. carryd D3. carry U3.
  apply (hok_zero km); auto. intros m4 G4 U4 D4 V4. carryd D4. carry U4.
  eapply hok_k; [apply (k_P1r km s nH (kk ki_P) m4); rewrite ?(kk ki_R1n); cv km G4|]. cbn beta. intros m5 KP V.
  assert (V5 : has3 m5 bP1r n C K pP1r').
  { split; [rewrite (keep_ext _ _ _ _ _ KP); auto|]. intros i c k Hi Hc Hk. rewrite V by auto. unfold hP1r. rewrite <- eq_P1r by auto.
    unfold kp1r. apply rsum_ext. intros j Hj. pose proof (q_lt s i j Hi Hj) as Hq.
    destruct (pi_c _ _ _ (kk ki_P) c Hc) as (_ & _ & _ & B1 & B2 & B3). destruct ((kk ki_Pc) c Hc) as (E1 & E2 & E3).
    specialize (B3 k Hk). rewrite (kk ki_R1n) in B3.
    rewrite (proj2 HR), (proj2 HY), (proj2 HH) by (auto; try (apply idx_lt; auto); apply (pi_q _ _ _ (kk ki_P)); auto).
    rewrite eflat_at by auto. rewrite E1, E2, E3, <- (kk ki_K). reflexivity. }
  carryk KP. pose proof (good_keep km _ _ _ KP G4) as G5. clear V.
  eapply hok_k; [apply (k_P1 km s nH (kk ki_P) m5); cv km G5|]. cbn beta. intros m6 KP6 V. carryk KP6. pose proof (good_keep km _ _ _ KP6 G5) as G6.
  apply HQ; auto.
  - othr.
  - split; [ext_|]. intros i x k Hi Hx Hk. rewrite V by auto. rewrite (st_va _ _ _ _ (U bP1 eq_refl)), V4, Rplus_0_l.
    unfold hP1. rewrite <- eq_P1. destruct (kk ki_cg) as (E1 & E2 & E3). unfold scat. rewrite <- E1. apply rsum_ext. intros p Hp.
    assert (E4 : cge km p = cgl mm p) by (unfold cge, cgl; rewrite E2; reflexivity). assert (E5 : cgc km p = cgr mm p) by (unfold cgc, cgr; rewrite E3; reflexivity).
    destruct (pi_p _ _ _ (kk ki_P) p Hp) as (_ & _ & _ & B). rewrite <- (st_va _ _ _ _ (U0 bP1r eq_refl)), (proj2 V5) by auto.
    rewrite E4, E5. unfold cgw, cgC, at_. rewrite E1, RNum_zero. reflexivity.
Qed.

Definition t_A1 (x : buf) : bool := match x with bScr | bA1 | bA1v | bA1d => true | _ => false end.
Definition vA1 q (p : nat) := csv (N:=RNum) (spl1 mm (ty s (ow s q)) (e_type (eg s q))) (e_r (eg s q)).
Definition dA1 q (p : nat) := csd (N:=RNum) (spl1 mm (ty s (ow s q)) (e_type (eg s q))) (e_r (eg s q)).
Definition t_A1a (x : buf) : bool := match x with bScr | bA1 => true | _ => false end.
Lemma st_A1 l m (Q : rmem -> Prop) : good km m -> has3 m bP1 n NE K pP1_' ->
  (forall m', good km m' -> oth t_A1a m m' -> has3 m' bA1 n L K (a1raw (N:=RNum) mm pP1_') -> hok l m' Q) ->
  hok (kk_compute_A1 km n ++ l) m Q.
Proof.
  intros G HP HQ. unfold kk_compute_A1. cbn [app].
  apply (hok_grow km bA1 n); auto. intros m1 G1 U1 X1. carry U1.
  eapply hok_k; [apply (k_A1 km s (moff mm) (mult mm) (kk ki_A1in) m1); cv km G1|]. cbn beta. intros m3 KP V.
  assert (HA : has3 m3 bA1 n L K (a1raw (N:=RNum) mm pP1_')).
  { split; [rewrite (keep_ext _ _ _ _ _ KP); auto|]. intros i lm k Hi Hl Hk. rewrite V by auto.
    rewrite <- eq_A1. unfold ka1. rewrite <- !(kk ki_K). assert (Hl' : (Nat.sqrt lm < k_l_max km + 1)%nat) by (apply sqrt_lt; exact Hl).
    apply rsum_ext. intros p Hp. assert (Hd : (p / K < mult mm (Nat.sqrt lm) /\ p mod K < K)%nat).
    { split; [apply Nat.div_lt_upper_bound; [lia|rewrite Nat.mul_comm; auto]|apply Nat.mod_upper_bound; lia]. }
    rewrite (proj2 HP); auto; try apply Hd.
    - rewrite (kk ki_A1w), <- (kk ki_K) by auto. unfold lmm. reflexivity.
    - apply (kk ki_A1in); try apply Hd; auto. unfold lmm. pose proof (Nat.sqrt_spec lm (Nat.le_0_l _)). lia. }
  carryk KP. pose proof (good_keep km _ _ _ KP G1) as G3. apply HQ; auto. othr.
Qed.
(** the division by the densities *)
Lemma scaled_A1 m5 m6 : k_A1_scaled km = true -> has2 m5 bA1v nE 1 vA1 -> (n <= extent m6 bA1 0)%nat ->
  (forall i lm k, (i < n)%nat -> (lm < L)%nat -> (k < K)%nat -> va m6 (bA1, [i; lm; k]) = a1raw (N:=RNum) mm pP1_' i lm k / kscale s bA1v m5 i) ->
  has3 m6 bA1 n L K pA1'.
Proof.
  intros Es Hv X V. split; [auto|]. intros i lm k Hi Hl Hk. rewrite V by auto. unfold hA1, odivs, divs. rewrite <- (kk ki_sc1), Es.
  cbn [ndiv RNum]. f_equal. unfold kscale, sc1. rewrite <- (eq_sc s (fun i e => csv (N:=RNum) (spl1 mm (ty s i) (e_type e)) (e_r e))) by auto. f_equal. apply rsum_ext. intros j Hj.
  pose proof (q_lt s i j Hi Hj) as Hq. rewrite (proj2 Hv) by auto. reflexivity.
Qed.
Lemma st_sA1 l m (Q : rmem -> Prop) : good km m -> has3 m bA1 n L K (a1raw (N:=RNum) mm pP1_') ->
  (forall m', good km m' -> oth t_A1 m m' -> has3 m' bA1 n L K pA1' ->
     (k_A1_scaled km = true -> has2 m' bA1v nE 1 vA1 /\ has2 m' bA1d nE 1 dA1) -> hok l m' Q) ->
  hok (kk_compute_A1_scaled km n (f_node_types s) (f_num_neigh s) (f_neigh_types s) (f_r s) ++ l) m Q.
Proof.
  intros G3 HA HQ. unfold kk_compute_A1_scaled. destruct (k_A1_scaled km) eqn:Es; cbn [app].
  - destruct ((kk ki_A1) Es) as (I1 & I2 & I3).
    apply (hok_grow2 km _ bA1v bA1d _ nE _ _ _ eq_refl eq_refl (length_r s) G3). intros m4 G4 U4 X4 X5. carry U4.
    eapply hok_k; [apply (k_A1v s (k_A1_splines km) m4 I1); rewrite I2; cv km G4|]. cbn beta. intros m5 KP5 V. carryk KP5. pose proof (good_keep km _ _ _ KP5 G4) as G5.
    rewrite I2 in V.
    assert (Hv : has2 m5 bA1v nE 1 vA1).
    { split; [ext_|]. intros q p Hq Hp. replace p with 0%nat by lia. rewrite (proj1 (V q 0%nat Hq Nat.lt_0_1)). apply I3; auto. }
    assert (Hd : has2 m5 bA1d nE 1 dA1).
    { split; [ext_|]. intros q p Hq Hp. replace p with 0%nat by lia. rewrite (proj2 (V q 0%nat Hq Nat.lt_0_1)). apply I3; auto. }
    clear V. eapply hok_k; [apply (k_scale_A1 km s m5); cv km G5|]. cbn beta. intros m6 KP6 V.
    assert (HA' : has3 m6 bA1 n L K pA1').
    { apply (scaled_A1 m5 m6); [exact Es|exact Hv|rewrite (keep_ext _ _ _ _ _ KP6); exact (proj1 HA)|intros; rewrite V, (proj2 HA) by auto; reflexivity]. }
    clear V HA. carryk KP6. pose proof (good_keep km _ _ _ KP6 G5) as G6.
    apply HQ; auto. othr.
  - apply HQ; auto.
    + othr.
    + eapply has3_eq; [|exact HA]. intros. unfold hA1, odivs. rewrite <- (kk ki_sc1), Es. reflexivity.
    + discriminate.
Qed.

Notation E1 := (k_M1_poly_spec km).
Notation P1'' := (P1' mm P1).
Definition t_M1 (x : buf) : bool := match x with bScr | bM1 | bM1v => true | _ => false end.
Definition vM1 i q k := nth q (vlist (P1'' (ty s i) k) (xcol (N:=RNum) mm pA1' i k) (length E1)) 0.
Lemma st_M1 l m (Q : rmem -> Prop) : good km m -> has3 m bA1 n L K pA1' ->
  (forall m', good km m' -> oth t_M1 m m' -> has2 m' bM1 n K pM1' -> has3 m' bM1v n (L + length E1) K vM1 -> hok l m' Q) ->
  hok (kk_compute_M1 km n (f_node_types s) ++ l) m Q.
Proof.
  intros G HA HQ. unfold kk_compute_M1. cbn [app].
  apply (hok_grow km bM1 n); auto. intros m1 G1 U1 X1. carry U1.
  apply (hok_grow km bM1v n); auto. intros m2 G2 U2 X2. carry U2.
  apply (hok_zero km); auto. intros m3 G3 U3 D3 V3. carryd D3. carry U3.
  eapply hok_k; [apply (k_M1 km s P1'' (kk ki_M1) m3); cv km G3|]. cbn beta. intros m4 KP (VM & VV).
  assert (Ex : forall i k, (i < n)%nat -> (k < K)%nat -> kx1 km m3 i k = xcol (N:=RNum) mm pA1' i k).
  { intros i k Hi Hk. unfold kx1, xcol. rewrite <- kLm'. apply tab_ext. intros lm Hl. apply (proj2 HA); auto. }
  carryk KP. pose proof (good_keep km _ _ _ KP G3) as G4.
  apply HQ; auto.
  - othr.
  - split; [ext_|]. intros i k Hi Hk. rewrite VM, V3, Rplus_0_l, Ex by auto. reflexivity.
  - split; [ext_|]. intros i q k Hi Hq Hk. rewrite VV by auto. unfold kv1. rewrite Ex by auto. reflexivity.
Qed.

(** a view with exactly [n] or more rows of [K] columns *)
Lemma hok_grow_K b l m Q : jnt b = false -> plain b = true -> shp km b = [K] -> good km m ->
  (forall m1, good km m1 -> oth (one b) m m1 -> (n <= extent m1 b 0)%nat -> extent m1 b 1 = K -> hok l m1 Q) -> hok (grow_K km n b :: l) m Q.
Proof.
  intros J P S G HQ. apply (hok_hop (fun m => if ((extent m b 0 <? n) || negb (extent m b 1 =? K))%nat%bool then realloc b [n; K] m else m)).
  destruct ((extent m b 0 <? n)%nat || negb (extent m b 1 =? K)%nat) eqn:E.
  - apply HQ; [apply good_set; auto; rewrite <- S; apply plain_szok; auto|apply oth_set| |]; unfold extent, realloc; rewrite dims_set_eq; cbn; auto.
  - apply orb_false_elim in E as [E1' E2]. apply Nat.ltb_ge in E1'. apply negb_false_iff, Nat.eqb_eq in E2. apply HQ; auto. apply oth_refl.
Qed.
Definition t_H2 (x : buf) : bool := match x with bScr | bH2 => true | _ => false end.
Lemma st_H2 l m (Q : rmem -> Prop) : good km m -> has3 m bH1 nH M K Hf -> has2 m bM1 n K pM1' ->
  (forall m', good km m' -> oth t_H2 m m' -> has2 m' bH2 n K pH2' -> extent m' bH2 1 = K -> hok l m' Q) ->
  hok (kk_compute_H2 km n (f_node_types s) ++ l) m Q.
Proof.
  intros G HH HM HQ. unfold kk_compute_H2. cbn [app]. assert (XN : (n <= extent m bH1 0)%nat) by (pose proof (proj1 HH); lia).
  apply hok_grow_K; auto. intros m1 G1 U1 X1 Y1. carry U1.
  apply (hok_zero km); auto. intros m2 G2 U2 D2 V2. rewrite <- (dims_ext _ _ bH2 1 D2) in Y1. carryd D2. carry U2.
  eapply hok_k; [apply (k_H2_1 km s (kk ki_HH) (kk ki_HMl) m2); cv km G2|]. cbn beta. intros m3 KP V3.
  assert (A : has2 m3 bH2 n K (fun i k => rsum K (fun q => WHH (N:=RNum) mm (ty s i) (q * K + k) * Hf i 0%nat q))).
  { split; [rewrite (keep_ext _ _ _ _ _ KP); auto|]. intros i k Hi Hk. rewrite V3, V2, Rplus_0_l by auto. apply rsum_ext. intros q Hq.
    rewrite (proj2 HH); auto; [|lia|unfold k_num_LM; nia]. rewrite (kk ki_HHv); auto. apply idx_lt; auto. }
  rewrite <- (keep_ext _ _ _ bH2 1 KP) in Y1. clear V3. carryk KP. pose proof (good_keep km _ _ _ KP G2) as G3.
  eapply hok_k; [apply (k_H2_2 km s (kk ki_HMl) m3); cv km G3|]. cbn beta. intros m4 KP4 V4. rewrite <- (keep_ext _ _ _ bH2 1 KP4) in Y1.
  carryk KP4. pose proof (good_keep km _ _ _ KP4 G3) as G4.
  apply HQ; auto.
  - othr.
  - split; [ext_|]. intros i k Hi Hk. rewrite V4, (proj2 A) by auto. unfold hH2. rewrite <- eq_h2. rewrite <- !(kk ki_K). f_equal. apply rsum_ext. intros q Hq.
    rewrite <- (st_va _ _ _ _ (U0 bM1 eq_refl)), (proj2 HM) by auto. unfold WHM, at_. rewrite (kk ki_HM), RNum_zero. reflexivity.
Qed.
End St.
