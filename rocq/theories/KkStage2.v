(** Stages of the Kokkos evaluator: spherical harmonics, A0, M0, H1.  Used in proofs only. *)
From Coq Require Import List Arith ZArith Bool Lia Reals Lra FunctionalExtensionality.
From Verif Require Import Base BaseLemmas Segs BlasLemmas Instances RSums MpModel MpProofs ZblModel MaceModel Sys SysLoops MaceGrid
  MacePure MaceStages1 MaceStages4 MaceStages6 MacePipe.
From Verif Require Import KkSem KkSound KkWp KkWp2 KkModel KkHost KkTac KkK1 KkK2 KkK3 KkK4 KkK5 KkK6 KkK7 KkEq KkChain KkStage1.
Import ListNotations.
Local Open Scope R_scope.

Section St.
Variable sph : nat -> RNum -> RNum -> RNum -> list RNum * list RNum.
Variable junk : rmem -> cell -> R.
Variable km : kmace RNum.
Variable mm : mace_model RNum.
Variables (P0 P1 : nat -> @mpoly RNum).
Variable fe : list RNum -> RNum.
Variable fg : list RNum -> nat -> RNum.
Variable H : nat.
Variables (w0 w1 : nat -> nat -> R) (V0 V1 : view RNum).
Variable s : sys RNum.
Variable nH : nat.
Hypothesis KI : kin km mm P0 P1 fe fg H w0 w1 V0 V1 s nH.
Hypothesis W : mace_wf mm.
Notation n := (length s).
Notation nE := (length (epairs s)).
Notation K := (k_num_channels km).
Notation L := (k_num_lm km).
Notation M := (k_num_LM km).
Notation C := (k_num_lelm1lm2 km).
Notation NE := (k_num_lme km).
Notation C0 := ((k_l_max km + 1) * K)%nat.
Notation C1 := (length (k_Phi1_l km) * K)%nat.
Notation nb i := (length (es s i)).
Notation kk f := (f _ _ _ _ _ _ _ _ _ _ _ _ _ KI) (only parsing).
Notation kLm' := (kLm km mm P0 P1 fe fg H w0 w1 V0 V1 s nH KI).
Notation kLM' := (kLM km mm P0 P1 fe fg H w0 w1 V0 V1 s nH KI).

(** ** spherical harmonics *)
Definition t_Y (x : buf) : bool := match x with bScr | bXs | bY | bYg | bYgs => true | _ => false end.
Lemma st_Y l m (Q : rmem -> Prop) : good km m ->
  (forall m', good km m' -> oth t_Y m m' ->
     has1 m' bY (nE * L) (eflat s L (Yv (N:=RNum) sph mm)) ->
     has1 m' bYg (3 * nE * L) (eflat s (3 * L) (Yg (N:=RNum) sph mm)) -> hok l m' Q) ->
  hok (kk_compute_Y sph junk km (f_xyz s) ++ l) m Q.
Proof.
  intros G HQ. unfold kk_compute_Y. rewrite xyz3. cbn [app]. pose proof (kL_pos km) as HL.
  (* allocation of Y and Y_grad *)
  apply hok_hop. match goal with |- hok _ ?x _ => set (m1 := x) end.
  set (P1_ := fun x : rmem => (forall b, szok km b (dims x b)) /\ dims x bR0d = dims x bR0 /\ dims x bR1d = dims x bR1 /\ dims x bA0d = dims x bA0v /\ dims x bA1d = dims x bA1v /\ (nth 0 (dims x bF) 0 mod 3 = 0)%nat).
  assert (A1 : P1_ m1 /\ (3 * extent m1 bY 0 = extent m1 bYg 0)%nat /\ oth (two bY bYg) m m1 /\ (nE * L <= extent m1 bY 0)%nat /\
     ((extent m1 bYgs 0 < 3 * nE * L)%nat /\ dims m1 bYg = [(3 * nE * L)%nat] \/ dims m1 bYgs = dims m1 bYg /\ (3 * nE * L <= extent m1 bYg 0)%nat)).
  { destruct G as [S1 S2 S3 S4 S5 S6 S7 S8]. unfold m1. destruct (Nat.ltb_spec (extent m bY 0) (nE * L)) as [X|X].
    - unfold P1_, realloc, extent in *. rewrite !dims_set_eq, !(dims_set_ne _ bYg) by discriminate. rewrite !dims_set_eq, !(dims_set_ne _ bY) by discriminate. cbn [nth].
      split; [|split; [|split; [|split]]]; [| |intros b' Hb'; unfold two in Hb'; apply orb_false_elim in Hb' as [A B]; rewrite (oth_set _ bYg _ _ b' B); apply (oth_set _ bY _ _ b' A)|lia|].
      + split; [|auto 6]. intros b'. rewrite !dims_set. destruct (buf_dec bYg b') as [<-|N1]; [right; eexists; reflexivity|].
        destruct (buf_dec bY b') as [<-|N2]; [right; eexists; reflexivity|auto].
      + lia.
      + left. rewrite S7, <- S6. split; [lia|reflexivity].
    - split; [unfold P1_; unfold extent in S8; auto 6|]. split; [auto|]. split; [apply oth_refl|]. split; [lia|]. right. split; auto. lia. }
  clearbody m1. destruct A1 as (R1 & R2 & U1 & X1 & R3). clear G.
  assert (X2 : (3 * nE * L <= extent m1 bYg 0)%nat) by lia.
  (* the shuffled coordinates *)
  apply hok_hop. match goal with |- hok _ ?x _ => set (m2 := x) end.
  assert (A2 : P1_ m2 /\ oth (one bXs) m1 m2 /\ (3 * nE <= extent m2 bXs 0)%nat).
  { unfold m2. destruct (Nat.ltb_spec (extent m1 bXs 0) (3 * nE)) as [X|X]; [|split; auto; split; auto; apply oth_refl].
    split; [|split; [apply oth_set|unfold extent, realloc; rewrite dims_set_eq; cbn; auto]].
    destruct R1 as [S1 S2]. unfold P1_, realloc. rewrite !(dims_set_ne _ bXs) by discriminate. split; auto.
    intros b'. rewrite !dims_set. destruct (buf_dec bXs b') as [<-|N1]; [right; eexists; reflexivity|auto]. }
  clearbody m2. destruct A2 as (R1' & U2 & X3). clear R1. rename R1' into R1. carry U2.
  rewrite <- (st_dims _ _ _ (U2 bYg eq_refl)), <- (st_dims _ _ _ (U2 bYgs eq_refl)) in R3.
  rewrite <- (st_ext _ _ bYgs 0 (U2 bYgs eq_refl)), <- (st_ext _ _ bYg 0 (U2 bYg eq_refl)) in R3.
  rewrite <- (st_ext _ _ bY 0 (U2 bY eq_refl)), <- (st_ext _ _ bYg 0 (U2 bYg eq_refl)) in R2.
  assert (CV : forall x b A, P1_ x -> plain b = true -> (A <= extent x b 0)%nat -> cov x b (A :: shp km b)).
  { intros x b A [S _] Pb Hx. specialize (S b). assert (D : dims x b = [] \/ exists e, dims x b = e :: shp km b) by (destruct b; try discriminate Pb; exact S).
    unfold extent in Hx. destruct D as [E|(e & E)]; rewrite E in Hx; cbn in Hx.
    - intros [|i idx] Hi; cbn in Hi; [contradiction|]. lia.
    - eapply cov_ext; eauto. }
  eapply hok_k; [apply (k_shuffle s m2); exact (CV m2 bXs _ R1 eq_refl X3)|]. cbn beta. intros m3 KP V.
  pose proof (oth_keep _ _ _ KP) as U3. destruct KP as [D3 _].
  assert (R1' : P1_ m3) by (unfold P1_; rewrite D3; exact R1). clear R1.
  rewrite <- D3 in R3. unfold extent in R2, R3, X1, X2, X3. rewrite <- D3 in R2, R3, X1, X2, X3. 
  (* sphericart *)
  eapply hok_op; [unfold kk_sphericart; rewrite xyz3; unfold extent; rewrite (proj2 (Nat.leb_le _ _) X1), (proj2 (Nat.leb_le _ _) X2), (proj2 (Nat.leb_le _ _) X3); cbn [andb]; reflexivity|].
  cbv zeta. match goal with |- hok _ ?x _ => set (m4 := x) end.
  assert (D4 : dims m4 = dims m3).
  { extensionality b'. unfold m4. rewrite !dims_set. destruct (buf_dec bYg b') as [<-|]; auto. destruct (buf_dec bY b') as [<-|]; auto. }
  assert (VY : forall q p, (q < nE)%nat -> (p < L)%nat -> va m4 (bY, [(q * L + p)%nat]) = at_ (N:=RNum) (fst (sph (k_l_max km) (e_z (eg s q)) (e_x (eg s q)) (e_y (eg s q)))) p).
  { intros q p Hq Hp. unfold m4. rewrite (st_va _ _ _ _ (oth_set _ bYg _ _ bY eq_refl)). rewrite va_set_eq.
    rewrite (proj2 (Nat.ltb_lt _ _)) by (apply idx_lt; auto). rewrite Nat.div_add_l, Nat.div_small, Nat.add_0_r by lia.
    rewrite (Nat.add_comm (q * L) p), Nat.mod_add, Nat.mod_small by lia.
    change (KkSem.val m3) with (va m3). rewrite <- (Nat.add_0_r (3 * q)) at 1. rewrite !V by lia. reflexivity. }
  assert (VG : forall q p, (q < nE)%nat -> (p < 3 * L)%nat -> va m4 (bYg, [(3 * q * L + p)%nat]) = at_ (N:=RNum) (snd (sph (k_l_max km) (e_z (eg s q)) (e_x (eg s q)) (e_y (eg s q)))) p).
  { intros q p Hq Hp. unfold m4. rewrite va_set_eq.
    rewrite (proj2 (Nat.ltb_lt _ _)) by nia. replace (3 * q * L + p)%nat with (q * (3 * L) + p)%nat by lia. rewrite Nat.div_add_l, Nat.div_small, Nat.add_0_r by lia.
    rewrite (Nat.add_comm (q * (3 * L)) p), Nat.mod_add, Nat.mod_small by lia.
    change (KkSem.val m3) with (va m3). rewrite <- (Nat.add_0_r (3 * q)) at 1. rewrite !V by lia. reflexivity. }
  assert (U4 : oth (two bY bYg) m3 m4).
  { intros b' Hb'. unfold two in Hb'. apply orb_false_elim in Hb' as [A B]. unfold m4. rewrite (oth_set _ bYg _ _ b' B). apply (oth_set _ bY _ _ b' A). }
  clearbody m4. assert (R1 : P1_ m4) by (unfold P1_; rewrite D4; exact R1'). clear R1'. rewrite <- D4 in *.
  (* the copy of Y_grad *)
  apply hok_hop. match goal with |- hok _ ?x _ => set (m5 := x) end.
  assert (A5 : P1_ m5 /\ oth (one bYgs) m4 m5 /\ dims m5 bYgs = dims m5 bYg).
  { unfold m5, extent. destruct R3 as [[E1 E2]|[E1 E2]].
    - rewrite (proj2 (Nat.ltb_lt _ _) E1). split; [|split; [apply oth_set|unfold realloc; rewrite dims_set_eq, dims_set_ne by discriminate; auto]].
      destruct R1 as [S1 S2]. unfold P1_, realloc. rewrite !(dims_set_ne _ bYgs) by discriminate. split; auto.
      intros b'. rewrite !dims_set. destruct (buf_dec bYgs b') as [<-|N1]; [right; eexists; reflexivity|auto].
    - rewrite E1, (proj2 (Nat.ltb_ge _ _) E2). split; auto. split; auto. apply oth_refl. }
  clearbody m5. destruct A5 as (R1' & U5 & R6). clear R1 R3.
  rewrite <- (st_dims _ _ _ (U5 bYg eq_refl)), <- (st_dims _ _ _ (U5 bY eq_refl)) in R2. rewrite <- (st_dims _ _ _ (U5 bY eq_refl)) in X1. rewrite <- (st_dims _ _ _ (U5 bYg eq_refl)) in X2.
  assert (VY5 : forall idx, va m5 (bY, idx) = va m4 (bY, idx)) by (intros; apply (st_va _ _ _ _ (U5 bY eq_refl))).
  assert (VG5 : forall idx, va m5 (bYg, idx) = va m4 (bYg, idx)) by (intros; apply (st_va _ _ _ _ (U5 bYg eq_refl))).
  assert (G5 : good km m5) by (destruct R1' as (S1 & S2 & S3 & S4 & S5 & S6); split; auto). clear R1'.
  eapply hok_op; [unfold copy_view; destruct (list_eq_dec Nat.eq_dec (dims m5 bYgs) (dims m5 bYg)); [reflexivity|contradiction]|].
  match goal with |- hok _ ?x _ => set (m6 := x) end.
  assert (D6 : dims m6 = dims m5) by (extensionality b'; unfold m6; rewrite dims_set; destruct (buf_dec bYgs b') as [<-|]; auto).
  assert (U6 : oth (one bYgs) m5 m6) by apply oth_set.
  assert (V6 : forall idx, va m6 (bYgs, idx) = va m5 (bYg, idx)) by (intros; unfold m6; rewrite va_set_eq; reflexivity).
  clearbody m6. assert (G6 : good km m6) by (apply (good_dims km m5); auto; intros; rewrite D6; auto).
  rewrite <- D6 in X1, X2, R6. assert (X3' : (3 * nE * L <= extent m6 bYgs 0)%nat) by (unfold extent; rewrite R6; exact X2).
  change (nE * L <= extent m6 bY 0)%nat in X1. change (3 * nE * L <= extent m6 bYg 0)%nat in X2.
  eapply hok_k; [apply (k_unshuffle km s m6 HL); cv km G6|]. cbn beta. intros m7 KP7 V7. carryk KP7. pose proof (good_keep km _ _ _ KP7 G6) as G7.
  eapply hok_k; [apply k_norm_Y; cv km G7|]. cbn beta. intros m8 KP8 V8. carryk KP8. pose proof (good_keep km _ _ _ KP8 G7) as G8.
  eapply hok_k; [apply k_norm_Yg; cv km G8|]. cbn beta. intros m9 KP9 V9. carryk KP9. pose proof (good_keep km _ _ _ KP9 G8) as G9.
  apply HQ; auto.
  - othr.
  - split; [ext_|]. intros x Hx. assert (Ex : x = (x / L * L + x mod L)%nat) by (rewrite Nat.mul_comm; apply Nat.div_mod_eq).
    assert (Hq : (x / L < nE)%nat) by (apply Nat.div_lt_upper_bound; lia). assert (Hp : (x mod L < L)%nat) by (apply Nat.mod_upper_bound; lia).
    rewrite (st_va _ _ _ _ (U7 bY eq_refl)), V8 by auto. rewrite (st_va _ _ _ _ (U bY eq_refl)), (st_va _ _ _ _ (U6 bY eq_refl)), VY5.
    rewrite Ex at 1. rewrite VY by auto. unfold eflat, Yv. rewrite (kk ki_l). reflexivity.
  - split; [ext_|]. intros x Hx. assert (Ex : x = (3 * (x / (3 * L)) * L + x mod (3 * L))%nat).
    { etransitivity; [apply (Nat.div_mod_eq x (3 * L))|]. lia. }
    assert (Hq : (x / (3 * L) < nE)%nat) by (apply Nat.div_lt_upper_bound; lia). assert (Hp : (x mod (3 * L) < 3 * L)%nat) by (apply Nat.mod_upper_bound; lia).
    rewrite V9 by auto. rewrite (st_va _ _ _ _ (U0 bYg eq_refl)). rewrite Ex at 1. rewrite V7 by auto.
    rewrite V6, VG5, VG by (auto; apply Nat.mod_upper_bound; lia). unfold eflat, Yg. rewrite (kk ki_l), <- kLm'. reflexivity.
Qed.

(** ** A0, M0, H1 *)
Definition t_A0 (x : buf) : bool := match x with bScr | bA0 | bA0v | bA0d => true | _ => false end.
Definition vA0 q (p : nat) := csv (N:=RNum) (spl0 mm (ty s (ow s q)) (e_type (eg s q))) (e_r (eg s q)).
Definition dA0 q (p : nat) := csd (N:=RNum) (spl0 mm (ty s (ow s q)) (e_type (eg s q))) (e_r (eg s q)).
Lemma st_A0 l m (Q : rmem -> Prop) : good km m ->
  has1 m bY (nE * L) (eflat s L (Yv (N:=RNum) sph mm)) ->
  has2 m bR0 nE C0 (fun q p => kR mm s (R0v (N:=RNum) mm s) (ow s q) (eg s q) p) ->
  (forall m', good km m' -> oth t_A0 m m' -> has3 m' bA0 n L K (pA0 (N:=RNum) sph mm s) ->
     (k_A0_scaled km = true -> has2 m' bA0v nE 1 vA0 /\ has2 m' bA0d nE 1 dA0) -> hok l m' Q) ->
  hok (kk_compute_A0 km n (f_num_neigh s)
    ++ kk_compute_A0_scaled km n (f_node_types s) (f_num_neigh s) (f_neigh_types s) (f_r s) ++ l) m Q.
Proof.
  intros G HY HR HQ. unfold kk_compute_A0. cbn [app].
  apply hok_hop. match goal with |- hok _ ?x _ => set (m1 := x) end.
  assert (A1 : good km m1 /\ oth (one bA0) m m1 /\ (n <= extent m1 bA0 0)%nat).
  { unfold m1. destruct (Nat.eqb_spec (extent m bA0 0) n) as [E|E].
    - split; auto. split; [apply oth_refl|lia].
    - split; [apply (good_set km m bA0); auto; right; eexists; reflexivity|]. split; [apply oth_set|].
      unfold extent, realloc. rewrite dims_set_eq. cbn. auto. }
  clearbody m1. destruct A1 as (G1 & U1 & X1). carry U1.
  apply (hok_zero km); auto. intros m2 G2 U2 D2 V2. carryd D2. carry U2.
  eapply hok_k; [apply (k_A0 km s m2); cv km G2|]. cbn beta. intros m3 KP V. carryk KP. pose proof (good_keep km _ _ _ KP G2) as G3.
  assert (HA : has3 m3 bA0 n L K (mulW0 (N:=RNum) mm s (phi0 (N:=RNum) mm s (R0v (N:=RNum) mm s) (Yv (N:=RNum) sph mm)))).
  { split; [ext_|]. intros i lm k Hi Hl Hk. rewrite V, V2, Rplus_0_l by auto.
    pose proof Hk as Hk'. rewrite (kk ki_K) in Hk'. rewrite <- eq_A0 by auto. unfold a0_sum. apply rsum_ext. intros j Hj.
    pose proof (q_lt s i j Hi Hj) as Hq. assert (Hl' : (Nat.sqrt lm < k_l_max km + 1)%nat) by (apply sqrt_lt; exact Hl).
    rewrite <- (st_va _ _ _ _ (U bR0 eq_refl)), <- (st_va _ _ _ _ (U bY eq_refl)).
    rewrite (proj2 HR) by (auto; apply idx_lt; auto). rewrite (proj2 HY) by (apply idx_lt; auto). rewrite eflat_at by auto.
    rewrite (kk ki_K). reflexivity. }
  clear V V2 X1. unfold kk_compute_A0_scaled. destruct (k_A0_scaled km) eqn:Es; cbn [app].
  - destruct ((kk ki_A0) Es) as (I1 & I2 & I3).
    apply (hok_grow2 km _ bA0v bA0d _ nE _ _ _ eq_refl eq_refl (length_r s) G3). intros m4 G4 U4 X4 X5. carry U4.
    eapply hok_k; [apply (k_A0v s (k_A0_splines km) m4 I1); rewrite I2; cv km G4|]. cbn beta. intros m5 KP5 V. carryk KP5. pose proof (good_keep km _ _ _ KP5 G4) as G5.
    rewrite I2 in V.
    assert (Hv : has2 m5 bA0v nE 1 vA0).
    { split; [ext_|]. intros q p Hq Hp. replace p with 0%nat by lia. rewrite (proj1 (V q 0%nat Hq Nat.lt_0_1)). apply I3; auto. }
    assert (Hd : has2 m5 bA0d nE 1 dA0).
    { split; [ext_|]. intros q p Hq Hp. replace p with 0%nat by lia. rewrite (proj2 (V q 0%nat Hq Nat.lt_0_1)). apply I3; auto. }
    clear V. eapply hok_k; [apply (k_scale_A0 km s m5); cv km G5|]. cbn beta. intros m6 KP6 V. pose proof (proj1 HA) as XA. carryk KP6. pose proof (good_keep km _ _ _ KP6 G5) as G6.
    apply HQ; auto.
    + othr.
    + split; [ext_|]. intros i lm k Hi Hl Hk. rewrite V, (proj2 HA) by auto. unfold pA0, odivs, divs. rewrite <- (kk ki_sc0), Es.
      cbn [ndiv RNum]. f_equal. unfold kscale, sc0. rewrite <- (eq_sc s (fun i e => csv (N:=RNum) (spl0 mm (ty s i) (e_type e)) (e_r e))) by auto. f_equal. apply rsum_ext. intros j Hj.
      pose proof (q_lt s i j Hi Hj) as Hq. rewrite <- (st_va _ _ _ _ (U3 bA0v eq_refl)). rewrite (proj2 Hv) by auto. reflexivity.
  - apply HQ; auto.
    + othr.
    + eapply has3_eq; [|exact HA]. intros. unfold pA0, odivs. rewrite <- (kk ki_sc0), Es. reflexivity.
    + discriminate.
Qed.

Definition P0' (t LM k : nat) := P0 (t * num_LM mm * m_num_channels mm + (LM * m_num_channels mm + k))%nat.
Definition P1' (t k : nat) := P1 (t * m_num_channels mm + k)%nat.
Definition t_M0 (x : buf) : bool := match x with bScr | bM0 | bM0v _ => true | _ => false end.
Definition vM0 LM i q k := nth q (vlist (P0' (ty s i) LM k) (xcol (N:=RNum) mm (pA0 (N:=RNum) sph mm s) i k) (length (kE km LM))) 0.
Lemma cx_kE LM : (LM < M)%nat -> cx km LM = (L + length (kE km LM))%nat.
Proof. intros HL. destruct ((kk ki_M0) LM HL) as (_ & v & E & X & _). unfold cx. rewrite E. auto. Qed.
Lemma st_M0 l m (Q : rmem -> Prop) : good km m ->
  has3 m bA0 n L K (pA0 (N:=RNum) sph mm s) ->
  (forall m', good km m' -> oth t_M0 m m' -> has3 m' bM0 n M K (pM0 (N:=RNum) sph mm P0 s) -> hasV km n m' vM0 -> hok l m' Q) ->
  hok (kk_compute_M0 junk km n (f_node_types s) ++ l) m Q.
Proof.
  intros G HA HQ. unfold kk_compute_M0. rewrite <- !app_assoc. cbn [app].
  apply (hok_grow km bM0 n); auto. intros m1 G1 U1 X1. carry U1.
  apply (hok_zero km); auto. intros m2 G2 U2 D2 V2. carryd D2. carry U2.
  apply (hok_growV junk km n bM0v); auto; [intros a b; congruence|]. intros m3 G3 U3 X3.
  assert (U3' : oth (fun b => match b with bM0v _ => true | _ => false end) m2 m3).
  { eapply oth_sub; [|exact U3]. intros b Hb. apply not_true_is_false. intros E. apply existsb_exists in E as (y & Hy & E).
    unfold one in E. destruct (buf_dec (bM0v y) b) as [<-|]; discriminate. }
  clear U3. rename U3' into U3. carry U3.
  eapply hok_k; [apply (k_M0 km s P0' (kk ki_M0) m3); [cv km G3|cv km G3|]|].
  { intros LM HL. rewrite <- cx_kE by auto. apply (cov_of km m3 (bM0v LM) n G3 eq_refl). apply X3. apply in_seq. lia. }
  cbn beta. intros m4 KP (VM & VV).
  assert (Ex : forall i k, (i < n)%nat -> (k < K)%nat -> kx0 km m3 i k = xcol (N:=RNum) mm (pA0 (N:=RNum) sph mm s) i k).
  { intros i k Hi Hk. unfold kx0, xcol. rewrite <- kLm'. apply tab_ext. intros lm Hl. apply (proj2 HA); auto. }
  assert (XV : forall LM, (LM < M)%nat -> (n <= extent m4 (bM0v LM) 0)%nat).
  { intros LM HL. rewrite (keep_ext _ _ _ _ _ KP). apply X3. apply in_seq. lia. }
  carryk KP. pose proof (good_keep km _ _ _ KP G3) as G4.
  apply HQ; auto.
  - othr.
  - split; [ext_|]. intros i LM k Hi HL Hk. rewrite VM by auto. rewrite (st_va _ _ _ _ (U3 bM0 eq_refl)), V2, Rplus_0_l, Ex by auto. reflexivity.
  - intros LM HL. split; [auto|]. intros i q k Hi Hq Hk. rewrite VV by auto. unfold kv0. rewrite Ex by auto. reflexivity.
Qed.

Definition t_H1 (x : buf) : bool := match x with bScr | bH1 => true | _ => false end.
Lemma st_H1 l m (Q : rmem -> Prop) : good km m ->
  has3 m bM0 n M K (pM0 (N:=RNum) sph mm P0 s) ->
  (forall m', good km m' -> oth t_H1 m m' -> has3 m' bH1 n M K (pH1 (N:=RNum) sph mm P0 s) -> hok l m' Q) ->
  hok (kk_compute_H1 km n ++ l) m Q.
Proof.
  intros G HM HQ. unfold kk_compute_H1. cbn [app].
  apply (hok_grow_like km bH1 bM0); auto. intros m1 G1 U1 X1. pose proof (proj1 HM) as XM. assert (X : (n <= extent m1 bH1 0)%nat) by lia. clear X1 XM. carry U1.
  eapply hok_k; [apply (k_H1 km s (kk ki_H1) m1); cv km G1|]. cbn beta. intros m2 KP V. pose proof HM as HM'. carryk KP. pose proof (good_keep km _ _ _ KP G1) as G2.
  apply HQ; auto.
  - othr.
  - split; [ext_|]. intros i lm k Hi Hl Hk. rewrite V by auto. unfold pH1. rewrite <- eq_H1. rewrite <- (kk ki_K). apply rsum_ext. intros q Hq.
    rewrite <- (st_va _ _ _ _ (U bM0 eq_refl)), (proj2 HM) by auto. f_equal. rewrite (kk ki_H1v); auto; [rewrite !(kk ki_K); reflexivity|]. apply sqrt_lt. exact Hl.
Qed.
End St.
