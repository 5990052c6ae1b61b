(** Stages of the Kokkos evaluator: readouts.  Used in proofs only. *)
From Coq Require Import List Arith ZArith Bool Lia Reals Lra FunctionalExtensionality.
From Verif Require Import Base BaseLemmas Segs BlasLemmas Instances RSums MpModel MpProofs ZblModel MaceModel Sys SysLoops MaceGrid
  MacePure MaceStages1 MaceStages4 MaceStages6 MacePipe DistPipe.
From Verif Require Import KkSem KkSound KkWp KkWp2 KkModel KkHost KkTac KkK1 KkK2 KkK3 KkK4 KkK5 KkK6 KkK7 KkEq KkChain KkSim KkStage1 KkStage2 KkStage3.
Import ListNotations.
Local Open Scope R_scope.

Section St.
Variable sph : nat -> RNum -> RNum -> RNum -> list RNum * list RNum.
Variable junk : rmem -> cell -> R.
Variable km : kmace RNum.
Variable mm : mace_model RNum.
Variables (P0 P1 : nat -> @mpoly RNum).
Variable fe : list RNum -> RNum.
Variable fg : list RNum -> nat -> RNum.
Variable H : nat.
Variables (w0 w1 : nat -> nat -> R) (V0 V1 : view RNum).
Variable s : sys RNum.
Variable nH : nat.
Hypothesis KI : kin km mm P0 P1 fe fg H w0 w1 V0 V1 s nH.
Hypothesis W : mace_wf mm.
Notation n := (length s).
Notation nE := (length (epairs s)).
Notation K := (k_num_channels km).
Notation L := (k_num_lm km).
Notation M := (k_num_LM km).
Notation C := (k_num_lelm1lm2 km).
Notation NE := (k_num_lme km).
Notation C0 := ((k_l_max km + 1) * K)%nat.
Notation C1 := (length (k_Phi1_l km) * K)%nat.
Notation nb i := (length (es s i)).
Notation kk f := (f _ _ _ _ _ _ _ _ _ _ _ _ _ KI) (only parsing).
Notation kLm' := (kLm km mm P0 P1 fe fg H w0 w1 V0 V1 s nH KI).
Notation kLM' := (kLM km mm P0 P1 fe fg H w0 w1 V0 V1 s nH KI).
Variable Hf : nat -> nat -> nat -> R.
Hypothesis HnH : (n <= nH)%nat.
Notation pH2' := (hH2 (N:=RNum) sph mm P1 s Hf).
Notation pE' := (hE (N:=RNum) sph mm P1 fe s Hf).
Notation qH2' := (gH2 (N:=RNum) sph mm P1 fg s Hf).

(** views of the perceptron: exactly [n] rows *)
Definition isN (b : buf) : bool := match b with bNv _ | bNd _ => true | _ => false end.
Lemma cov_N m b c : dims m b = [n; c] -> isN b = true -> cov m b [n; c].
Proof. intros D _. eapply cov_ext; [exact D|lia]. Qed.
Lemma hok_mlp_alloc b sh l m Q : isN b = true -> good km m ->
  (forall m1, good km m1 -> oth (one b) m m1 -> (0 < sh -> dims m1 b = [n; sh])%nat -> (forall idx, va m1 (b, idx) = 0) -> hok l m1 Q) ->
  hok (mlp_alloc junk n b sh ++ l) m Q.
Proof.
  intros I G HQ. unfold mlp_alloc. cbn [app].
  apply hok_hop. match goal with |- hok _ ?x _ => set (m1 := x) end.
  assert (A : good km m1 /\ oth (one b) m m1 /\ (0 < sh -> dims m1 b = [n; sh])%nat).
  { unfold m1. destruct (negb (extent m b 0 =? n)%nat || negb (extent m b 1 =? sh)%nat) eqn:E.
    - split; [apply good_set; auto; [destruct b; try discriminate I; reflexivity|destruct b; try discriminate I; right; eauto]|].
      split; [apply oth_set|]. intros _. unfold realloc_uninit. apply dims_set_eq.
    - apply orb_false_elim in E as [E1 E2]. apply negb_false_iff, Nat.eqb_eq in E1, E2. split; auto. split; [apply oth_refl|].
      intros Hs. pose proof (g_sz km m G b) as S. assert (S' : dims m b = [] \/ exists x y, dims m b = [x; y]) by (destruct b; try discriminate I; exact S).
      unfold extent in *. destruct S' as [E|(x & y & E)]; rewrite E in *; cbn in *; [lia|congruence]. }
  clearbody m1. destruct A as (G1 & U1 & D1).
  apply (hok_zero km); auto. intros m2 G2 U2 D2 V2. apply HQ; auto.
  - apply (oth_trans _ _ m1); auto.
  - intros Hn. rewrite D2. auto.
Qed.
Lemma hok_copy_rows dst src c l m Q (f : nat -> nat -> R) : good km m ->
  has2 m src n c f -> extent m src 1 = c -> (n <= extent m dst 0)%nat -> extent m dst 1 = c ->
  (forall m1, good km m1 -> dims m1 = dims m -> oth (one dst) m m1 -> (forall i j, (i < n)%nat -> (j < c)%nat -> va m1 (dst, [i; j]) = f i j) -> hok l m1 Q) ->
  hok (copy_rows n dst src c :: l) m Q.
Proof.
  intros G [X1 HS] X2 X3 X4 HQ. unfold copy_rows.
  eapply hok_op. { cbv beta. rewrite (proj2 (Nat.leb_le _ _) X1), (proj2 (Nat.eqb_eq _ _) X2), (proj2 (Nat.leb_le _ _) X3), (proj2 (Nat.eqb_eq _ _) X4). cbn [andb]. reflexivity. }
  assert (D : dims (set_view m dst (dims m dst) (fun idx => match idx with [i; j] => if (i <? n)%nat then KkSem.val m (src, [i; j]) else KkSem.val m (dst, idx) | _ => KkSem.val m (dst, idx) end)) = dims m).
  { extensionality b'. rewrite dims_set. destruct (buf_dec dst b') as [<-|]; auto. }
  apply HQ; [apply (good_dims km m); auto; intros; rewrite D; auto|exact D|apply oth_set|].
  intros i j Hi Hj. rewrite va_set_eq. rewrite (proj2 (Nat.ltb_lt _ _) Hi). apply HS; auto.
Qed.

Definition t_ro (x : buf) : bool := match x with bScr | bH1a | bH2a | bRo | bE | bNv _ | bNd _ => true | _ => false end.
Lemma st_ro l m (Q : rmem -> Prop) : good km m -> tz n m -> has1 m bE n (zE (N:=RNum) mm s) -> has3 m bH1 nH M K Hf -> has2 m bH2 n K pH2' -> extent m bH2 1 = K ->
  (forall m', good km m' -> oth t_ro m m' -> dims m' bE = dims m bE -> tz n m' -> has1 m' bE n pE' ->
     has3 m' bH1a nH M K (ra1 (N:=RNum) mm s) -> has2 m' bH2a n K qH2' -> (extent m bH1 0 <= extent m' bH1a 0)%nat -> hok l m' Q) ->
  hok (kk_compute_readouts junk km n (f_node_types s) ++ l) m Q.
Proof.
  intros G HT HE HH HH2 XH2 HQ. unfold kk_compute_readouts. rewrite <- !app_assoc. cbn [app].
  pose proof (proj1 HH) as XH. remember (extent m bH1 0) as eH eqn:EeH. remember (dims m bE) as dEe eqn:EdE.
  assert (XN : (n <= extent m bH1 0)%nat) by (rewrite <- EeH; lia).
  apply (hok_grow_like km bH1a bH1); auto. intros m1 G1 U1 X1. rewrite <- EeH in X1. rewrite <- (st_dims _ _ _ (U1 bE eq_refl)) in EdE. rewrite <- (st_ext _ _ bH2 1 (U1 bH2 eq_refl)) in XH2. carry U1.
  apply hok_grow_K; auto. intros m2 G2 U2 X2 Y2. rewrite <- (st_dims _ _ _ (U2 bE eq_refl)) in EdE. rewrite <- (st_ext _ _ bH2 1 (U2 bH2 eq_refl)) in XH2. carry U2.
  apply (hok_grow km bRo n); auto. intros m3 G3 U3 X3. rewrite <- (st_dims _ _ _ (U3 bE eq_refl)) in EdE. rewrite <- (st_ext _ _ bH2 1 (U3 bH2 eq_refl)) in XH2. rewrite <- (st_ext _ _ bH2a 1 (U3 bH2a eq_refl)) in Y2. carry U3.
  apply (hok_zero km); auto. intros m4 G4 U4 D4 V4. rewrite <- D4 in EdE. rewrite <- (dims_ext _ _ bH2 1 D4) in XH2. rewrite <- (dims_ext _ _ bH2a 1 D4) in Y2. carryd D4. carry U4.
  assert (XH' : (n <= extent m4 bH1a 0)%nat) by lia. assert (XH'' : (nH <= extent m4 bH1a 0)%nat) by lia. pose proof (proj1 HE) as XE.
  (* readout 0 *)
  eapply hok_k; [apply (k_ro0 km s m4 (kk ki_E0l)); cv km G4|]. cbn beta. intros m5 KP5 (V5 & VT5). apply (tz_va n m4 m5 VT5) in HT. clear VT5.
  assert (HE5 : has1 m5 bE n (fun i => zE (N:=RNum) mm s i + at_ (N:=RNum) (m_atomic_energies mm) (ty s i))).
  { split; [rewrite (keep_ext _ _ _ _ _ KP5); auto|]. intros i Hi. rewrite V5, (proj2 HE) by auto. unfold at_. rewrite (kk ki_E0), RNum_zero. reflexivity. }
  clear V5 HE. rewrite <- (proj1 KP5) in EdE. rewrite <- (keep_ext _ _ _ bH2 1 KP5) in XH2. rewrite <- (keep_ext _ _ _ bH2a 1 KP5) in Y2.
  assert (V5 : forall idx, va m5 (bH1a, idx) = 0) by (intros; rewrite (st_va _ _ _ _ (oth_keep _ _ _ KP5 bH1a eq_refl)); apply V4).
  carryk KP5. pose proof (good_keep km _ _ _ KP5 G4) as G5. clear V4 XE.
  (* readout 1 *)
  eapply hok_k; [apply (k_ro1' km s (kk ki_HMl) m5 (kk ki_ro1l)); cv km G5|]. cbn beta. intros m6 KP6 (VA & VB & VC & VT6 & VR). apply (tz_va n m5 m6 VT6) in HT. clear VT6.
  assert (HE6 : has1 m6 bE n (fun i => nfold (N:=RNum) (seq 0 (m_num_channels mm)) (fun k => at_ (N:=RNum) (m_readout_1_weights mm) k * Hf i 0%nat k)
    (zE (N:=RNum) mm s i + at_ (N:=RNum) (m_atomic_energies mm) (ty s i)))).
  { split; [rewrite (keep_ext _ _ _ _ _ KP6); ext_|]. intros i Hi. rewrite VA, (proj2 HE5) by auto. rewrite nfold_seq, <- (kk ki_K). f_equal. apply rsum_ext. intros k Hk.
    rewrite (proj2 HH); auto; [|lia|unfold k_num_LM; nia]. unfold at_. rewrite (kk ki_ro1), RNum_zero. reflexivity. }
  assert (HA6 : has3 m6 bH1a nH M K (ra1 (N:=RNum) mm s)).
  { split; [rewrite (keep_ext _ _ _ _ _ KP6); ext_|]. intros i LM k Hi HL Hk. unfold ra1. destruct (Nat.ltb_spec i n) as [Hi'|Hi']; cbn [andb].
    2:{ rewrite VR, V5, RNum_zero by auto. reflexivity. }
    destruct (Nat.eqb_spec LM 0) as [->|Hne]; [rewrite VB by auto; unfold at_; rewrite (kk ki_ro1), RNum_zero; reflexivity|]. rewrite VC, V5, RNum_zero by auto. reflexivity. }
  clear VA VB VC V5 VR. rewrite <- (proj1 KP6) in EdE. rewrite <- (keep_ext _ _ _ bH2 1 KP6) in XH2. rewrite <- (keep_ext _ _ _ bH2a 1 KP6) in Y2.
  clear HE5. carryk KP6. pose proof (good_keep km _ _ _ KP6 G5) as G6.
  (* perceptron *)
  unfold kk_mlp_evaluate_gradient. rewrite (mi_shape _ _ _ _ _ _ _ (kk ki_mlp)). cbn [length seq flat_map nth Nat.sub]. rewrite <- !app_assoc. cbn [app].
  apply hok_mlp_alloc; auto. intros a1 Ga1 Ua1 Da1 _. specialize (Da1 (kk ki_Kp)).
  apply hok_mlp_alloc; auto. intros a2 Ga2 Ua2 Da2 _. specialize (Da2 (kk ki_Kp)). rewrite <- (st_dims _ _ _ (Ua2 (bNv 0) eq_refl)) in Da1.
  apply hok_mlp_alloc; auto. intros a3 Ga3 Ua3 Da3 Va3. specialize (Da3 (kk ki_H)). rewrite <- (st_dims _ _ _ (Ua3 (bNv 0) eq_refl)) in Da1. rewrite <- (st_dims _ _ _ (Ua3 (bNd 0) eq_refl)) in Da2.
  apply hok_mlp_alloc; auto. intros a4 Ga4 Ua4 Da4 _. specialize (Da4 (kk ki_H)). rewrite <- (st_dims _ _ _ (Ua4 (bNv 0) eq_refl)) in Da1. rewrite <- (st_dims _ _ _ (Ua4 (bNd 0) eq_refl)) in Da2.
  rewrite <- (st_dims _ _ _ (Ua4 (bNv 1) eq_refl)) in Da3.
  assert (Va4 : forall idx, va a4 (bNv 1, idx) = 0) by (intros; rewrite (st_va _ _ _ _ (Ua4 (bNv 1) eq_refl)); apply Va3). clear Va3.
  apply hok_mlp_alloc; auto. intros a5 Ga5 Ua5 Da5 Va5. specialize (Da5 Nat.lt_0_1). rewrite <- (st_dims _ _ _ (Ua5 (bNv 0) eq_refl)) in Da1. rewrite <- (st_dims _ _ _ (Ua5 (bNd 0) eq_refl)) in Da2.
  rewrite <- (st_dims _ _ _ (Ua5 (bNv 1) eq_refl)) in Da3. rewrite <- (st_dims _ _ _ (Ua5 (bNd 1) eq_refl)) in Da4.
  assert (Va5' : forall idx, va a5 (bNv 1, idx) = 0) by (intros; rewrite (st_va _ _ _ _ (Ua5 (bNv 1) eq_refl)); apply Va4). clear Va4.
  apply hok_mlp_alloc; auto. intros a6 Ga6 Ua6 _ _. rewrite <- (st_dims _ _ _ (Ua6 (bNv 0) eq_refl)) in Da1. rewrite <- (st_dims _ _ _ (Ua6 (bNd 0) eq_refl)) in Da2.
  rewrite <- (st_dims _ _ _ (Ua6 (bNv 1) eq_refl)) in Da3. rewrite <- (st_dims _ _ _ (Ua6 (bNd 1) eq_refl)) in Da4. rewrite <- (st_dims _ _ _ (Ua6 (bNv 2) eq_refl)) in Da5.
  assert (Z1 : forall idx, va a6 (bNv 1, idx) = 0) by (intros; rewrite (st_va _ _ _ _ (Ua6 (bNv 1) eq_refl)); apply Va5').
  assert (Z2 : forall idx, va a6 (bNv 2, idx) = 0) by (intros; rewrite (st_va _ _ _ _ (Ua6 (bNv 2) eq_refl)); apply Va5). clear Va5 Va5'.
  assert (Ua : oth isN m6 a6) by (othr).
  clear Ua1 Ua2 Ua3 Ua4 Ua5 Ua6 Ga1 Ga2 Ga3 Ga4 Ga5 a1 a2 a3 a4 a5.
  rewrite <- (st_dims _ _ _ (Ua bE eq_refl)) in EdE. rewrite <- (st_ext _ _ bH2 1 (Ua bH2 eq_refl)) in XH2. rewrite <- (st_ext _ _ bH2a 1 (Ua bH2a eq_refl)) in Y2. carry Ua.
  cbn [app]. eapply (hok_copy_rows (bNv 0) bH2 K _ _ _ _ Ga6 HH2 XH2); [unfold extent; rewrite Da1; cbn; lia|unfold extent; rewrite Da1; reflexivity|].
  intros a7 Ga7 D7 U7 V7. rewrite <- D7 in Da1, Da2, Da3, Da4, Da5, EdE. rewrite <- (dims_ext _ _ bH2a 1 D7) in Y2. carryd D7. carry U7.
  assert (Z1' : forall idx, va a7 (bNv 1, idx) = 0) by (intros; rewrite (st_va _ _ _ _ (U7 (bNv 1) eq_refl)); apply Z1).
  assert (Z2' : forall idx, va a7 (bNv 2, idx) = 0) by (intros; rewrite (st_va _ _ _ _ (U7 (bNv 2) eq_refl)); apply Z2). clear Z1 Z2.
  eapply hok_k; [apply (k_mlp s (k_readout_2 km) K H w0 w1 V0 V1 (kk ki_mlp) a7); try (apply cov_N; auto); auto|]. cbn beta. intros a8 KP8 (VO & VD).
  assert (EZ : forall i p, (i < n)%nat -> kl_z K w0 a7 i p = rsum K (fun q => w0 p q * pH2' i q)).
  { intros i p Hi. unfold kl_z. apply rsum_ext. intros q Hq. rewrite V7 by auto. reflexivity. }
  assert (HO : forall i, (i < n)%nat -> va a8 (bNv 2, [i; 0%nat]) = fe (tab (m_num_channels mm) (pH2' i))).
  { intros i Hi. rewrite VO, (kk ki_fe) by auto. unfold kl_out. apply rsum_ext. intros p Hp. rewrite EZ by auto. reflexivity. }
  assert (HD : has2 a8 (bNd 0) n K qH2').
  { split; [rewrite (keep_ext _ _ _ _ _ KP8); unfold extent; rewrite Da2; cbn; auto|]. intros i k Hi Hk. rewrite VD by auto. unfold gH2. rewrite (kk ki_fg) by auto.
    unfold kl_d0, kl_d1. apply rsum_ext. intros p Hp. rewrite EZ by auto. reflexivity. }
  clear VO VD. rewrite <- (proj1 KP8) in EdE, Da2, Da5. rewrite <- (keep_ext _ _ _ bH2a 1 KP8) in Y2. carryk KP8. pose proof (good_keep km _ _ _ KP8 Ga7) as Ga8.
  (* copy of the outputs *)
  eapply hok_op. { unfold copy_col0. cbv beta. rewrite (proj2 (Nat.leb_le n (extent a8 bRo 0))) by ext_. unfold extent at 1 2. rewrite Da5. cbn [nth]. rewrite Nat.leb_refl. cbn [andb Nat.leb]. reflexivity. }
  match goal with |- hok _ ?x _ => set (a9 := x) end.
  assert (D9 : dims a9 = dims a8) by (extensionality b'; unfold a9; rewrite dims_set; destruct (buf_dec bRo b') as [<-|]; auto).
  assert (U9 : oth (one bRo) a8 a9) by apply oth_set.
  assert (HR9 : has1 a9 bRo n (fun i => fe (tab (m_num_channels mm) (pH2' i)))).
  { split; [rewrite (dims_ext _ _ _ _ D9); ext_|]. intros i Hi. unfold a9. rewrite va_set_eq, (proj2 (Nat.ltb_lt _ _) Hi). apply HO; auto. }
  clearbody a9. assert (Ga9 : good km a9) by (apply (good_dims km a8); auto; intros; rewrite D9; auto).
  rewrite <- D9 in EdE, Da2. rewrite <- (dims_ext _ _ bH2a 1 D9) in Y2. carryd D9. carry U9.
  eapply (hok_copy_rows bH2a (bNd 0) K _ _ _ _ Ga9 HD); [unfold extent; rewrite Da2; reflexivity|ext_|exact Y2|].
  intros b1 Gb1 Db1 Ub1 Vb1. rewrite <- Db1 in EdE. carryd Db1. carry Ub1.
  (* readout 2 *)
  eapply hok_k; [apply (k_ro2 s b1); cv km Gb1|]. cbn beta. intros b2 KPb2 (Vb2 & VT7). apply (tz_va n b1 b2 VT7) in HT. clear VT7.
  assert (HE7 : has1 b2 bE n pE').
  { split; [rewrite (keep_ext _ _ _ _ _ KPb2); ext_|]. intros i Hi. rewrite Vb2, (proj2 HE6), (proj2 HR9) by auto. reflexivity. }
  assert (HB : has2 b1 bH2a n K qH2') by (split; [ext_|auto]).
  clear HE6 Vb2 Vb1. rewrite <- (proj1 KPb2) in EdE. carryk KPb2. pose proof (good_keep km _ _ _ KPb2 Gb1) as Gb2.
  eapply hok_k; [eapply wp_conseq; [apply (k_en s b2); cv km Gb2|]; cbn beta; intros ? m' X; split; [exact X|exact I]|]. intros b3 KPb3 _.
  rewrite <- (proj1 KPb3) in EdE. carryk KPb3. pose proof (good_keep km _ _ _ KPb3 Gb2) as Gb3.
  apply HQ; auto. othr.
Qed.
End St.
