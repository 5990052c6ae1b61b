(** Stages of the Kokkos evaluator: the reverse pass.  Used in proofs only. *)
From Coq Require Import List Arith ZArith Bool Lia Reals Lra FunctionalExtensionality.
From Verif Require Import Base BaseLemmas Segs BlasLemmas Instances RSums MpModel MpProofs ZblModel MaceModel Sys SysLoops MaceGrid
  MacePure MaceStages1 MaceStages4 MaceStages6 MacePipe DistPipe.
From Verif Require Import KkSem KkSound KkWp KkWp2 KkModel KkHost KkTac KkK1 KkK2 KkK3 KkK4 KkK5 KkK6 KkK7 KkEq KkChain KkSim KkStage1 KkStage2 KkStage3.
Import ListNotations.
Local Open Scope R_scope.

Section St.
Variable sph : nat -> RNum -> RNum -> RNum -> list RNum * list RNum.
Variable junk : rmem -> cell -> R.
Variable km : kmace RNum.
Variable mm : mace_model RNum.
Variables (P0 P1 : nat -> @mpoly RNum).
Variable fe : list RNum -> RNum.
Variable fg : list RNum -> nat -> RNum.
Variable H : nat.
Variables (w0 w1 : nat -> nat -> R) (V0 V1 : view RNum).
Variable s : sys RNum.
Variable nH : nat.
Hypothesis KI : kin km mm P0 P1 fe fg H w0 w1 V0 V1 s nH.
Hypothesis W : mace_wf mm.
Notation n := (length s).
Notation nE := (length (epairs s)).
Notation K := (k_num_channels km).
Notation L := (k_num_lm km).
Notation M := (k_num_LM km).
Notation C := (k_num_lelm1lm2 km).
Notation NE := (k_num_lme km).
Notation C0 := ((k_l_max km + 1) * K)%nat.
Notation C1 := (length (k_Phi1_l km) * K)%nat.
Notation nb i := (length (es s i)).
Notation kk f := (f _ _ _ _ _ _ _ _ _ _ _ _ _ KI) (only parsing).
Notation kLm' := (kLm km mm P0 P1 fe fg H w0 w1 V0 V1 s nH KI).
Notation kLM' := (kLM km mm P0 P1 fe fg H w0 w1 V0 V1 s nH KI).
Notation pA0' := (pA0 (N:=RNum) sph mm s).
Notation pM0' := (pM0 (N:=RNum) sph mm P0 s).
(** the features of the first layer *)
Variable Hf : nat -> nat -> nat -> R.
Hypothesis HnH : (n <= nH)%nat.
(** their adjoints and the forces after the second layer *)
Variable Had : nat -> nat -> nat -> R.
Variable Fd : nat -> edge RNum -> nat -> R.
Notation pA1' := (hA1 (N:=RNum) sph mm s Hf).
Notation qH2' := (gH2 (N:=RNum) sph mm P1 fg s Hf).
Notation qH1a' := (gH1a (N:=RNum) sph mm P1 fg s Hf).
Notation qM1' := (gM1 (N:=RNum) sph mm P1 fg s Hf).
Notation qA1r' := (gA1r (N:=RNum) sph mm P1 fg s Hf).
Notation qF1' := (gF1 (N:=RNum) sph mm P1 fg s Hf).
Notation qA1' := (gA1 (N:=RNum) sph mm P1 fg s Hf).
Notation qP1r' := (gP1r (N:=RNum) sph mm P1 fg s Hf).
Notation qF2' := (gF2 (N:=RNum) sph mm P1 fg s Hf).
Notation qH1' := (fun i L k => at_ (N:=RNum) (gH1l (N:=RNum) sph mm P1 fg s Hf nH) (i * (num_LM mm * m_num_channels mm) + (L * m_num_channels mm + k))).
Notation qM0' := (rrM0 (N:=RNum) mm Had).
Notation qA0r' := (rrA0r (N:=RNum) sph mm P0 s Had).
Notation qF3' := (rrF3 (N:=RNum) sph mm P0 s Had Fd).
Notation qA0' := (rrA0 (N:=RNum) sph mm P0 s Had).
Notation pF' := (rrF (N:=RNum) sph mm P0 s Had Fd).
Notation zF' := (zF (N:=RNum) mm s).
Notation vY := (eflat s L (Yv (N:=RNum) sph mm)).
Notation vYg := (eflat s (3 * L) (Yg (N:=RNum) sph mm)).
Notation vR1 := (fun q p => R1v (N:=RNum) mm s (ow s q) (eg s q) p).
Notation vR1d := (fun q p => R1d (N:=RNum) mm s (ow s q) (eg s q) p).
Notation vR0 := (fun q p => kR mm s (R0v (N:=RNum) mm s) (ow s q) (eg s q) p).
Notation vR0d := (fun q p => kR mm s (R0d (N:=RNum) mm s) (ow s q) (eg s q) p).
Notation E1 := (k_M1_poly_spec km).
Notation P1'' := (P1' mm P1).
Notation P0'' := (P0' mm P0).

Lemma has1_F m g : (3 * nE <= extent m bF 0)%nat -> (forall q a, (q < nE)%nat -> (a < 3)%nat -> va m (bF, [(3 * q + a)%nat]) = g (ow s q) (eg s q) a) ->
  has1 m bF (3 * nE) (eflat s 3 g).
Proof.
  intros X V. split; auto. intros x Hx. assert (Ex : x = (3 * (x / 3) + x mod 3)%nat) by apply Nat.div_mod_eq.
  rewrite Ex at 1. rewrite V; [reflexivity|apply Nat.div_lt_upper_bound; lia|apply Nat.mod_upper_bound; lia].
Qed.
Lemma F_has1 m g q a : has1 m bF (3 * nE) (eflat s 3 g) -> (q < nE)%nat -> (a < 3)%nat -> va m (bF, [(3 * q + a)%nat]) = g (ow s q) (eg s q) a.
Proof. intros [_ V] Hq Ha. rewrite V by lia. apply eflat_eq; lia. Qed.
Lemma hok_resize_id b need ext l m Q : (need m <= extent m b 0)%nat -> hok l m Q -> hok (grow_resize b need ext :: l) m Q.
Proof.
  intros X HQ. apply (hok_hop (fun m => if (extent m b 0 <? need m)%nat then resize_view b (ext m) m else m)).
  rewrite (proj2 (Nat.ltb_ge _ _) X). auto.
Qed.
(** [if (b.extent(0) < num_nodes) realloc(b, extents of src)] *)
Lemma hok_realloc_like b src l m Q : jnt b = false -> plain b = true -> plain src = true -> shp km b = shp km src -> good km m -> (n <= extent m src 0)%nat ->
  (forall m1, good km m1 -> oth (one b) m m1 -> (n <= extent m1 b 0)%nat -> hok l m1 Q) ->
  hok (hop (fun m => if (extent m b 0 <? n)%nat then realloc b (dims m src) m else m) :: l) m Q.
Proof.
  intros J P Ps S G X HQ. apply hok_hop. destruct (Nat.ltb_spec (extent m b 0) n) as [E|E]; [|apply HQ; auto; apply oth_refl].
  rewrite (like km m b src) by (auto; lia). apply HQ; [apply good_set; auto; apply plain_szok; auto|apply oth_set|].
  unfold extent, realloc. rewrite dims_set_eq. cbn. exact X.
Qed.

Definition t_rH2 (x : buf) : bool := match x with bScr | bH1a | bM1a => true | _ => false end.
Lemma st_rH2 l m (Q : rmem -> Prop) : good km m -> has3 m bH1a nH M K (ra1 (N:=RNum) mm s) -> has2 m bH2a n K qH2' -> (n <= extent m bM1 0)%nat ->
  (extent m bH1 0 <= extent m bH1a 0)%nat ->
  (forall m', good km m' -> oth t_rH2 m m' -> has3 m' bH1a nH M K qH1a' -> has2 m' bM1a n K qM1' -> (extent m' bH1 0 <= extent m' bH1a 0)%nat -> hok l m' Q) ->
  hok (kk_reverse_H2 km n (f_node_types s) false ++ l) m Q.
Proof.
  intros G HA HG XM XH HQ. unfold kk_reverse_H2. cbn [app]. assert (XN : (n <= extent m bH1a 0)%nat) by (pose proof (proj1 HA); lia).
  apply hok_resize_id; [exact XH|].
  apply (hok_grow_like km bM1a bM1); auto. intros m1 G1 U1 X1. assert (X : (n <= extent m1 bM1a 0)%nat) by lia. clear X1 XM.
  rewrite <- (st_ext _ _ bH1 0 (U1 bH1 eq_refl)) in XH. rewrite <- (st_ext _ _ bH1a 0 (U1 bH1a eq_refl)) in XH. carry U1.
  apply (hok_zero km); auto. intros m2 G2 U2 D2 V2. rewrite <- (dims_ext _ _ bH1 0 D2), <- (dims_ext _ _ bH1a 0 D2) in XH. carryd D2. carry U2.
  eapply hok_k; [apply (k_rH2' km s (kk ki_HH) (kk ki_HMl) m2); cv km G2|]. cbn beta. intros m3 KP (VA & VB & VC & VR).
  apply HQ.
  - apply (good_keep km _ _ _ KP G2).
  - carryk KP. othr.
  - split; [rewrite (keep_ext _ _ _ _ _ KP); ext_|]. intros i LM k Hi HL Hk. unfold gH1a, rH2n. destruct (Nat.ltb_spec i n) as [Hi'|Hi']; [|rewrite VR, (proj2 HA) by auto; reflexivity]. unfold rH2h.
    destruct (Nat.eqb_spec LM 0) as [->|Hne].
    + rewrite VA, (proj2 HA) by auto. change (@nadd RNum) with Rplus. f_equal. refine (eq_trans _ (eq_sym (nsum_rsum _ _))). rewrite <- (kk ki_K). apply rsum_ext. intros q Hq.
      rewrite (proj2 HG), (kk ki_HHv) by (auto; apply idx_lt; auto). reflexivity.
    + rewrite VB, (proj2 HA) by auto. reflexivity.
  - split; [rewrite (keep_ext _ _ _ _ _ KP); ext_|]. intros i k Hi Hk. rewrite VC, V2, Rplus_0_l by auto. unfold gM1, rH2m. refine (eq_trans _ (eq_sym (nsum_rsum _ _))).
    rewrite <- (kk ki_K). apply rsum_ext. intros q Hq. rewrite (proj2 HG) by auto. unfold WHM, at_. rewrite (kk ki_HM), RNum_zero. reflexivity.
  - rewrite !(keep_ext _ _ _ _ _ KP). exact XH.
Qed.

Lemma E1x : coeff_ext1 (k_M1_poly_coeff km) = (L + length E1)%nat.
Proof. apply (kk ki_M1). Qed.
Definition t_rM1 (x : buf) : bool := match x with bScr | bA1a | bM1j => true | _ => false end.
Lemma st_rM1 l m (Q : rmem -> Prop) : good km m -> has2 m bM1a n K qM1' -> has3 m bM1v n (L + length E1) K (vM1 sph km mm P1 s Hf) -> (n <= extent m bA1 0)%nat ->
  (forall m', good km m' -> oth t_rM1 m m' -> has3 m' bA1a n L K qA1r' -> hok l m' Q) ->
  hok (kk_reverse_M1 km n (f_node_types s) ++ l) m Q.
Proof.
  intros G HM HV XA HQ. unfold kk_reverse_M1. cbn [app].
  apply (hok_realloc_like bA1a bA1); auto. intros m1 G1 U1 X1. carry U1.
  apply (hok_zero km); auto. intros m2 G2 U2 D2 _. carryd D2. carry U2.
  apply (hok_grow km bM1j n); auto. intros m3 G3 U3 X3. carry U3.
  eapply hok_k; [apply (k_rM1 km s P1'' (kk ki_M1) m3); [cv km G3|cv km G3|cv km G3|rewrite <- E1x; cv km G3]|]. cbn beta. intros m4 KP V.
  apply HQ.
  - apply (good_keep km _ _ _ KP G3).
  - carryk KP. othr.
  - split; [rewrite (keep_ext _ _ _ _ _ KP); ext_|]. intros i lm k Hi Hl Hk. rewrite V, (proj2 HM) by auto. unfold gA1r, rm1. change (@nmul RNum) with Rmult. f_equal.
    unfold g1, at_. rewrite RNum_zero. destruct (kk ki_M1) as [_ HI]. destruct (HI i k Hi Hk) as (Wp & HL & HE & _). 
    unfold pgrad. rewrite HL, HE. rewrite nth_firstn_lt by auto.
    assert (EL : length (vlist (P1'' (ty s i) k) (xcol (N:=RNum) mm pA1' i k) (length E1)) = (L + length E1)%nat) by (rewrite length_vlist; f_equal; unfold xcol; rewrite length_tab, <- kLm'; reflexivity).
    assert (EV : kV1 km m3 i k = vlist (P1'' (ty s i) k) (xcol (N:=RNum) mm pA1' i k) (length E1)).
    { apply (list_eq_nth _ _ 0); [unfold kV1; rewrite length_tab; symmetry; exact EL|]. intros q Hq. unfold kV1 in *. rewrite length_tab in Hq. rewrite nth_tab by auto. rewrite (proj2 HV) by auto. reflexivity. }
    unfold kb1. rewrite EV. reflexivity.
Qed.

Definition t_rsA1 (x : buf) : bool := match x with bScr | bA1a | bF => true | _ => false end.
Lemma st_rsA1 l m (Q : rmem -> Prop) : good km m -> has3 m bA1a n L K qA1r' -> has3 m bA1 n L K pA1' -> has1 m bF (3 * nE) (eflat s 3 zF') ->
  (k_A1_scaled km = true -> has2 m bA1v nE 1 (vA1 mm s) /\ has2 m bA1d nE 1 (dA1 mm s)) ->
  (forall m', good km m' -> oth t_rsA1 m m' -> has3 m' bA1a n L K qA1' -> has1 m' bF (3 * nE) (eflat s 3 qF1') ->
     (forall x, (3 * nE <= x)%nat -> va m' (bF, [x]) = va m (bF, [x])) /\ dims m' bF = dims m bF -> hok l m' Q) ->
  hok (kk_reverse_A1_scaled km n (f_num_neigh s) (f_xyz s) (f_r s) ++ l) m Q.
Proof.
  intros G HA HP HF HS HQ. unfold kk_reverse_A1_scaled. destruct (k_A1_scaled km) eqn:Es; cbn [app].
  - destruct (HS eq_refl) as [Hv Hd].
    eapply hok_k; [apply (k_rscale_A1' km s m); cv km G|]. cbn beta. intros m1 KP (VA & VF & VR).
    assert (Sc : forall i, (i < n)%nat -> kscale s bA1v m i = sc1 (N:=RNum) mm s i).
    { intros i Hi. unfold kscale, sc1. rewrite <- (eq_sc s (fun i e => csv (N:=RNum) (spl1 mm (ty s i) (e_type e)) (e_r e))) by auto. f_equal. apply rsum_ext. intros j Hj.
      rewrite (proj2 Hv) by (auto; apply q_lt; auto). reflexivity. }
    apply HQ.
    + apply (good_keep km _ _ _ KP G).
    + carryk KP. othr.
    + split; [rewrite (keep_ext _ _ _ _ _ KP); ext_|]. intros i lm k Hi Hl Hk. rewrite VA, (proj2 HA), Sc by auto. unfold gA1, odivs, divs. rewrite <- (kk ki_sc1), Es. reflexivity.
    + apply has1_F; [rewrite (keep_ext _ _ _ _ _ KP); ext_|]. intros q a Hq Ha. rewrite VF, (F_has1 _ _ _ _ HF) by auto. unfold gF1, ofsc, fsc. rewrite <- (kk ki_sc1), Es.
      change (@nadd RNum) with Rplus. f_equal. unfold rscl_f. rewrite (proj2 Hd) by auto. rewrite Sc by (apply ow_lt; auto). unfold dA1. cbn [nmul ndiv RNum]. do 4 f_equal.
      rewrite <- eq_dot. rewrite <- kLm', <- !(kk ki_K). unfold kdot. apply rsum_ext. intros p Hp.
      assert (Hd' : (p / K < L /\ p mod K < K)%nat) by (split; [apply Nat.div_lt_upper_bound; [lia|rewrite Nat.mul_comm; auto]|apply Nat.mod_upper_bound; lia]).
      rewrite (proj2 HA), (proj2 HP) by (try apply Hd'; apply ow_lt; auto). reflexivity.
    + split; [exact VR|]. rewrite (proj1 KP). reflexivity.
  - apply HQ; auto; [apply oth_refl| |].
    + eapply has3_eq; [|exact HA]. intros. unfold gA1, odivs. rewrite <- (kk ki_sc1), Es. reflexivity.
    + eapply has1_eq; [|exact HF]. intros. unfold eflat, gF1, ofsc. rewrite <- (kk ki_sc1), Es. reflexivity.
Qed.

Definition t_rA1 (x : buf) : bool := match x with bScr | bdP1 => true | _ => false end.
Lemma st_rA1 l m (Q : rmem -> Prop) : good km m -> has3 m bA1a n L K qA1' ->
  (forall m', good km m' -> oth t_rA1 m m' -> has3 m' bdP1 n NE K (rA1f (N:=RNum) mm qA1') -> hok l m' Q) ->
  hok (kk_reverse_A1 km n ++ l) m Q.
Proof.
  intros G HA HQ. unfold kk_reverse_A1. cbn [app]. destruct (kk ki_A1d) as (dl & dm & de & HD).
  apply (hok_grow km bdP1 n); auto. intros m1 G1 U1 X1. carry U1.
  eapply hok_k; [apply (k_rA1 km s (moff mm) (mult mm) (kk ki_A1in) dl dm de HD m1); cv km G1|]. cbn beta. intros m2 KP V.
  apply HQ.
  - apply (good_keep km _ _ _ KP G1).
  - carryk KP. othr.
  - split; [rewrite (keep_ext _ _ _ _ _ KP); ext_|]. intros i x k Hi Hx Hk. rewrite (kk ki_NE) in Hx. destruct (row_ex mm W x Hx) as (l0 & mu & e & Hl & Hm & He & ->).
    assert (Hl' : (l0 < k_l_max km + 1)%nat) by (rewrite (kk ki_l); lia).
    change (moff mm l0 + mu * mult mm l0 + e)%nat with (row (moff mm) (mult mm) l0 mu e) at 1. rewrite V by auto.
    rewrite eq_A1T by (auto; rewrite <- (kk ki_K); auto). unfold kra1. rewrite <- !(kk ki_K). apply rsum_ext. intros q Hq.
    rewrite (kk ki_A1w), <- (kk ki_K) by (auto; apply idx_lt; auto). f_equal. apply (proj2 HA); auto. unfold k_num_lm. nia.
Qed.

Definition t_rP1 (x : buf) : bool := match x with bScr | bdP1r | bF | bH1a => true | _ => false end.
Lemma st_rP1 nn ni xyz r l m (Q : rmem -> Prop) :
  psim (kk_reverse_Phi1r_kernel km n (f_num_neigh s) (f_neigh_indices s) (f_xyz s) (f_r s)) (kk_reverse_Phi1r_kernel km n nn ni xyz r) -> (length xyz <= extent m bF 0)%nat -> good km m -> has3 m bdP1 n NE K (rA1f (N:=RNum) mm qA1') -> has1 m bF (3 * nE) (eflat s 3 qF1') -> has3 m bH1a nH M K qH1a' ->
  has1 m bY (nE * L) vY -> has1 m bYg (3 * nE * L) vYg -> has2 m bR1 nE C1 vR1 -> has2 m bR1d nE C1 vR1d -> has3 m bH1 nH M K Hf ->
  (n <= extent m bP1r 0)%nat -> (extent m bH1 0 <= extent m bH1a 0)%nat ->
  (forall m', good km m' -> oth t_rP1 m m' -> has1 m' bF (3 * nE) (eflat s 3 qF2') -> has3 m' bH1a nH M K qH1' ->
     (forall x, (3 * nE <= x)%nat -> va m' (bF, [x]) = va m (bF, [x])) /\ dims m' bF = dims m bF -> hok l m' Q) ->
  hok (kk_reverse_Phi1 km n nn ni xyz r false false ++ l) m Q.
Proof.
  intros PS XX G HdP HF HHa HY HYg HR HRd HH XP XH HQ. unfold kk_reverse_Phi1. cbn [app].
  apply (hok_grow_like km bdP1r bP1r); auto. intros m1 G1 U1 X1. assert (X : (n <= extent m1 bdP1r 0)%nat) by lia. clear X1 XP.
  rewrite <- (st_ext _ _ bH1 0 (U1 bH1 eq_refl)) in XH. rewrite <- (st_ext _ _ bH1a 0 (U1 bH1a eq_refl)) in XH. carry U1.
  apply hok_resize_id; [ext_|]. apply hok_resize_id; [exact XH|]. clear XH.
  apply (hok_zero km); auto. intros m2 G2 U2 D2 V2. carryd D2. carry U2.
  eapply hok_k; [apply (k_rP1 km s nH (kk ki_P) m2); cv km G2|]. cbn beta. intros m3 KP V.
  assert (HP : has3 m3 bdP1r n C K qP1r').
  { split; [rewrite (keep_ext _ _ _ _ _ KP); ext_|]. intros i x k Hi Hx Hk. rewrite V, V2, Rplus_0_l by auto. unfold gP1r. rewrite <- eq_P1T.
    destruct (kk ki_cg) as (E1' & E2 & E3). unfold scat. rewrite <- E1'. apply rsum_ext. intros p Hp.
    assert (E4 : cge km p = cgl mm p) by (unfold cge, cgl; rewrite E2; reflexivity). assert (E5 : cgc km p = cgr mm p) by (unfold cgc, cgr; rewrite E3; reflexivity).
    destruct (pi_p _ _ _ (kk ki_P) p Hp) as (_ & _ & B & _). rewrite (proj2 HdP) by auto.
    rewrite E4, E5. unfold cgw, cgC, at_. rewrite E1', RNum_zero. reflexivity. }
  clear V V2. carryk KP. pose proof (good_keep km _ _ _ KP G2) as G3.
  eapply hok_k; [eapply wp_sim; [exact PS|]; apply (k_rP1r' km s nH m3 (kk ki_P)); rewrite ?(kk ki_R1n); cv km G3|]. cbn beta. intros m4 KP4 (VF & VH & VR).
  pose proof (kL_pos km) as HL0.
  assert (IY : forall q lm, (q < nE)%nat -> (lm < L)%nat -> va m3 (bY, [(q * L + lm)%nat]) = Yv (N:=RNum) sph mm (ow s q) (eg s q) lm).
  { intros q lm Hq Hl. rewrite (proj2 HY) by (apply idx_lt; auto). apply eflat_at; auto. }
  assert (IYg : forall q a lm, (q < nE)%nat -> (a < 3)%nat -> (lm < L)%nat -> va m3 (bYg, [((3 * q + a) * L + lm)%nat]) = Yg (N:=RNum) sph mm (ow s q) (eg s q) (a * num_lm mm + lm)).
  { intros q a lm Hq Ha Hl. rewrite <- kLm'. rewrite (proj2 HYg) by nia. apply eflat_eq; nia. }
  apply HQ.
  - apply (good_keep km _ _ _ KP4 G3).
  - carryk KP4. othr.
  - apply has1_F; [rewrite (keep_ext _ _ _ _ _ KP4); ext_|]. intros q a Hq Ha. rewrite VF, (F_has1 _ _ _ _ HF) by auto. unfold gF2. rewrite <- eq_F1. f_equal.
    unfold rp1_f. rewrite <- (kk ki_C). apply rsum_ext. intros c Hc. unfold rp1_g.
    destruct (pi_c _ _ _ (kk ki_P) c Hc) as (_ & _ & _ & B1 & B2 & B3). destruct ((kk ki_Pc) c Hc) as (B4 & B5 & B6).
    pose proof (pi_q _ _ _ (kk ki_P) q Hq) as Bq. pose proof (ow_lt s q Hq) as Bo.
    rewrite IY, IYg by auto. rewrite <- B4, <- B5, <- B6, <- (kk ki_K).
    assert (T1 : rp1_t1 km s m3 q c = rsum K (fun k => R1d (N:=RNum) mm s (ow s q) (eg s q) (lel km c * K + k)%nat * Hf (e_idx (eg s q)) (lm2 km c) k * qP1r' (ow s q) c k)).
    { unfold rp1_t1. apply rsum_ext. intros k Hk. specialize (B3 k Hk). rewrite (kk ki_R1n) in B3. rewrite (proj2 HRd), (proj2 HH), (proj2 HP) by auto. reflexivity. }
    assert (T2 : rp1_t2 km s m3 q c = rsum K (fun k => R1v (N:=RNum) mm s (ow s q) (eg s q) (lel km c * K + k)%nat * Hf (e_idx (eg s q)) (lm2 km c) k * qP1r' (ow s q) c k)).
    { unfold rp1_t2. apply rsum_ext. intros k Hk. specialize (B3 k Hk). rewrite (kk ki_R1n) in B3. rewrite (proj2 HR), (proj2 HH), (proj2 HP) by auto. reflexivity. }
    rewrite T1, T2. reflexivity.
  - split; [rewrite (keep_ext _ _ _ _ _ KP4); ext_|]. intros jj LM k Hj HL Hk. rewrite VH, (proj2 HHa) by auto.
    unfold gH1l. rewrite <- (eq_hadd mm W s nH); auto; [|intros i e Hi He; idtac|rewrite <- kLM'; auto|rewrite <- (kk ki_K); auto].
    + f_equal. apply rsum_ext. intros i Hi. unfold rp1_add. apply rsum_ext. intros j Hj'. pose proof (q_lt s i j Hi Hj') as Hq.
      rewrite rp1_at by auto. rewrite <- (kk ki_C). apply rsum_ext. intros c Hc. destruct ((kk ki_Pc) c Hc) as (B4 & B5 & B6). rewrite B5.
      destruct (_ =? _)%nat; auto. destruct (_ =? _)%nat; auto. unfold khp.
      destruct (pi_c _ _ _ (kk ki_P) c Hc) as (_ & _ & _ & B1 & B2 & B3). specialize (B3 k Hk). rewrite (kk ki_R1n) in B3.
      rewrite (proj2 HR), (proj2 HP), IY by (auto; apply ow_lt; auto). rewrite B4, B6, <- (kk ki_K). reflexivity.
    + apply In_nth with (d := dE) in He. destruct He as (j & Hj2 & <-). rewrite <- eg_at by auto. apply (pi_q _ _ _ (kk ki_P)). apply q_lt; auto.
  - split; [|rewrite (proj1 KP4), (st_dims _ _ _ (oth_keep _ _ _ KP bF eq_refl)), (st_dims _ _ _ (U2 bF eq_refl)), (st_dims _ _ _ (U1 bF eq_refl)); reflexivity].
    intros x Hx. rewrite VR by auto. rewrite (st_va _ _ _ _ (oth_keep _ _ _ KP bF eq_refl)), (st_va _ _ _ _ (U2 bF eq_refl)), (st_va _ _ _ _ (U1 bF eq_refl)). reflexivity.
Qed.

Definition t_rH1 (x : buf) : bool := match x with bScr | bM0a => true | _ => false end.
Lemma st_rH1 l m (Q : rmem -> Prop) : good km m -> has3 m bH1a n M K Had -> (n <= extent m bM0 0)%nat ->
  (forall m', good km m' -> oth t_rH1 m m' -> has3 m' bM0a n M K qM0' -> hok l m' Q) ->
  hok (kk_reverse_H1 km n ++ l) m Q.
Proof.
  intros G HH XM HQ. unfold kk_reverse_H1. cbn [app].
  apply (hok_grow_like km bM0a bM0); auto. intros m1 G1 U1 X1. assert (X : (n <= extent m1 bM0a 0)%nat) by lia. clear X1 XM. carry U1.
  eapply hok_k; [apply (k_rH1 km s (kk ki_H1) m1); cv km G1|]. cbn beta. intros m2 KP V.
  apply HQ.
  - apply (good_keep km _ _ _ KP G1).
  - carryk KP. othr.
  - split; [rewrite (keep_ext _ _ _ _ _ KP); ext_|]. intros i lm k Hi Hl Hk. rewrite V by auto. unfold rrM0. rewrite <- eq_H1T. rewrite <- (kk ki_K). apply rsum_ext. intros q Hq.
    rewrite (proj2 HH) by auto. f_equal. rewrite (kk ki_H1v); auto; [rewrite !(kk ki_K); reflexivity|]. apply sqrt_lt. exact Hl.
Qed.

Definition t_rM0 (x : buf) : bool := match x with bScr | bA0a | bM0j _ => true | _ => false end.
Lemma st_rM0 l m (Q : rmem -> Prop) : good km m -> has3 m bM0a n M K qM0' -> hasV km n m (vM0 sph km mm P0 s) -> (n <= extent m bA0 0)%nat ->
  (forall m', good km m' -> oth t_rM0 m m' -> has3 m' bA0a n L K qA0r' -> hok l m' Q) ->
  hok (kk_reverse_M0 junk km n (f_node_types s) ++ l) m Q.
Proof.
  intros G HM HV XA HQ. unfold kk_reverse_M0. rewrite <- !app_assoc. cbn [app].
  apply (hok_realloc_like bA0a bA0); auto. intros m1 G1 U1 X1. carry U1.
  apply (hok_zero km); auto. intros m2 G2 U2 D2 V2. carryd D2. carry U2.
  apply (hok_growV junk km n bM0j); auto; [intros a b; congruence|]. intros m3 G3 U3 X3.
  assert (U3' : oth (fun b => match b with bM0j _ => true | _ => false end) m2 m3).
  { eapply oth_sub; [|exact U3]. intros b Hb. apply not_true_is_false. intros E. apply existsb_exists in E as (y & Hy & E).
    unfold one in E. destruct (buf_dec (bM0j y) b) as [<-|]; discriminate. }
  clear U3. rename U3' into U3. carry U3.
  eapply hok_k; [apply (k_rM0 km s P0'' (kk ki_M0) m3); [cv km G3|cv km G3| |]|].
  { intros LM HL. rewrite <- (cx_kE km mm P0 P1 fe fg H w0 w1 V0 V1 s nH KI) by auto. apply (cov_of km m3 (bM0v LM) n G3 eq_refl). apply (HV LM HL). }
  { intros LM HL. rewrite <- (cx_kE km mm P0 P1 fe fg H w0 w1 V0 V1 s nH KI) by auto. apply (cov_of km m3 (bM0j LM) n G3 eq_refl). apply X3. apply in_seq. lia. }
  cbn beta. intros m4 KP V.
  apply HQ.
  - apply (good_keep km _ _ _ KP G3).
  - carryk KP. othr.
  - split; [rewrite (keep_ext _ _ _ _ _ KP); ext_|]. intros i lm k Hi Hl Hk. rewrite V, (st_va _ _ _ _ (U3 bA0a eq_refl)), V2, Rplus_0_l by auto.
    unfold rrA0r. rewrite <- eq_rm0. rewrite <- kLM'. apply rsum_ext. intros LM HLM. rewrite (proj2 HM) by auto. f_equal.
    unfold g0, at_. rewrite RNum_zero. destruct ((kk ki_M0) LM HLM) as (_ & v & _ & _ & HI). destruct (HI i k Hi Hk) as (Wp & HL & HE & _).
    unfold pgrad. rewrite HL, HE. rewrite nth_firstn_lt by auto.
    assert (EL : length (vlist (P0'' (ty s i) LM k) (xcol (N:=RNum) mm pA0' i k) (length (kE km LM))) = (L + length (kE km LM))%nat) by (rewrite length_vlist; f_equal; unfold xcol; rewrite length_tab, <- kLm'; reflexivity).
    assert (EV : kV0 km m3 i LM k = vlist (P0'' (ty s i) LM k) (xcol (N:=RNum) mm pA0' i k) (length (kE km LM))).
    { apply (list_eq_nth _ _ 0); [unfold kV0; rewrite length_tab; symmetry; exact EL|]. intros q Hq. unfold kV0 in *. rewrite length_tab in Hq. rewrite nth_tab by auto. rewrite (proj2 (HV LM HLM)) by auto. reflexivity. }
    unfold kb0. rewrite EV. reflexivity.
Qed.

Definition t_rsA0 (x : buf) : bool := match x with bScr | bA0a | bF => true | _ => false end.
Lemma st_rsA0 l m (Q : rmem -> Prop) : good km m -> has3 m bA0a n L K qA0r' -> has3 m bA0 n L K pA0' -> has1 m bF (3 * nE) (eflat s 3 Fd) ->
  (k_A0_scaled km = true -> has2 m bA0v nE 1 (vA0 mm s) /\ has2 m bA0d nE 1 (dA0 mm s)) ->
  (forall m', good km m' -> oth t_rsA0 m m' -> has3 m' bA0a n L K qA0' -> has1 m' bF (3 * nE) (eflat s 3 qF3') -> hok l m' Q) ->
  hok (kk_reverse_A0_scaled km n (f_num_neigh s) (f_xyz s) (f_r s) ++ l) m Q.
Proof.
  intros G HA HP HF HS HQ. unfold kk_reverse_A0_scaled. destruct (k_A0_scaled km) eqn:Es; cbn [app].
  - destruct (HS eq_refl) as [Hv Hd].
    eapply hok_k; [apply (k_rscale_A0 km s m); cv km G|]. cbn beta. intros m1 KP (VA & VF).
    assert (Sc : forall i, (i < n)%nat -> kscale s bA0v m i = sc0 (N:=RNum) mm s i).
    { intros i Hi. unfold kscale, sc0. rewrite <- (eq_sc s (fun i e => csv (N:=RNum) (spl0 mm (ty s i) (e_type e)) (e_r e))) by auto. f_equal. apply rsum_ext. intros j Hj.
      rewrite (proj2 Hv) by (auto; apply q_lt; auto). reflexivity. }
    apply HQ.
    + apply (good_keep km _ _ _ KP G).
    + carryk KP. othr.
    + split; [rewrite (keep_ext _ _ _ _ _ KP); ext_|]. intros i lm k Hi Hl Hk. rewrite VA, (proj2 HA), Sc by auto. unfold rrA0, odivs, divs. rewrite <- (kk ki_sc0), Es. reflexivity.
    + apply has1_F; [rewrite (keep_ext _ _ _ _ _ KP); ext_|]. intros q a Hq Ha. rewrite VF, (F_has1 _ _ _ _ HF) by auto. unfold rrF3, ofsc, fsc. rewrite <- (kk ki_sc0), Es.
      change (@nadd RNum) with Rplus. f_equal. unfold rscl_f. rewrite (proj2 Hd) by auto. rewrite Sc by (apply ow_lt; auto). unfold dA0. cbn [nmul ndiv RNum]. do 4 f_equal.
      rewrite <- eq_dot. rewrite <- kLm', <- !(kk ki_K). unfold kdot. apply rsum_ext. intros p Hp.
      assert (Hd' : (p / K < L /\ p mod K < K)%nat) by (split; [apply Nat.div_lt_upper_bound; [lia|rewrite Nat.mul_comm; auto]|apply Nat.mod_upper_bound; lia]).
      rewrite (proj2 HA), (proj2 HP) by (try apply Hd'; apply ow_lt; auto). reflexivity.
  - apply HQ; auto; [apply oth_refl| |].
    + eapply has3_eq; [|exact HA]. intros. unfold rrA0, odivs. rewrite <- (kk ki_sc0), Es. reflexivity.
    + eapply has1_eq; [|exact HF]. intros. unfold eflat, rrF3, ofsc. rewrite <- (kk ki_sc0), Es. reflexivity.
Qed.

Definition t_rA0 (x : buf) : bool := match x with bScr | bF => true | _ => false end.
Lemma st_rA0 l m (Q : rmem -> Prop) : good km m -> has3 m bA0a n L K qA0' -> has1 m bF (3 * nE) (eflat s 3 qF3') ->
  has1 m bY (nE * L) vY -> has1 m bYg (3 * nE * L) vYg -> has2 m bR0 nE C0 vR0 -> has2 m bR0d nE C0 vR0d ->
  (forall m', good km m' -> oth t_rA0 m m' -> has1 m' bF (3 * nE) (eflat s 3 pF') -> hok l m' Q) ->
  hok (kk_reverse_A0 km n (f_num_neigh s) (f_xyz s) (f_r s) ++ l) m Q.
Proof.
  intros G HA HF HY HYg HR HRd HQ. unfold kk_reverse_A0. cbn [app].
  eapply hok_k; [apply (k_rA0 km s m); cv km G|]. cbn beta. intros m4 KP4 VF.
  pose proof (kL_pos km) as HL0.
  assert (IY : forall q lm, (q < nE)%nat -> (lm < L)%nat -> va m (bY, [(q * L + lm)%nat]) = Yv (N:=RNum) sph mm (ow s q) (eg s q) lm).
  { intros q lm Hq Hl. rewrite (proj2 HY) by (apply idx_lt; auto). apply eflat_at; auto. }
  assert (IYg : forall q a lm, (q < nE)%nat -> (a < 3)%nat -> (lm < L)%nat -> va m (bYg, [(3 * q * L + (a * L + lm))%nat]) = Yg (N:=RNum) sph mm (ow s q) (eg s q) (a * num_lm mm + lm)).
  { intros q a lm Hq Ha Hl. rewrite <- kLm'. rewrite (proj2 HYg) by nia. apply eflat_eq; nia. }
  apply HQ.
  - apply (good_keep km _ _ _ KP4 G).
  - carryk KP4. othr.
  - apply has1_F; [rewrite (keep_ext _ _ _ _ _ KP4); ext_|]. intros q a Hq Ha. rewrite VF, (F_has1 _ _ _ _ HF) by auto. unfold rrF. rewrite <- eq_F0. f_equal.
    unfold ra0_f. rewrite <- kLm'. apply rsum_ext. intros lm Hl. pose proof (ow_lt s q Hq) as Bo.
    rewrite IY, IYg by auto. rewrite <- !(kk ki_K), <- kLm'. 
    assert (T1 : ra0_t1 km s m q lm = rsum K (fun k => vR0d q (Nat.sqrt lm * K + k)%nat * qA0' (ow s q) lm k)).
    { unfold ra0_t1. apply rsum_ext. intros k Hk. rewrite (proj2 HRd), (proj2 HA) by (auto; apply lk0; auto). reflexivity. }
    assert (T2 : ra0_t2 km s m q lm = rsum K (fun k => vR0 q (Nat.sqrt lm * K + k)%nat * qA0' (ow s q) lm k)).
    { unfold ra0_t2. apply rsum_ext. intros k Hk. rewrite (proj2 HR), (proj2 HA) by (auto; apply lk0; auto). reflexivity. }
    rewrite T1, T2. reflexivity.
Qed.
End St.
