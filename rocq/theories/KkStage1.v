(** The stages of the Kokkos evaluator, forward pass: what every view contains after the stage.  Used in proofs only. *)
From Coq Require Import List Arith ZArith Bool Lia Reals Lra FunctionalExtensionality.
From Verif Require Import Base BaseLemmas Segs BlasLemmas Instances RSums MpModel MpProofs ZblModel MaceModel Sys SysLoops MaceGrid
  MacePure MaceStages1 MaceStages4 MaceStages6 MacePipe.
From Verif Require Import KkSem KkSound KkWp KkWp2 KkModel KkHost KkTac KkK1 KkK2 KkK3 KkK4 KkK5 KkK6 KkK7 KkEq KkChain.
Import ListNotations.
Local Open Scope R_scope.

(** the loaded Kokkos object [km] holds the numbers of the CPU object [mm], and the system [s] is inside its tables *)
Record kin (km : kmace RNum) (mm : mace_model RNum) (P0 P1 : nat -> @mpoly RNum) (fe : list RNum -> RNum)
    (fg : list RNum -> nat -> RNum) (H : nat) (w0 w1 : nat -> nat -> R) (V0 V1 : view RNum) (s : sys RNum) (nH : nat) : Prop := {
  ki_K : k_num_channels km = m_num_channels mm;
  ki_Kp : (1 <= k_num_channels km)%nat;
  ki_l : k_l_max km = m_l_max mm;
  ki_L : k_L_max km = m_L_max mm;
  ki_C : k_num_lelm1lm2 km = length (paths mm);
  ki_NE : k_num_lme km = m_num_lme mm;
  ki_z : k_has_zbl km = m_has_zbl mm;
  ki_zbl : k_has_zbl km = true -> zbl_in km s (KkModel.k_zbl km)
    (fun q => zen (N:=RNum) mm (ty s (ow s q)) (e_type (eg s q)) (e_r (eg s q)))
    (fun q => zgr (N:=RNum) mm (ty s (ow s q)) (e_type (eg s q)) (e_r (eg s q)));
  ki_T : forall i, (i < length s)%nat -> (ty s i < length (k_atomic_numbers km))%nat;
  ki_R0 : R0_in km s;
  ki_R0v : forall q p, (q < length (epairs s))%nat -> (p < (k_l_max km + 1) * k_num_channels km)%nat ->
    k0val km s q p = kR mm s (R0v (N:=RNum) mm s) (ow s q) (eg s q) p /\ k0der km s q p = kR mm s (R0d (N:=RNum) mm s) (ow s q) (eg s q) p;
  ki_R1 : krad_in s (k_radial_1 km);
  ki_R1n : kr_num (k_radial_1 km) = (length (k_Phi1_l km) * k_num_channels km)%nat;
  ki_R1v : forall q p, (q < length (epairs s))%nat -> (p < kr_num (k_radial_1 km))%nat ->
    kval s (k_radial_1 km) q p = R1v (N:=RNum) mm s (ow s q) (eg s q) p /\ kder s (k_radial_1 km) q p = R1d (N:=RNum) mm s (ow s q) (eg s q) p;
  ki_sc0 : k_A0_scaled km = m_A0_scaled mm;
  ki_A0 : k_A0_scaled km = true -> krad_in s (k_A0_splines km) /\ kr_num (k_A0_splines km) = 1%nat /\
    forall q, (q < length (epairs s))%nat ->
      kval s (k_A0_splines km) q 0 = csv (N:=RNum) (spl0 mm (ty s (ow s q)) (e_type (eg s q))) (e_r (eg s q)) /\
      kder s (k_A0_splines km) q 0 = csd (N:=RNum) (spl0 mm (ty s (ow s q)) (e_type (eg s q))) (e_r (eg s q));
  ki_sc1 : k_A1_scaled km = m_A1_scaled mm;
  ki_A1 : k_A1_scaled km = true -> krad_in s (k_A1_splines km) /\ kr_num (k_A1_splines km) = 1%nat /\
    forall q, (q < length (epairs s))%nat ->
      kval s (k_A1_splines km) q 0 = csv (N:=RNum) (spl1 mm (ty s (ow s q)) (e_type (eg s q))) (e_r (eg s q)) /\
      kder s (k_A1_splines km) q 0 = csd (N:=RNum) (spl1 mm (ty s (ow s q)) (e_type (eg s q))) (e_r (eg s q));
  ki_M0 : M0_in km s (fun t LM k => P0 (t * num_LM mm * m_num_channels mm + (LM * m_num_channels mm + k))%nat);
  ki_M1 : M1_in km s (fun t k => P1 (t * m_num_channels mm + k)%nat);
  ki_H1 : H1_in km;
  ki_H1v : forall l a b, (l < k_L_max km + 1)%nat -> (a < k_num_channels km)%nat -> (b < k_num_channels km)%nat ->
    v_val (k_H1_weights km) [l; a; b] = WH1 (N:=RNum) mm (l * m_num_channels mm * m_num_channels mm + (a * m_num_channels mm + b));
  ki_P : Phi1_in km s nH;
  ki_Pc : forall c, (c < k_num_lelm1lm2 km)%nat -> lm1 km c = plm1 mm c /\ lm2 km c = plm2 mm c /\ lel km c = ple mm c;
  ki_cg : k_Phi1_clebsch_gordan km = m_Phi1_clebsch_gordan mm /\ k_Phi1_lme km = m_Phi1_lme mm /\ k_Phi1_lelm1lm2 km = m_Phi1_lelm1lm2 mm;
  ki_A1in : A1_in km (moff mm) (mult mm);
  ki_A1d : exists dl dm de, A1_dec km (moff mm) (mult mm) dl dm de;
  ki_A1w : forall l p k, (l < k_l_max km + 1)%nat -> (p < mult mm l * k_num_channels km)%nat -> (k < k_num_channels km)%nat ->
    v_val (nth l (k_A1_weights km) dview) [p; k] = W1 (N:=RNum) mm l (p * m_num_channels mm + k);
  ki_HH : HH_in km s;
  ki_HHv : forall i j, (i < length s)%nat -> (j < k_num_channels km * k_num_channels km)%nat ->
    v_val (k_H2_weights_for_H1 km) [ty s i; j] = WHH (N:=RNum) mm (ty s i) j;
  ki_HM : k_H2_weights_for_M1 km = m_H2_weights_for_M1 mm;
  ki_HMl : (k_num_channels km * k_num_channels km <= length (k_H2_weights_for_M1 km))%nat;
  ki_ro1 : k_readout_1_weights km = m_readout_1_weights mm;
  ki_ro1l : (k_num_channels km <= length (k_readout_1_weights km))%nat;
  ki_E0 : k_atomic_energies km = m_atomic_energies mm;
  ki_E0l : forall i, (i < length s)%nat -> (ty s i < length (k_atomic_energies km))%nat;
  ki_H : (1 <= H)%nat;
  ki_mlp : mlp_in (k_readout_2 km) (k_num_channels km) H w0 w1 V0 V1;
  ki_fe : forall x : nat -> R, fe (tab (m_num_channels mm) x) =
    rsum H (fun p => w1 0%nat p * kl_a (k_readout_2 km) (rsum (k_num_channels km) (fun q => w0 p q * x q)));
  ki_fg : forall (x : nat -> R) k, (k < k_num_channels km)%nat -> fg (tab (m_num_channels mm) x) k =
    rsum H (fun p => w0 p k * (let z := rsum (k_num_channels km) (fun q => w0 p q * x q) in let sg := 1 / (1 + exp (- z)) in
      w1 0%nat p * (kl_scale (k_readout_2 km) * sg + kl_scale (k_readout_2 km) * z * sg * (1 - sg))));
}.

Lemma hok_k p l m (Q : rmem -> Prop) outs (R : rmem -> Prop) : wp top p m (fun _ m' => keep outs m m' /\ R m') ->
  (forall m', keep outs m m' -> R m' -> hok l m' Q) -> hok (HRun p :: l) m Q.
Proof. intros H G. apply hok_run. eapply wp_conseq; [exact H|]. cbn beta. intros _ m' [A B]. auto. Qed.
Lemma keep_ext outs m m' b d : keep outs m m' -> extent m' b d = extent m b d.
Proof. intros [D _]. unfold extent. rewrite D. auto. Qed.
Lemma dims_ext (m m' : rmem) b d : dims m' = dims m -> extent m' b d = extent m b d.
Proof. intros D. unfold extent. rewrite D. auto. Qed.

(** ** further host commands *)
Definition dual (b : buf) : option buf := match b with bR0 => Some bR0d | bR1 => Some bR1d | bA0v => Some bA0d | bA1v => Some bA1d | _ => None end.
Definition two (b b' x : buf) : bool := one b x || one b' x.
Lemma good_pair km m b bd e : dual b = Some bd -> good km m ->
  good km (realloc bd (e :: shp km b) (realloc b (e :: shp km b) m)) /\ dims m bd = dims m b.
Proof.
  intros D [S1 S2 S3 S4 S5 S6 S7 S8]. split.
  2:{ destruct b; try discriminate D; injection D as <-; auto. }
  assert (SZ : szok km b (e :: shp km b) /\ szok km bd (e :: shp km b) /\ b <> bd).
  { destruct b; try discriminate D; injection D as <-; repeat split; try discriminate; right; eexists; reflexivity. }
  destruct SZ as (Z1 & Z2 & Z3).
  split.
  { intros b'. unfold realloc. rewrite !dims_set. destruct (buf_dec bd b') as [<-|N1]; auto. destruct (buf_dec b b') as [<-|N2]; auto. }
  all: destruct b; try discriminate D; injection D as <-; unfold realloc, extent in *;
    rewrite ?dims_set_eq; rewrite ?(dims_set_ne _ bR0d), ?(dims_set_ne _ bR0), ?(dims_set_ne _ bR1d), ?(dims_set_ne _ bR1),
      ?(dims_set_ne _ bA0d), ?(dims_set_ne _ bA0v), ?(dims_set_ne _ bA1d), ?(dims_set_ne _ bA1v) by discriminate; rewrite ?dims_set_eq; auto.
Qed.
Lemma good_F km m e : good km m -> good km (realloc bF [(3 * e)%nat] m).
Proof.
  intros [S1 S2 S3 S4 S5 S6 S7 S8]. split; unfold realloc, extent in *; rewrite ?dims_set_ne by discriminate; auto.
  - intros b'. rewrite dims_set. destruct (buf_dec bF b') as [<-|N1]; auto. right. eexists. reflexivity.
  - rewrite dims_set_eq. cbn [nth]. rewrite Nat.mul_comm. apply Nat.mod_mul. discriminate.
Qed.
Lemma hok_grow2 km (r : list RNum) b bd c nE l m Q : dual b = Some bd -> shp km b = [c] -> length r = nE -> good km m ->
  (forall m1, good km m1 -> oth (two b bd) m m1 -> (nE <= extent m1 b 0)%nat -> (nE <= extent m1 bd 0)%nat -> hok l m1 Q) -> hok (grow2 r b bd c :: l) m Q.
Proof.
  intros D S <- G HQ. destruct (good_pair km m b bd (length r) D G) as [G1 E]. rewrite S in G1.
  apply (hok_hop (fun m => if (extent m b 0 <? length r)%nat then realloc bd [length r; c] (realloc b [length r; c] m) else m)).
  destruct (Nat.ltb_spec (extent m b 0) (length r)) as [X|X].
  - assert (b <> bd) by (destruct b; try discriminate D; injection D as <-; discriminate).
    apply HQ; auto.
    + intros b' Hb'. unfold two in Hb'. apply orb_false_elim in Hb' as [A B]. unfold realloc.
      rewrite (oth_set _ bd _ _ b' B). apply (oth_set _ b _ _ b' A).
    + unfold extent, realloc. rewrite dims_set_ne, dims_set_eq by auto. cbn. auto.
    + unfold extent, realloc. rewrite dims_set_eq. cbn. auto.
  - apply HQ; auto; [apply oth_refl|]. unfold extent in *. rewrite E. auto.
Qed.

(** the values of the nodes of the polynomials of M0 *)
Definition hasV (km : kmace RNum) (nn : nat) (m : rmem) (F : nat -> nat -> nat -> nat -> R) : Prop :=
  forall LM, (LM < k_num_LM km)%nat -> has3 m (bM0v LM) nn (k_num_lm km + length (kE km LM)) (k_num_channels km) (F LM).
Lemma hasV_oth km nn t m m' F : oth t m m' -> (forall LM, t (bM0v LM) = false) -> hasV km nn m F -> hasV km nn m' F.
Proof. intros U E X LM HL. apply (has3_st m m'); auto. Qed.
Lemma hok_growV junk km nn (bb : nat -> buf) l ls m Q : good km m -> (forall LM, jnt (bb LM) = false /\ plain (bb LM) = true /\ shp km (bb LM) = shp km (bM0v LM)) ->
  (forall a b, bb a = bb b -> a = b) ->
  (forall m1, good km m1 -> oth (fun b => existsb (fun LM => one (bb LM) b) ls) m m1 -> (forall LM, In LM ls -> (nn <= extent m1 (bb LM) 0)%nat) -> hok l m1 Q) ->
  hok (map (fun LM => grow_uninit junk (bb LM) nn (M0_ext km nn LM)) ls ++ l) m Q.
Proof.
  intros G B Inj. revert m G. induction ls as [|x ls IH]; intros m G HQ; cbn [map app].
  - apply HQ; auto; [apply oth_refl|intros ? []].
  - destruct (B x) as (J & P & S). apply (hok_grow_u km junk (bb x) nn); auto; [rewrite S; reflexivity|]. intros m1 G1 U1 X1. apply IH; auto.
    intros m2 G2 U2 X2. apply HQ; auto.
    + intros b Hb. cbn [existsb] in Hb. apply orb_false_elim in Hb as [A C]. rewrite (U2 b C). apply (U1 b A).
    + intros LM [<-|HI]; auto. destruct (in_dec Nat.eq_dec x ls) as [I0|N0]; auto. rewrite (st_ext m1 m2); auto. apply U2.
      apply not_true_is_false. intros E. apply existsb_exists in E as (y & Hy & E). unfold one in E. destruct (buf_dec (bb y) (bb x)) as [E'|]; [|discriminate].
      apply Inj in E'. congruence.
Qed.

(** move the facts about [m] to [m1] *)
(** the entries of node_energies beyond the atoms *)
Definition tz (n : nat) (m : rmem) : Prop := forall i, (n <= i)%nat -> va m (bE, [i]) = 0.
Lemma tz_st n m m' : st m' bE = st m bE -> tz n m -> tz n m'.
Proof. intros E H i Hi. rewrite (st_va _ _ _ _ E). auto. Qed.
Lemma tz_va n m m' : (forall i, (n <= i)%nat -> va m' (bE, [i]) = va m (bE, [i])) -> tz n m -> tz n m'.
Proof. intros E H i Hi. rewrite E; auto. Qed.
(** the views of the pair style *)
Definition lvw (b : buf) : bool := match b with bLf | bLe | bLv | bLh | bLha => true | _ => false end.
Definition lsame (m m' : rmem) : Prop := forall b, lvw b = true -> st m' b = st m b.
Lemma lsame_oth t m0 m m1 : oth t m m1 -> (forall b, lvw b = true -> t b = false) -> lsame m0 m -> lsame m0 m1.
Proof. intros U E H b Hb. rewrite (U b (E b Hb)). auto. Qed.
Ltac lsb := let b := fresh in let E := fresh in intros b E; destruct b; try discriminate E; reflexivity.
Ltac carry U := match type of U with
  | oth _ ?m ?m1 => repeat match goal with
    | H : tz ?n m |- _ => apply (tz_st n m m1 (U bE eq_refl)) in H
    | H : has1 m ?b _ _ |- _ => apply (has1_st m m1 _ _ _ (U b eq_refl)) in H
    | H : has2 m ?b _ _ _ |- _ => apply (has2_st m m1 _ _ _ _ (U b eq_refl)) in H
    | H : has3 m ?b _ _ _ _ |- _ => apply (has3_st m m1 _ _ _ _ _ (U b eq_refl)) in H
    | H : hasV _ _ m _ |- _ => apply (hasV_oth _ _ _ m m1 _ U (fun _ => eq_refl)) in H
    | H : (_ <= extent m ?b 0)%nat |- _ => rewrite <- (st_ext m m1 b 0 (U b eq_refl)) in H
    end
  end.
Ltac carryk KP := match type of KP with keep _ ?m ?m1 =>
    repeat match goal with
    | H : (_ <= extent m ?b 0)%nat |- _ => rewrite <- (keep_ext _ m m1 b 0 KP) in H
    end; let U := fresh "U" in pose proof (oth_keep _ _ _ KP) as U; carry U end.
Ltac carryd D := match type of D with dims ?m1 = dims ?m =>
    repeat match goal with
    | H : (_ <= extent m ?b 0)%nat |- _ => rewrite <- (dims_ext m m1 b 0 D) in H
    end end.
Ltac ext_ := match goal with
  | H : (?A <= extent ?m ?b 0)%nat |- (?A <= extent ?m ?b 0)%nat => exact H
  | H : has1 ?m ?b ?A _ |- (?A <= extent ?m ?b 0)%nat => exact (proj1 H)
  | H : has2 ?m ?b ?A _ _ |- (?A <= extent ?m ?b 0)%nat => exact (proj1 H)
  | H : has3 ?m ?b ?A _ _ _ |- (?A <= extent ?m ?b 0)%nat => exact (proj1 H)
  end.
Ltac cv km G := match goal with |- cov ?m ?b (?A :: _) => refine (cov_of km m b A G eq_refl _); ext_ end.
Ltac othr := repeat match goal with
  | |- oth _ ?m ?m => apply oth_refl
  | U : oth _ ?m ?m1 |- oth _ _ ?m1 => refine (oth_trans _ _ m _ _ _); [clear U|refine (oth_sub _ _ m m1 _ U); let b := fresh in intros b; destruct b; try reflexivity; try discriminate]
  | U : keep _ ?m ?m1 |- oth _ _ ?m1 => apply oth_keep in U
  end; try (apply oth_refl).

Section St.
Variable sph : nat -> RNum -> RNum -> RNum -> list RNum * list RNum.
Variable junk : rmem -> cell -> R.
Variable km : kmace RNum.
Variable mm : mace_model RNum.
Variables (P0 P1 : nat -> @mpoly RNum).
Variable fe : list RNum -> RNum.
Variable fg : list RNum -> nat -> RNum.
Variable H : nat.
Variables (w0 w1 : nat -> nat -> R) (V0 V1 : view RNum).
Variable s : sys RNum.
Variable nH : nat.
Hypothesis KI : kin km mm P0 P1 fe fg H w0 w1 V0 V1 s nH.
Hypothesis W : mace_wf mm.
Notation n := (length s).
Notation nE := (length (epairs s)).
Notation K := (k_num_channels km).
Notation L := (k_num_lm km).
Notation M := (k_num_LM km).
Notation C := (k_num_lelm1lm2 km).
Notation NE := (k_num_lme km).
Notation C0 := ((k_l_max km + 1) * K)%nat.
Notation C1 := (length (k_Phi1_l km) * K)%nat.
Notation nb i := (length (es s i)).
Notation kk f := (f _ _ _ _ _ _ _ _ _ _ _ _ _ KI) (only parsing).

Lemma kLm : L = num_lm mm.
Proof. unfold k_num_lm, num_lm. rewrite (kk ki_l). reflexivity. Qed.
Lemma kLM : M = num_LM mm.
Proof. unfold k_num_LM, num_LM. rewrite (kk ki_L). reflexivity. Qed.
Lemma kL_pos : (0 < L)%nat. Proof. unfold k_num_lm. nia. Qed.

(** ** energies, forces and the ZBL term *)
Lemma st_init l m (Q : rmem -> Prop) : good km m ->
  (forall m', good km m' -> has1 m' bE n (zE (N:=RNum) mm s) -> has1 m' bF (3 * nE) (eflat s 3 (zF (N:=RNum) mm s)) ->
     dims m' bE = (if (extent m bE 0 <? n)%nat then [n] else dims m bE) -> tz n m' -> lsame m m' -> hok l m' Q) ->
  hok (([grow bE n [n]; grow bF (length (f_xyz s)) [length (f_xyz s)]; zero bE; zero bF]
    ++ (if k_has_zbl km then [HRun (kk_ZBL (KkModel.k_zbl km) n (f_node_types s) (f_num_neigh s) (f_neigh_types s) (k_atomic_numbers km) (f_r s) (f_xyz s))] else [])) ++ l) m Q.
Proof.
  intros G HQ. rewrite length_xyz, (Nat.mul_comm nE 3). cbn [app].
  apply hok_hop. match goal with |- hok _ ?x _ => set (m0 := x) end.
  assert (LS : lsame m m0).
  { unfold m0. destruct (extent m bE 0 <? n)%nat; [|intros b _; reflexivity]. apply (lsame_oth (one bE) m m); [apply oth_set|lsb|intros b _; reflexivity]. }
  assert (G0 : good km m0 /\ (n <= extent m0 bE 0)%nat /\ dims m0 bE = (if (extent m bE 0 <? n)%nat then [n] else dims m bE)).
  { unfold m0. destruct (Nat.ltb_spec (extent m bE 0) n) as [E|E].
    - split; [apply (good_set km m bE [n]); auto; right; eexists; reflexivity|]. unfold extent, realloc. rewrite dims_set_eq. cbn. auto.
    - auto. }
  destruct G0 as (G0 & X0 & D0).
  assert (exists m1, (if (extent m0 bF 0 <? 3 * nE)%nat then realloc bF [(3 * nE)%nat] m0 else m0) = m1 /\
    good km m1 /\ oth (one bF) m0 m1 /\ (3 * nE <= extent m1 bF 0)%nat) as (m1 & Em1 & G1 & U1 & X1).
  { destruct (Nat.ltb_spec (extent m0 bF 0) (3 * nE)) as [E|E]; eexists; (split; [reflexivity|]).
    - split; [apply good_F; auto|]. split; [apply oth_set|]. unfold extent, realloc. rewrite dims_set_eq. cbn. auto.
    - split; [exact G0|]. split; [apply oth_refl|exact E]. }
  apply (hok_hop (fun m => if (extent m bF 0 <? 3 * nE)%nat then realloc bF [(3 * nE)%nat] m else m)). rewrite Em1. clear Em1.
  carry U1. rewrite <- (st_dims _ _ _ (U1 bE eq_refl)) in D0. apply (lsame_oth _ _ _ _ U1 ltac:(lsb)) in LS. clear U1 m0 G0.
  apply (hok_zero km); auto. intros m2 G2 U2 D2 V2. carryd D2. rewrite <- D2 in D0.
  apply (hok_zero km); auto. intros m3 G3 U3 D3 V3. carryd D3. rewrite <- D3 in D0.
  apply (lsame_oth _ _ _ _ U2 ltac:(lsb)) in LS. apply (lsame_oth _ _ _ _ U3 ltac:(lsb)) in LS.
  assert (HE : has1 m3 bE n (fun _ => 0)).
  { split; [ext_|]. intros i Hi. rewrite (st_va _ _ _ _ (U3 bE eq_refl)). apply V2. }
  assert (HF : has1 m3 bF (3 * nE) (fun _ => 0)) by (split; [ext_|]; intros; apply V3).
  assert (HT : tz n m3) by (intros i Hi; rewrite (st_va _ _ _ _ (U3 bE eq_refl)); apply V2).
  clear U2 U3 D2 D3 V2 V3 G1 G2.
  destruct (k_has_zbl km) eqn:Hz; cbn [app].
  - eapply hok_k; [apply (KkK5.k_zbl km s (KkModel.k_zbl km) _ _ ((kk ki_zbl) Hz) (kk ki_T)); cv km G3|].
    cbn beta. intros m4 KP (VF & VE & VT). apply (tz_va n m3 m4 VT) in HT. pose proof (proj1 HE) as XE. pose proof (proj1 HF) as XF. carryk KP.
    pose proof Hz as Hz'. rewrite (kk ki_z) in Hz'.
    apply HQ.
    + apply (good_keep km _ _ _ KP); auto.
    + split; [ext_|]. intros i Hi. rewrite VE by auto. rewrite (proj2 HE) by auto. unfold zE. rewrite Hz'.
      rewrite (nfold_esq s i (fun i e => zen (N:=RNum) mm (ty s i) (e_type e) (e_r e))) by auto. rewrite RNum_zero. reflexivity.
    + split; [ext_|]. intros x Hx. assert (Ex : x = (3 * (x / 3) + x mod 3)%nat) by apply Nat.div_mod_eq.
      assert (Hq : (x / 3 < nE)%nat) by (apply Nat.div_lt_upper_bound; lia). assert (Ha : (x mod 3 < 3)%nat) by (apply Nat.mod_upper_bound; lia).
      rewrite Ex at 1. rewrite VF by auto. rewrite <- Ex, (proj2 HF) by auto. unfold eflat, zF. rewrite Hz'.
      rewrite RNum_zero. reflexivity.
    + rewrite <- D0. destruct KP as [D _]. rewrite D. reflexivity.
    + exact HT.
    + apply (lsame_oth _ _ _ _ (oth_keep _ _ _ KP) ltac:(lsb)) in LS. exact LS.
  - rewrite (kk ki_z) in Hz. apply HQ; auto.
    + eapply has1_eq; [|exact HE]. intros i Hi. unfold zE. rewrite Hz. symmetry. apply RNum_zero.
    + eapply has1_eq; [|exact HF]. intros x Hx. unfold eflat, zF. rewrite Hz. symmetry. apply RNum_zero.
Qed.

(** ** radial functions *)
Definition t_R0 (x : buf) : bool := match x with bScr | bR0 | bR0d => true | _ => false end.
Definition t_R1 (x : buf) : bool := match x with bScr | bR1 | bR1d => true | _ => false end.
Lemma st_R0 l m (Q : rmem -> Prop) : good km m ->
  (forall m', good km m' -> oth t_R0 m m' ->
     has2 m' bR0 nE C0 (fun q p => kR mm s (R0v (N:=RNum) mm s) (ow s q) (eg s q) p) ->
     has2 m' bR0d nE C0 (fun q p => kR mm s (R0d (N:=RNum) mm s) (ow s q) (eg s q) p) -> hok l m' Q) ->
  hok (kk_compute_R0 km n (f_node_types s) (f_num_neigh s) (f_neigh_types s) (f_r s) ++ l) m Q.
Proof.
  intros G HQ. unfold kk_compute_R0. cbn [app].
  apply (hok_grow2 km _ bR0 bR0d _ nE _ _ _ eq_refl eq_refl (length_r s) G). intros m1 G1 U1 X1 X2.
  eapply hok_k; [apply (k_R0 km s m1 (kk ki_R0)); cv km G1|]. cbn beta. intros m2 KP V.
  carryk KP. pose proof (good_keep km _ _ _ KP G1) as G2.
  apply HQ; auto.
  - othr.
  - split; [ext_|]. intros q p Hq Hp. rewrite (proj1 (V q p Hq Hp)). apply (kk ki_R0v); auto.
  - split; [ext_|]. intros q p Hq Hp. rewrite (proj2 (V q p Hq Hp)). apply (kk ki_R0v); auto.
Qed.
Lemma st_R1 l m (Q : rmem -> Prop) : good km m ->
  (forall m', good km m' -> oth t_R1 m m' ->
     has2 m' bR1 nE C1 (fun q p => R1v (N:=RNum) mm s (ow s q) (eg s q) p) ->
     has2 m' bR1d nE C1 (fun q p => R1d (N:=RNum) mm s (ow s q) (eg s q) p) -> hok l m' Q) ->
  hok (kk_compute_R1 km n (f_node_types s) (f_num_neigh s) (f_neigh_types s) (f_r s) ++ l) m Q.
Proof.
  intros G HQ. unfold kk_compute_R1. cbn [app].
  apply (hok_grow2 km _ bR1 bR1d _ nE _ _ _ eq_refl eq_refl (length_r s) G). intros m3 G3 U3 X1 X2. carry U3.
  eapply hok_k; [apply (k_R1 s (k_radial_1 km) m3 (kk ki_R1)); rewrite (kk ki_R1n); cv km G3|]. cbn beta. intros m4 KP4 V.
  carryk KP4. pose proof (good_keep km _ _ _ KP4 G3) as G4.
  apply HQ; auto.
  - othr.
  - split; [ext_|]. intros q p Hq Hp. rewrite <- (kk ki_R1n) in Hp. rewrite (proj1 (V q p Hq Hp)). apply (kk ki_R1v); auto.
  - split; [ext_|]. intros q p Hq Hp. rewrite <- (kk ki_R1n) in Hp. rewrite (proj2 (V q p Hq Hp)). apply (kk ki_R1v); auto.
Qed.
End St.
