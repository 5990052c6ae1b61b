(** The reverse pass of [MACE::compute_node_energies_forces] over the reals: along any differentiable motion of the edge
    vectors the derivative of the total energy is minus the sum of the edge forces times the edge velocities.
    Forward pass: tangents of every stage.  Reverse pass: transposition of every stage. *)
From Coq Require Import List Arith ZArith Lia Bool Reals Lra.
From Verif Require Import Base BaseLemmas Segs Instances BlasLemmas RSums RList GradSums SplineModel MpModel MpProofs MpR MlpModel ZblModel MaceModel
  Sys SysLoops MaceGrid MacePure MaceStages1 MaceStages4 MaceStages6 MaceStages7 MaceStages8 MacePipe MaceHsrc MaceInert.
Import ListNotations.
Local Open Scope R_scope.

Section Grad.
Variable sph : nat -> RNum -> RNum -> RNum -> list RNum * list RNum.
Variable m : mace_model RNum.
Hypothesis W : mace_wf m.
Variables (P0 P1 : nat -> @mpoly RNum).
Variable fe : list RNum -> RNum.
Variable fg : list RNum -> nat -> RNum.
Notation K := (m_num_channels m).
Notation lms := (num_lm m).
Notation LMs := (num_LM m).
Notation NPs := (length (paths m)).
Notation NL := (m_num_lme m).
Notation T := (length (m_atomic_numbers m)).
Notation lmax := (m_l_max m).
Notation nle := (length (m_Phi1_l m)).
Notation ncg := (length (m_Phi1_clebsch_gordan m)).

(** a moving system *)
Variable st : R -> sys RNum.
Variable n : nat.
Variable B : nat -> list nat.
Variable tp : nat -> nat.
Variable ed : R -> nat -> edge RNum.
Variables et ei : nat -> nat.
Hypothesis Hn : forall t, length (st t) = n.
Hypothesis Hty : forall t i, (i < n)%nat -> ty (st t) i = tp i.
Hypothesis Hes : forall t i, (i < n)%nat -> es (st t) i = map (ed t) (B i).
Hypothesis Het : forall t b, e_type (ed t b) = et b.
Hypothesis Hei : forall t b, e_idx (ed t b) = ei b.
Hypothesis Hix : forall i b, (i < n)%nat -> In b (B i) -> (ei b < n)%nat.
Hypothesis HtT : forall i, (i < n)%nat -> (tp i < T)%nat.

Variable t0 : R.
Variable v : nat -> nat -> R.
Definition vr b := (comp (ed t0 b) 0 * v b 0 + comp (ed t0 b) 1 * v b 1 + comp (ed t0 b) 2 * v b 2) / e_r (ed t0 b).

Definition r0 b : R := e_r (ed t0 b).
Definition S0 i b := set0 (N:=RNum) m (tp i) (et b).
Definition S1 i b := set1 (N:=RNum) m (tp i) (et b).
Definition D0 i b := spl0 (N:=RNum) m (tp i) (et b).
Definition D1 i b := spl1 (N:=RNum) m (tp i) (et b).
Definition Yt t b lm : R := Yv (N:=RNum) sph m 0 (ed t b) lm.
Definition dY b lm : R := rsum 3 (fun a => Yg (N:=RNum) sph m 0 (ed t0 b) (a * lms + lm) * v b a).

Hypothesis Hr : forall i b, (i < n)%nat -> In b (B i) -> derivable_pt_lim (fun t => e_r (ed t b)) t0 (vr b).
Hypothesis HS0 : forall i b p, (i < n)%nat -> In b (B i) -> (p < (lmax + 1) * K)%nat ->
  derivable_pt_lim (fun r => setv (N:=RNum) (S0 i b) r p) (r0 b) (setd (N:=RNum) (S0 i b) (r0 b) p).
Hypothesis HS1 : forall i b p, (i < n)%nat -> In b (B i) -> (p < nle * K)%nat ->
  derivable_pt_lim (fun r => setv (N:=RNum) (S1 i b) r p) (r0 b) (setd (N:=RNum) (S1 i b) (r0 b) p).
Hypothesis HD0 : m_A0_scaled m = true -> forall i b, (i < n)%nat -> In b (B i) ->
  derivable_pt_lim (fun r => csv (N:=RNum) (D0 i b) r) (r0 b) (csd (N:=RNum) (D0 i b) (r0 b)).
Hypothesis HD1 : m_A1_scaled m = true -> forall i b, (i < n)%nat -> In b (B i) ->
  derivable_pt_lim (fun r => csv (N:=RNum) (D1 i b) r) (r0 b) (csd (N:=RNum) (D1 i b) (r0 b)).
Hypothesis HZ : m_has_zbl m = true -> forall i b, (i < n)%nat -> In b (B i) ->
  derivable_pt_lim (fun r => zen (N:=RNum) m (tp i) (et b) r) (r0 b) (zgr (N:=RNum) m (tp i) (et b) (r0 b)).
Hypothesis HY : forall i b lm, (i < n)%nat -> In b (B i) -> (lm < lms)%nat -> derivable_pt_lim (fun t => Yt t b lm) t0 (dY b lm).
Hypothesis Hsc0 : m_A0_scaled m = true -> forall i, (i < n)%nat -> sc0 (N:=RNum) m (st t0) i <> 0.
Hypothesis Hsc1 : m_A1_scaled m = true -> forall i, (i < n)%nat -> sc1 (N:=RNum) m (st t0) i <> 0.
Hypothesis HP0 : forall q, (q < T * LMs * K)%nat -> mp_wf (P0 q) /\ mp_nvars (P0 q) = lms.
Hypothesis HP1 : forall q, (q < T * K)%nat -> mp_wf (P1 q) /\ mp_nvars (P1 q) = lms.
Hypothesis Hfe : forall (x : R -> list RNum) (dx : nat -> R), (forall t, length (x t) = K) ->
  (forall k, (k < K)%nat -> derivable_pt_lim (fun t => nth k (x t) 0) t0 (dx k)) ->
  derivable_pt_lim (fun t => fe (x t)) t0 (rsum K (fun k => fg (x t0) k * dx k)).

(** ** forward pass *)
Lemma dlim_scal_r f l c x : derivable_pt_lim f x l -> derivable_pt_lim (fun t => f t * c) x (l * c).
Proof. intros H. apply dlim_eq with (l := l * c + f x * 0); [ring|]. apply (dlim_mult f (fun _ => c)); [exact H|apply dlim_const]. Qed.

Lemma lmp lm k : (lm < lms)%nat -> (k < K)%nat -> (Nat.sqrt lm * K + k < (lmax + 1) * K)%nat.
Proof. intros H1 H2. pose proof (sqrt_lt lm (lmax + 1) H1). nia. Qed.
Lemma cp c k : (c < NPs)%nat -> (k < K)%nat -> (ple m c * K + k < nle * K)%nat.
Proof. intros H1 H2. pose proof (ple_lt m c H1). nia. Qed.

Definition dR0 i b p := setd (N:=RNum) (S0 i b) (r0 b) p * vr b.
Definition dR1 i b p := setd (N:=RNum) (S1 i b) (r0 b) p * vr b.
Definition R0t t i b p : R := setv (N:=RNum) (S0 i b) (e_r (ed t b)) p.
Definition R1t t i b p : R := setv (N:=RNum) (S1 i b) (e_r (ed t b)) p.
Definition H0w b k : R := at_ (N:=RNum) (m_H0_weights m) (et b * K + k).

Lemma R0_d i b p : (i < n)%nat -> In b (B i) -> (p < (lmax + 1) * K)%nat -> derivable_pt_lim (fun t => R0t t i b p) t0 (dR0 i b p).
Proof.
  intros Hi Hb Hp. unfold R0t, dR0.
  apply (dlim_comp (fun t => e_r (ed t b)) (fun r => setv (N:=RNum) (S0 i b) r p)); [apply (Hr i b Hi Hb)|apply (HS0 i b p Hi Hb Hp)].
Qed.
Lemma R1_d i b p : (i < n)%nat -> In b (B i) -> (p < nle * K)%nat -> derivable_pt_lim (fun t => R1t t i b p) t0 (dR1 i b p).
Proof.
  intros Hi Hb Hp. unfold R1t, dR1.
  apply (dlim_comp (fun t => e_r (ed t b)) (fun r => setv (N:=RNum) (S1 i b) r p)); [apply (Hr i b Hi Hb)|apply (HS1 i b p Hi Hb Hp)].
Qed.

Lemma R0v_e t i b p : (i < n)%nat -> R0v (N:=RNum) m (st t) i (ed t b) p = R0t t i b p.
Proof. intros Hi. unfold R0v. rewrite Hty, Het by auto. reflexivity. Qed.
Lemma R1v_e t i b p : (i < n)%nat -> R1v (N:=RNum) m (st t) i (ed t b) p = R1t t i b p.
Proof. intros Hi. unfold R1v. rewrite Hty, Het by auto. reflexivity. Qed.
Lemma R0d_e i b p : (i < n)%nat -> R0d (N:=RNum) m (st t0) i (ed t0 b) p = setd (N:=RNum) (S0 i b) (r0 b) p.
Proof. intros Hi. unfold R0d. rewrite Hty, Het by auto. reflexivity. Qed.
Lemma R1d_e i b p : (i < n)%nat -> R1d (N:=RNum) m (st t0) i (ed t0 b) p = setd (N:=RNum) (S1 i b) (r0 b) p.
Proof. intros Hi. unfold R1d. rewrite Hty, Het by auto. reflexivity. Qed.

(** A0 *)
Definition tphi0 i lm k : R := rl (B i) (fun b =>
  (dR0 i b (Nat.sqrt lm * K + k) * Yt t0 b lm + R0t t0 i b (Nat.sqrt lm * K + k) * dY b lm) * H0w b k).
Definition tA0raw i lm k : R := rsum K (fun q => tphi0 i lm q * W0 (N:=RNum) m (tp i) (Nat.sqrt lm) (q * K + k)).
Definition tsc0 i : R := rl (B i) (fun b => csd (N:=RNum) (D0 i b) (r0 b) * vr b).
Definition tsc1 i : R := rl (B i) (fun b => csd (N:=RNum) (D1 i b) (r0 b) * vr b).

Lemma phi0_e t i lm k : (i < n)%nat -> phi0 (N:=RNum) m (st t) (R0v m (st t)) (Yv sph m) i lm k =
  rl (B i) (fun b => R0t t i b (Nat.sqrt lm * K + k) * Yt t b lm * H0w b k).
Proof.
  intros Hi. unfold phi0. rewrite nfold_rl0, Hes, rl_map by auto. apply rl_ext. intros b _.
  rewrite R0v_e, Het by auto. reflexivity.
Qed.
Lemma phi0_d i lm k : (i < n)%nat -> (lm < lms)%nat -> (k < K)%nat ->
  derivable_pt_lim (fun t => phi0 (N:=RNum) m (st t) (R0v m (st t)) (Yv sph m) i lm k) t0 (tphi0 i lm k).
Proof.
  intros Hi Hlm Hk. apply dlim_ext with (f := fun t => rl (B i) (fun b => R0t t i b (Nat.sqrt lm * K + k) * Yt t b lm * H0w b k)).
  { intros t. symmetry. apply phi0_e. auto. }
  unfold tphi0. apply (dlim_rl (B i) (fun t b => R0t t i b (Nat.sqrt lm * K + k) * Yt t b lm * H0w b k)). intros b Hb.
  apply dlim_scal_r.
  apply dlim_mult; [apply R0_d; auto; apply lmp; auto|apply (HY i b lm Hi Hb Hlm)].
Qed.
Lemma A0raw_e t i lm k : (i < n)%nat -> mulW0 (N:=RNum) m (st t) (phi0 (N:=RNum) m (st t) (R0v m (st t)) (Yv sph m)) i lm k =
  rsum K (fun q => phi0 (N:=RNum) m (st t) (R0v m (st t)) (Yv sph m) i lm q * W0 (N:=RNum) m (tp i) (Nat.sqrt lm) (q * K + k)).
Proof. intros Hi. unfold mulW0. rewrite nsum_rsum, Hty by auto. reflexivity. Qed.
Lemma A0raw_d i lm k : (i < n)%nat -> (lm < lms)%nat ->
  derivable_pt_lim (fun t => mulW0 (N:=RNum) m (st t) (phi0 (N:=RNum) m (st t) (R0v m (st t)) (Yv sph m)) i lm k) t0 (tA0raw i lm k).
Proof.
  intros Hi Hlm. eapply dlim_ext; [intros t; symmetry; apply A0raw_e; auto|]. unfold tA0raw.
  apply (dlim_rsum K (fun t q => phi0 (N:=RNum) m (st t) (R0v m (st t)) (Yv sph m) i lm q * W0 (N:=RNum) m (tp i) (Nat.sqrt lm) (q * K + k))).
  intros q Hq. apply dlim_scal_r. apply phi0_d; auto.
Qed.
Lemma sc0_d i : m_A0_scaled m = true -> (i < n)%nat -> derivable_pt_lim (fun t => sc0 (N:=RNum) m (st t) i) t0 (tsc0 i).
Proof.
  intros E Hi. apply dlim_ext with (f := fun t => 1 + rl (B i) (fun b => csv (N:=RNum) (D0 i b) (e_r (ed t b)))).
  { intros t. unfold sc0. rewrite nfold_rl, Hes, rl_map by auto. rewrite RNum_one. f_equal. apply rl_ext. intros b _.
    rewrite Hty, Het by auto. reflexivity. }
  apply dlim_eq with (l := 0 + tsc0 i); [ring|]. apply dlim_plus; [apply dlim_const|].
  apply (dlim_rl (B i) (fun t b => csv (N:=RNum) (D0 i b) (e_r (ed t b)))). intros b Hb.
  apply (dlim_comp (fun t => e_r (ed t b)) (fun r => csv (N:=RNum) (D0 i b) r)); [apply (Hr i b Hi Hb)|apply (HD0 E i b Hi Hb)].
Qed.
Lemma sc1_d i : m_A1_scaled m = true -> (i < n)%nat -> derivable_pt_lim (fun t => sc1 (N:=RNum) m (st t) i) t0 (tsc1 i).
Proof.
  intros E Hi. apply dlim_ext with (f := fun t => 1 + rl (B i) (fun b => csv (N:=RNum) (D1 i b) (e_r (ed t b)))).
  { intros t. unfold sc1. rewrite nfold_rl, Hes, rl_map by auto. rewrite RNum_one. f_equal. apply rl_ext. intros b _.
    rewrite Hty, Het by auto. reflexivity. }
  apply dlim_eq with (l := 0 + tsc1 i); [ring|]. apply dlim_plus; [apply dlim_const|].
  apply (dlim_rl (B i) (fun t b => csv (N:=RNum) (D1 i b) (e_r (ed t b)))). intros b Hb.
  apply (dlim_comp (fun t => e_r (ed t b)) (fun r => csv (N:=RNum) (D1 i b) r)); [apply (Hr i b Hi Hb)|apply (HD1 E i b Hi Hb)].
Qed.

(** quotient by the density *)
Lemma odivs_d fl (sc : R -> nat -> RNum) (f : R -> nat -> nat -> nat -> RNum) tf tsc i lm k :
  derivable_pt_lim (fun t => f t i lm k) t0 tf ->
  (fl = true -> derivable_pt_lim (fun t => sc t i) t0 tsc /\ sc t0 i <> 0) ->
  derivable_pt_lim (fun t => odivs (N:=RNum) fl (sc t) (f t) i lm k) t0
    (if fl then (tf - odivs (N:=RNum) fl (sc t0) (f t0) i lm k * tsc) / sc t0 i else tf).
Proof.
  intros Hf Hs. unfold odivs, divs. destruct fl; [|exact Hf]. destruct (Hs eq_refl) as [Hs1 Hs2].
  cbn [ndiv RNum] in *. 
  apply dlim_eq with (l := (tf * sc t0 i - tsc * f t0 i lm k) / Rsqr (sc t0 i)).
  - unfold Rsqr. field. exact Hs2.
  - apply (derivable_pt_lim_div (fun t => f t i lm k) (fun t => sc t i)); auto.
Qed.

Definition tA0 i lm k : R := if m_A0_scaled m
  then (tA0raw i lm k - pA0 sph m (st t0) i lm k * tsc0 i) / sc0 (N:=RNum) m (st t0) i else tA0raw i lm k.
Lemma A0_d i lm k : (i < n)%nat -> (lm < lms)%nat -> derivable_pt_lim (fun t => pA0 sph m (st t) i lm k) t0 (tA0 i lm k).
Proof.
  intros Hi Hlm. unfold pA0, tA0.
  apply (odivs_d (m_A0_scaled m) (fun t => sc0 m (st t)) (fun t => mulW0 m (st t) (phi0 m (st t) (R0v m (st t)) (Yv sph m)))).
  - apply A0raw_d; auto.
  - intros E. split; [apply sc0_d; auto|apply Hsc0; auto].
Qed.

(** M0, H1 *)
Definition pi0 i L k := (tp i * LMs * K + (L * K + k))%nat.
Lemma pi0_lt i L k : (i < n)%nat -> (L < LMs)%nat -> (k < K)%nat -> (pi0 i L k < T * LMs * K)%nat.
Proof. intros Hi HL Hk. pose proof (HtT i Hi). unfold pi0. assert (L * K + k < LMs * K)%nat by nia. nia. Qed.
Definition tM0 i L k : R := rsum lms (fun lm => g0 (N:=RNum) m (st t0) P0 (pA0 sph m (st t0)) i L lm k * tA0 i lm k).
Lemma M0_d i L k : (i < n)%nat -> (L < LMs)%nat -> (k < K)%nat -> derivable_pt_lim (fun t => pM0 sph m P0 (st t) i L k) t0 (tM0 i L k).
Proof.
  intros Hi HL Hk. destruct (HP0 _ (pi0_lt i L k Hi HL Hk)) as [Wp Wn].
  apply dlim_ext with (f := fun t => pval (P0 (pi0 i L k)) (xcol (N:=RNum) m (pA0 sph m (st t)) i k)).
  { intros t. unfold pM0, m0. rewrite Hty by auto. reflexivity. }
  unfold tM0, g0. rewrite Hty by auto. fold (pi0 i L k).
  pose proof (pgrad_curve (P0 (pi0 i L k)) Wp (fun t => xcol (N:=RNum) m (pA0 sph m (st t)) i k) (fun lm => tA0 i lm k) t0) as G.
  rewrite Wn in G. apply G.
  - intros t. unfold xcol. apply length_tab.
  - intros q Hq. apply dlim_ext with (f := fun t => pA0 sph m (st t) i q k); [|apply A0_d; auto].
    intros t. unfold xcol. rewrite nth_tab by auto. reflexivity.
Qed.
Definition tH1 i L k : R := rsum K (fun q => tM0 i L q * WH1 (N:=RNum) m (Nat.sqrt L * K * K + (q * K + k))).
Lemma H1_d i L k : (i < n)%nat -> (L < LMs)%nat -> derivable_pt_lim (fun t => pH1 sph m P0 (st t) i L k) t0 (tH1 i L k).
Proof.
  intros Hi HL. apply dlim_ext with (f := fun t => rsum K (fun q => pM0 sph m P0 (st t) i L q * WH1 (N:=RNum) m (Nat.sqrt L * K * K + (q * K + k)))).
  { intros t. unfold pH1, mulH1. symmetry. apply nsum_rsum. }
  unfold tH1. apply (dlim_rsum K (fun t q => pM0 sph m P0 (st t) i L q * WH1 (N:=RNum) m (Nat.sqrt L * K * K + (q * K + k)))). intros q Hq.
  apply dlim_scal_r. apply M0_d; auto.
Qed.

(** Phi1 *)
Definition tP1r i c k : R := rl (B i) (fun b =>
  (dR1 i b (ple m c * K + k) * Yt t0 b (plm1 m c) + R1t t0 i b (ple m c * K + k) * dY b (plm1 m c)) * pH1 sph m P0 (st t0) (ei b) (plm2 m c) k
  + R1t t0 i b (ple m c * K + k) * Yt t0 b (plm1 m c) * tH1 (ei b) (plm2 m c) k).
Lemma P1r_d i c k : (i < n)%nat -> (c < NPs)%nat -> (k < K)%nat -> derivable_pt_lim (fun t => pP1r sph m P0 (st t) i c k) t0 (tP1r i c k).
Proof.
  intros Hi Hc Hk.
  apply dlim_ext with (f := fun t => rl (B i) (fun b => R1t t i b (ple m c * K + k) * Yt t b (plm1 m c) * pH1 sph m P0 (st t) (ei b) (plm2 m c) k)).
  { intros t. unfold pP1r, phi1r. rewrite nfold_rl0, Hes, rl_map by auto. apply rl_ext. intros b _. rewrite R1v_e, Hei by auto. reflexivity. }
  unfold tP1r.
  apply (dlim_rl (B i) (fun t b => R1t t i b (ple m c * K + k) * Yt t b (plm1 m c) * pH1 sph m P0 (st t) (ei b) (plm2 m c) k)).
  intros b Hb. apply (dlim_mult (fun t => R1t t i b (ple m c * K + k) * Yt t b (plm1 m c))).
  - apply dlim_mult; [apply R1_d; auto; apply cp; auto|]. apply (HY i b _ Hi Hb). apply (plm1_lt m W); auto.
  - apply H1_d; [apply (Hix i b Hi Hb)|apply (plm2_lt m W); auto].
Qed.
Definition tP1 i a k : R := rl (filter (fun p => cgl m p =? a)%nat (seq 0 ncg)) (fun p => cgC (N:=RNum) m p * tP1r i (cgr m p) k).
Lemma P1_d i a k : (i < n)%nat -> (k < K)%nat -> derivable_pt_lim (fun t => pP1 sph m P0 (st t) i a k) t0 (tP1 i a k).
Proof.
  intros Hi Hk.
  apply dlim_ext with (f := fun t => rl (filter (fun p => cgl m p =? a)%nat (seq 0 ncg)) (fun p => cgC (N:=RNum) m p * pP1r sph m P0 (st t) i (cgr m p) k)).
  { intros t. unfold pP1, phi1. rewrite nfold_rl0. reflexivity. }
  unfold tP1. apply (dlim_rl _ (fun t p => cgC (N:=RNum) m p * pP1r sph m P0 (st t) i (cgr m p) k)). intros p Hp.
  apply filter_In in Hp. destruct Hp as [Hp _]. apply in_seq in Hp.
  apply dlim_scal. apply P1r_d; auto. apply (cgr_lt m W). lia.
Qed.
(** A1 *)
Definition arow lm p := (moff m (Nat.sqrt lm) + (lm - Nat.sqrt lm * Nat.sqrt lm) * mult m (Nat.sqrt lm) + p / K)%nat.
Definition tA1raw i lm k : R := rsum (mult m (Nat.sqrt lm) * K) (fun p => tP1 i (arow lm p) (p mod K) * W1 (N:=RNum) m (Nat.sqrt lm) (p * K + k)).
Lemma A1raw_d i lm k : (i < n)%nat -> derivable_pt_lim (fun t => a1raw (N:=RNum) m (pP1 sph m P0 (st t)) i lm k) t0 (tA1raw i lm k).
Proof.
  intros Hi. apply dlim_ext with (f := fun t => rsum (mult m (Nat.sqrt lm) * K) (fun p => pP1 sph m P0 (st t) i (arow lm p) (p mod K) * W1 (N:=RNum) m (Nat.sqrt lm) (p * K + k))).
  { intros t. unfold a1raw. cbv zeta. symmetry. apply nsum_rsum. }
  unfold tA1raw. apply (dlim_rsum _ (fun t p => pP1 sph m P0 (st t) i (arow lm p) (p mod K) * W1 (N:=RNum) m (Nat.sqrt lm) (p * K + k))). intros p Hp.
  pose proof (mw_K _ W).
  pose proof (mw_K _ W). apply dlim_scal_r. apply P1_d; auto; apply Nat.mod_upper_bound; lia.
Qed.
Definition tA1 i lm k : R := if m_A1_scaled m
  then (tA1raw i lm k - pA1 sph m P0 (st t0) i lm k * tsc1 i) / sc1 (N:=RNum) m (st t0) i else tA1raw i lm k.
Lemma A1_d i lm k : (i < n)%nat -> derivable_pt_lim (fun t => pA1 sph m P0 (st t) i lm k) t0 (tA1 i lm k).
Proof.
  intros Hi. unfold pA1, tA1.
  apply (odivs_d (m_A1_scaled m) (fun t => sc1 m (st t)) (fun t => a1raw m (pP1 sph m P0 (st t)))).
  - apply A1raw_d; auto.
  - intros E. split; [apply sc1_d; auto|apply Hsc1; auto].
Qed.
Definition pi1 i k := (tp i * K + k)%nat.
Lemma pi1_lt i k : (i < n)%nat -> (k < K)%nat -> (pi1 i k < T * K)%nat.
Proof. intros Hi Hk. pose proof (HtT i Hi). unfold pi1. nia. Qed.
Definition tM1 i k : R := rsum lms (fun lm => g1 (N:=RNum) m (st t0) P1 (pA1 sph m P0 (st t0)) i lm k * tA1 i lm k).
Lemma M1_d i k : (i < n)%nat -> (k < K)%nat -> derivable_pt_lim (fun t => pM1 sph m P0 P1 (st t) i k) t0 (tM1 i k).
Proof.
  intros Hi Hk. destruct (HP1 _ (pi1_lt i k Hi Hk)) as [Wp Wn].
  apply dlim_ext with (f := fun t => pval (P1 (pi1 i k)) (xcol (N:=RNum) m (pA1 sph m P0 (st t)) i k)).
  { intros t. unfold pM1, m1. rewrite Hty by auto. reflexivity. }
  unfold tM1, g1. rewrite Hty by auto. fold (pi1 i k).
  pose proof (pgrad_curve (P1 (pi1 i k)) Wp (fun t => xcol (N:=RNum) m (pA1 sph m P0 (st t)) i k) (fun lm => tA1 i lm k) t0) as G.
  rewrite Wn in G. apply G.
  - intros t. unfold xcol. apply length_tab.
  - intros q Hq. apply dlim_ext with (f := fun t => pA1 sph m P0 (st t) i q k); [|apply A1_d; auto].
    intros t. unfold xcol. rewrite nth_tab by auto. reflexivity.
Qed.
Definition tH2 i k : R := rsum K (fun q => WHH (N:=RNum) m (tp i) (q * K + k) * tH1 i 0 q) + rsum K (fun q => WHM (N:=RNum) m (q * K + k) * tM1 i q).
Lemma LMs_pos : (0 < LMs)%nat.
Proof. unfold num_LM. nia. Qed.
Lemma H2_d i k : (i < n)%nat -> derivable_pt_lim (fun t => pH2 sph m P0 P1 (st t) i k) t0 (tH2 i k).
Proof.
  intros Hi. apply dlim_ext with (f := fun t => rsum K (fun q => WHH (N:=RNum) m (tp i) (q * K + k) * pH1 sph m P0 (st t) i 0 q) +
    rsum K (fun q => WHM (N:=RNum) m (q * K + k) * pM1 sph m P0 P1 (st t) i q)).
  { intros t. unfold pH2, h2. rewrite Hty by auto. symmetry. etransitivity; [apply f_equal2; apply nsum_rsum|]. reflexivity. }
  unfold tH2. apply dlim_plus.
  - apply (dlim_rsum K (fun t q => WHH (N:=RNum) m (tp i) (q * K + k) * pH1 sph m P0 (st t) i 0 q)). intros q Hq. apply dlim_scal.
    apply H1_d; auto. apply LMs_pos.
  - apply (dlim_rsum K (fun t q => WHM (N:=RNum) m (q * K + k) * pM1 sph m P0 P1 (st t) i q)). intros q Hq. apply dlim_scal. apply M1_d; auto.
Qed.
Definition tz i : R := if m_has_zbl m then rl (B i) (fun b => zgr (N:=RNum) m (tp i) (et b) (r0 b) * vr b) else 0.
Lemma zE_d i : (i < n)%nat -> derivable_pt_lim (fun t => zE (N:=RNum) m (st t) i) t0 (tz i).
Proof.
  intros Hi. unfold zE, tz. pose proof HZ as Z. destruct (m_has_zbl m); [specialize (Z eq_refl)|apply dlim_const].
  apply dlim_ext with (f := fun t => rl (B i) (fun b => zen (N:=RNum) m (tp i) (et b) (e_r (ed t b)))).
  { intros t. rewrite nfold_rl0, Hes, rl_map by auto. apply rl_ext. intros b _. rewrite Hty, Het by auto. reflexivity. }
  apply (dlim_rl (B i) (fun t b => zen (N:=RNum) m (tp i) (et b) (e_r (ed t b)))). intros b Hb.
  apply (dlim_comp (fun t => e_r (ed t b)) (fun r => zen (N:=RNum) m (tp i) (et b) r)); [apply (Hr i b Hi Hb)|apply (Z i b Hi Hb)].
Qed.
Definition r1w k : R := at_ (N:=RNum) (m_readout_1_weights m) k.
Definition tE i : R := tz i + rsum K (fun k => r1w k * tH1 i 0 k) + rsum K (fun k => qH2 sph m P0 P1 fg (st t0) i k * tH2 i k).
Lemma E_d i : (i < n)%nat -> derivable_pt_lim (fun t => pE sph m P0 P1 fe (st t) i) t0 (tE i).
Proof.
  intros Hi. apply dlim_ext with (f := fun t => zE (N:=RNum) m (st t) i + at_ (N:=RNum) (m_atomic_energies m) (tp i) +
     rsum K (fun k => r1w k * pH1 sph m P0 (st t) i 0 k) + fe (tab K (pH2 sph m P0 P1 (st t) i))).
  { intros t. unfold pE, en. rewrite nfold_rl, rl_seq, Hty by auto. reflexivity. }
  unfold tE. apply dlim_plus.
  - apply dlim_plus.
    + apply dlim_eq with (l := tz i + 0); [ring|]. apply dlim_plus; [apply zE_d; auto|apply dlim_const].
    + apply (dlim_rsum K (fun t k => r1w k * pH1 sph m P0 (st t) i 0 k)). intros k Hk. apply dlim_scal. apply H1_d; auto. apply LMs_pos.
  - apply (Hfe (fun t => tab K (pH2 sph m P0 P1 (st t) i)) (tH2 i)).
    + intros t. apply length_tab.
    + intros k Hk. apply dlim_ext with (f := fun t => pH2 sph m P0 P1 (st t) i k); [|apply H2_d; auto].
      intros t. rewrite nth_tab by auto. reflexivity.
Qed.

(** ** reverse pass *)
Notation s0 := (st t0).
Notation "'H2q'" := (qH2 sph m P0 P1 fg s0).
Notation "'H1aq'" := (qH1a sph m P0 P1 fg s0).
Notation "'M1q'" := (qM1 sph m P0 P1 fg s0).
Notation "'A1rq'" := (qA1r sph m P0 P1 fg s0).
Notation "'A1q'" := (qA1 sph m P0 P1 fg s0).
Notation "'P1rq'" := (qP1r sph m P0 P1 fg s0).
Notation "'H1q'" := (qH1 sph m P0 P1 fg s0).
Notation "'M0q'" := (qM0 sph m P0 P1 fg s0).
Notation "'A0rq'" := (qA0r sph m P0 P1 fg s0).
Notation "'A0q'" := (qA0 sph m P0 P1 fg s0).

Lemma H1aq_0 i k : (i < n)%nat -> H1aq i 0%nat k = r1w k + rsum K (fun q => WHH (N:=RNum) m (tp i) (k * K + q) * H2q i q).
Proof.
  intros Hi. unfold qH1a, rH2n, rH2h, ra1, r1w. rewrite Hn, (proj2 (Nat.ltb_lt _ _) Hi). cbn [Nat.eqb andb].
  rewrite Hty by auto. apply f_equal. apply nsum_rsum.
Qed.
Lemma H1aq_S i L k : (i < n)%nat -> L <> 0%nat -> H1aq i L k = 0.
Proof.
  intros Hi HL. unfold qH1a, rH2n, rH2h, ra1. rewrite Hn, (proj2 (Nat.ltb_lt _ _) Hi), (proj2 (Nat.eqb_neq _ _) HL). cbn [andb].
  apply RNum_zero.
Qed.
Lemma M1q_e i k : M1q i k = rsum K (fun q => WHM (N:=RNum) m (k * K + q) * H2q i q).
Proof. unfold qM1, rH2m. apply nsum_rsum. Qed.

Lemma step_a i : (i < n)%nat ->
  tE i = tz i + rsum LMs (fun L => rsum K (fun k => H1aq i L k * tH1 i L k)) + rsum K (fun k => M1q i k * tM1 i k).
Proof.
  intros Hi. unfold tE, tH2.
  rewrite (rsum_single LMs 0 _ LMs_pos).
  2:{ intros L _ HL. apply rsum_0. intros k _. rewrite H1aq_S by auto. ring. }
  rewrite (rsum_ext K (fun k => H1aq i 0%nat k * tH1 i 0 k)
     (fun k => r1w k * tH1 i 0 k + rsum K (fun q => WHH (N:=RNum) m (tp i) (k * K + q) * H2q i q) * tH1 i 0 k)).
  2:{ intros k _. rewrite H1aq_0 by auto. ring. }
  rewrite rsum_plus.
  rewrite (rsum_ext K (fun k => M1q i k * tM1 i k) (fun k => rsum K (fun q => WHM (N:=RNum) m (k * K + q) * H2q i q) * tM1 i k)).
  2:{ intros k _. rewrite M1q_e. reflexivity. }
  rewrite (rsum_ext K (fun k => H2q i k * _) (fun k => H2q i k * rsum K (fun q => WHH (N:=RNum) m (tp i) (q * K + k) * tH1 i 0 q)
     + H2q i k * rsum K (fun q => WHM (N:=RNum) m (q * K + k) * tM1 i q))) by (intros; ring).
  rewrite rsum_plus.
  rewrite (adj_vec K (H2q i) (tH1 i 0) (fun q k => WHH (N:=RNum) m (tp i) (q * K + k))).
  rewrite (adj_vec K (H2q i) (tM1 i) (fun q k => WHM (N:=RNum) m (q * K + k))). ring.
Qed.

Lemma step_b i : rsum K (fun k => M1q i k * tM1 i k) = rsum lms (fun lm => rsum K (fun k => A1rq i lm k * tA1 i lm k)).
Proof.
  unfold tM1. rewrite rsum_swap. apply rsum_ext. intros k _. rewrite <- rsum_scal_l. apply rsum_ext. intros lm _.
  unfold qA1r, rm1. cbn [nmul RNum]. ring.
Qed.

Lemma step_c fl (sc : RNum) (qr A traw : nat -> nat -> nat -> RNum) (tsc : R) i : (fl = true -> sc <> 0) ->
  rsum lms (fun lm => rsum K (fun k => qr i lm k * (if fl then (traw i lm k - A i lm k * tsc) / sc else traw i lm k))) =
  rsum lms (fun lm => rsum K (fun k => odivs (N:=RNum) fl (fun _ => sc) qr i lm k * traw i lm k))
  - (if fl then dotlk (N:=RNum) m qr A i / sc * tsc else 0).
Proof.
  intros Hs. destruct fl; cbn [odivs]; [|ring]. specialize (Hs eq_refl).
  assert (E : dotlk (N:=RNum) m qr A i = rsum lms (fun lm => rsum K (fun k => qr i lm k * A i lm k))).
  { unfold dotlk. etransitivity; [apply nsum_rsum|]. apply (rsum_div lms K (fun a k => qr i a k * A i a k)). apply (mw_K _ W). }
  rewrite E. unfold Rdiv. rewrite Rmult_assoc, <- rsum_scal_r, <- rsum_minus. apply rsum_ext. intros lm _.
  rewrite <- rsum_scal_r, <- rsum_minus. apply rsum_ext. intros k _. unfold divs. cbn [ndiv RNum]. field. exact Hs.
Qed.

Lemma rA1_w (Aa : nat -> nat -> nat -> RNum) i (w : nat -> R) :
  wsum 0 (rA1 (N:=RNum) m Aa i) w = rsum (lmax + 1) (fun l => rsum (2 * l + 1) (fun mm => rsum (mult m l * K) (fun p =>
    rsum K (fun q => W1 (N:=RNum) m l (p * K + q) * Aa i (l * l + mm)%nat q) * w (moff m l * K + mm * (mult m l * K) + p)%nat))).
Proof.
  unfold rA1.
  rewrite (wsum_flat _ (lmax + 1) (fun l => moff m l * K)%nat w).
  - apply rsum_ext. intros l _. 
    pose proof (wsum_flat (fun mm => tab (mult m l * K) (fun p => nsum (N:=RNum) K (fun q => nmul (W1 (N:=RNum) m l (p * K + q)) (Aa i (l * l + mm)%nat q))))
      (2 * l + 1) (fun mm => moff m l * K + mm * (mult m l * K))%nat w) as G.
    cbv beta in G. rewrite Nat.mul_0_l, Nat.add_0_r in G. etransitivity; [apply G|].
    + intros mm _. rewrite length_tab. lia.
    + apply rsum_ext. intros mm _. rewrite wsum_tab. apply rsum_ext. intros p _. apply f_equal2; [apply nsum_rsum|reflexivity].
  - intros l _. rewrite length_flat_map_const with (c := (mult m l * K)%nat) by (intros; apply length_tab).
    rewrite seq_length, moff_S. nia.
Qed.

Lemma step_d i : rsum lms (fun lm => rsum K (fun k => A1q i lm k * tA1raw i lm k)) =
  rsum NL (fun a => rsum K (fun k => rA1f (N:=RNum) m A1q i a k * tP1 i a k)).
Proof.
  pose proof (mw_K _ W) as HK.
  transitivity (wsum 0 (rA1 (N:=RNum) m A1q i) (fun j => tP1 i (j / K) (j mod K))).
  - rewrite rA1_w. unfold num_lm. rewrite rsum_sq. apply rsum_ext. intros l Hl. apply rsum_ext. intros mm Hmm.
    rewrite (rsum_ext (mult m l * K) _ (fun p => rsum K (fun q => W1 (N:=RNum) m l (p * K + q) * A1q i (l * l + mm)%nat q * tP1 i (arow (l * l + mm) p) (p mod K)))).
    + rewrite rsum_swap. apply rsum_ext. intros k _. unfold tA1raw. rewrite sqrt_lm by auto. rewrite <- rsum_scal_l.
      apply rsum_ext. intros p _. ring.
    + intros p _. rewrite <- rsum_scal_r. apply rsum_ext. intros q _. f_equal. unfold arow. rewrite sqrt_lm by auto.
      replace (moff m l * K + mm * (mult m l * K) + p)%nat with ((moff m l + mm * mult m l) * K + p)%nat by nia.
      rewrite Nat.div_add_l by lia. f_equal.
      * f_equal. f_equal. f_equal. lia.
      * rewrite Nat.add_comm, Nat.mod_add by lia. reflexivity.
  - unfold wsum. rewrite (length_rA1 m W). rewrite rsum_prod. apply rsum_ext. intros a _. apply rsum_ext. intros k Hk.
    cbn [Nat.add]. rewrite Nat.div_add_l, Nat.div_small, Nat.add_0_r by lia. rewrite Nat.add_comm, Nat.mod_add, Nat.mod_small by lia.
    rewrite Nat.add_comm. reflexivity.
Qed.

Lemma step_e i : rsum NL (fun a => rsum K (fun k => rA1f (N:=RNum) m A1q i a k * tP1 i a k)) =
  rsum NPs (fun c => rsum K (fun k => P1rq i c k * tP1r i c k)).
Proof.
  unfold tP1. rewrite (adj_sel (seq 0 ncg) NL NPs K (cgl m) (cgr m) (cgC (N:=RNum) m) (rA1f (N:=RNum) m A1q i) (tP1r i)).
  - apply rsum_ext. intros c _. apply rsum_ext. intros k _. f_equal. unfold qP1r, phi1T. symmetry. apply nfold_rl0.
  - intros p Hp. apply in_seq in Hp. apply (mw_lme_lt _ W). lia.
  - intros p Hp. apply in_seq in Hp. apply (cgr_lt m W). lia.
Qed.

Definition G1 i b : R := rsum NPs (fun c => rsum K (fun k => P1rq i c k *
  ((dR1 i b (ple m c * K + k) * Yt t0 b (plm1 m c) + R1t t0 i b (ple m c * K + k) * dY b (plm1 m c)) * pH1 sph m P0 s0 (ei b) (plm2 m c) k))).
Definition X1 i b c k : R := R1t t0 i b (ple m c * K + k) * Yt t0 b (plm1 m c) * P1rq i c k.
Definition S1h i b : R := rsum NPs (fun c => rsum K (fun k => X1 i b c k * tH1 (ei b) (plm2 m c) k)).
Lemma step_f i : rsum NPs (fun c => rsum K (fun k => P1rq i c k * tP1r i c k)) = rl (B i) (G1 i) + rl (B i) (S1h i).
Proof.
  unfold G1, S1h. rewrite <- rl_plus.
  rewrite (rl_ext (B i) _ (fun b => rsum NPs (fun c => rsum K (fun k => P1rq i c k *
   ((dR1 i b (ple m c * K + k) * Yt t0 b (plm1 m c) + R1t t0 i b (ple m c * K + k) * dY b (plm1 m c)) * pH1 sph m P0 s0 (ei b) (plm2 m c) k
    + R1t t0 i b (ple m c * K + k) * Yt t0 b (plm1 m c) * tH1 (ei b) (plm2 m c) k))))).
  - rewrite rl_rsum_swap. apply rsum_ext. intros c _. rewrite rl_rsum_swap. apply rsum_ext. intros k _.
    rewrite rl_scal. reflexivity.
  - intros b _. rewrite <- rsum_plus. apply rsum_ext. intros c _. rewrite <- rsum_plus. apply rsum_ext. intros k _. unfold X1. ring.
Qed.

Lemma Hix0 : forall i e, (i < length s0)%nat -> In e (es s0 i) -> (e_idx e < length s0)%nat.
Proof.
  rewrite Hn. intros i e Hi He. rewrite Hes in He by auto. apply in_map_iff in He. destruct He as (b & <- & Hb).
  rewrite Hei. apply (Hix i b Hi Hb).
Qed.
Lemma H1q_e j L k : (j < n)%nat -> (L < LMs)%nat -> (k < K)%nat ->
  H1q j L k = H1aq j L k + rsum n (fun i => rl (B i) (fun b => if (ei b =? j)%nat then rl (csel m L) (fun c => X1 i b c k) else 0)).
Proof.
  intros Hj HL Hk. assert (Hj' : (j < length s0)%nat) by (rewrite Hn; exact Hj).
  rewrite (qH1_src sph m W P0 P1 fg s0 Hix0 j L k Hj' HL Hk).
  rewrite nfold_rl, hsrc_rl, Hn. apply f_equal. apply rsum_ext. intros i Hi. rewrite Hes, rl_map by auto. apply rl_ext. intros b _.
  rewrite Hei. destruct (ei b =? j)%nat; [|reflexivity]. apply rl_ext. intros c _. cbn [fst snd]. rewrite R1v_e by auto. reflexivity.
Qed.
Lemma step_g : rsum n (fun j => rsum LMs (fun L => rsum K (fun k => H1q j L k * tH1 j L k))) =
  rsum n (fun j => rsum LMs (fun L => rsum K (fun k => H1aq j L k * tH1 j L k))) + rsum n (fun i => rl (B i) (S1h i)).
Proof.
  rewrite (rsum_ext n _ (fun j => rsum LMs (fun L => rsum K (fun k => H1aq j L k * tH1 j L k)) +
     rsum LMs (fun L => rsum K (fun k => rsum n (fun i => rl (B i) (fun b => if (ei b =? j)%nat then rl (csel m L) (fun c => X1 i b c k) else 0)) * tH1 j L k)))).
  2:{ intros j Hj. rewrite <- rsum_plus. apply rsum_ext. intros L HL. rewrite <- rsum_plus. apply rsum_ext. intros k Hk.
      rewrite H1q_e by auto. ring. }
  rewrite rsum_plus. f_equal.
  (* move the edge sums outside *)
  transitivity (rsum n (fun j => rsum n (fun i => rl (B i) (fun b => if (ei b =? j)%nat then 
     rsum LMs (fun L => rsum K (fun k => rl (csel m L) (fun c => X1 i b c k) * tH1 j L k)) else 0)))).
  { apply rsum_ext. intros j _.
    rewrite (rsum_ext LMs _ (fun L => rsum n (fun i => rl (B i) (fun b => rsum K (fun k => (if (ei b =? j)%nat then rl (csel m L) (fun c => X1 i b c k) else 0) * tH1 j L k))))).
    - rewrite rsum_swap. apply rsum_ext. intros i _. rewrite <- rl_rsum_swap. apply rl_ext. intros b _.
      destruct (ei b =? j)%nat; [reflexivity|]. apply rsum_0. intros L _. apply rsum_0. intros k _. ring.
    - intros L _. rewrite (rsum_ext n _ (fun i => rsum K (fun k => rl (B i) (fun b => (if (ei b =? j)%nat then rl (csel m L) (fun c => X1 i b c k) else 0) * tH1 j L k)))).
      + rewrite rsum_swap. apply rsum_ext. intros k _. rewrite <- rsum_scal_r. apply rsum_ext. intros i _. rewrite rl_scal_r. reflexivity.
      + intros i _. rewrite rl_rsum_swap. reflexivity. }
  rewrite rsum_swap. apply rsum_ext. intros i Hi. rewrite <- rl_rsum_swap. apply rl_ext. intros b Hb.
  rewrite (rl_select n (ei b) (fun j => rsum LMs (fun L => rsum K (fun k => rl (csel m L) (fun c => X1 i b c k) * tH1 j L k)))) by (apply (Hix i b Hi Hb)).
  unfold S1h. rewrite rsum_swap, (rsum_swap NPs). apply rsum_ext. intros k _. unfold csel.
  rewrite (rsum_ext LMs _ (fun L => tH1 (ei b) L k * rl (filter (fun c => (plm2 m c =? L)%nat) (seq 0 NPs)) (fun c => X1 i b c k))) by (intros; ring).
  rewrite (rsum_sel LMs (seq 0 NPs) (plm2 m) (fun L => tH1 (ei b) L k)).
  - rewrite rl_seq. apply rsum_ext. intros; ring.
  - intros c Hc. apply in_seq in Hc. apply (plm2_lt m W). lia.
Qed.

Lemma step_h i : rsum LMs (fun L => rsum K (fun k => H1q i L k * tH1 i L k)) = rsum LMs (fun L => rsum K (fun k => M0q i L k * tM0 i L k)).
Proof.
  unfold tH1. rewrite (adj_mat LMs K (H1q i) (tM0 i) (fun L q k => WH1 (N:=RNum) m (Nat.sqrt L * K * K + (q * K + k)))).
  apply rsum_ext. intros L _. apply rsum_ext. intros q _. apply f_equal2; [|reflexivity]. unfold qM0, mulH1T. symmetry. apply nsum_rsum.
Qed.
Lemma step_i i : rsum LMs (fun L => rsum K (fun k => M0q i L k * tM0 i L k)) = rsum lms (fun lm => rsum K (fun k => A0rq i lm k * tA0 i lm k)).
Proof.
  rewrite rsum_swap, (rsum_swap lms). apply rsum_ext. intros k _. unfold tM0.
  rewrite (rsum_ext LMs _ (fun L => rsum lms (fun lm => M0q i L k * (g0 (N:=RNum) m s0 P0 (pA0 sph m s0) i L lm k * tA0 i lm k)))).
  - rewrite rsum_swap. apply rsum_ext. intros lm _. unfold qA0r, rm0. rewrite nfold_rl0, rl_seq, <- rsum_scal_r. apply rsum_ext.
    intros L _. cbn [nmul RNum]. ring.
  - intros L _. rewrite rsum_scal_l. reflexivity.
Qed.
Lemma step_k i : (i < n)%nat -> rsum lms (fun lm => rsum K (fun k => A0q i lm k * tA0raw i lm k)) =
  rsum lms (fun lm => rsum K (fun k => mulW0T (N:=RNum) m s0 A0q i lm k * tphi0 i lm k)).
Proof.
  intros Hi. unfold tA0raw. rewrite (adj_mat lms K (A0q i) (tphi0 i) (fun lm q k => W0 (N:=RNum) m (tp i) (Nat.sqrt lm) (q * K + k))).
  apply rsum_ext. intros L _. apply rsum_ext. intros q _. apply f_equal2; [|reflexivity]. unfold mulW0T. rewrite Hty by auto. symmetry. apply nsum_rsum.
Qed.
Definition G0 i b : R := rsum lms (fun lm => rsum K (fun k => mulW0T (N:=RNum) m s0 A0q i lm k *
  ((dR0 i b (Nat.sqrt lm * K + k) * Yt t0 b lm + R0t t0 i b (Nat.sqrt lm * K + k) * dY b lm) * H0w b k))).
Lemma step_l i : rsum lms (fun lm => rsum K (fun k => mulW0T (N:=RNum) m s0 A0q i lm k * tphi0 i lm k)) = rl (B i) (G0 i).
Proof.
  unfold G0, tphi0. rewrite rl_rsum_swap. apply rsum_ext. intros lm _. rewrite rl_rsum_swap. apply rsum_ext. intros k _.
  rewrite rl_scal. reflexivity.
Qed.

Definition c1 i : R := if m_A1_scaled m then dotlk (N:=RNum) m A1rq (pA1 sph m P0 s0) i / sc1 (N:=RNum) m s0 i else 0.
Definition c0 i : R := if m_A0_scaled m then dotlk (N:=RNum) m A0rq (pA0 sph m s0) i / sc0 (N:=RNum) m s0 i else 0.

Lemma step_c1 i : (i < n)%nat -> rsum lms (fun lm => rsum K (fun k => A1rq i lm k * tA1 i lm k)) =
  rsum lms (fun lm => rsum K (fun k => A1q i lm k * tA1raw i lm k)) - c1 i * tsc1 i.
Proof.
  intros Hi. unfold tA1, c1.
  etransitivity; [apply (step_c (m_A1_scaled m) (sc1 m s0 i) A1rq (pA1 sph m P0 s0) tA1raw (tsc1 i) i); intros E; apply Hsc1; auto|].
  apply f_equal2; [|destruct (m_A1_scaled m); ring].
  apply rsum_ext. intros lm _. apply rsum_ext. intros k _. f_equal. unfold qA1, odivs, divs. destruct (m_A1_scaled m); reflexivity.
Qed.
Lemma step_c0 i : (i < n)%nat -> rsum lms (fun lm => rsum K (fun k => A0rq i lm k * tA0 i lm k)) =
  rsum lms (fun lm => rsum K (fun k => A0q i lm k * tA0raw i lm k)) - c0 i * tsc0 i.
Proof.
  intros Hi. unfold tA0, c0.
  etransitivity; [apply (step_c (m_A0_scaled m) (sc0 m s0 i) A0rq (pA0 sph m s0) tA0raw (tsc0 i) i); intros E; apply Hsc0; auto|].
  apply f_equal2; [|destruct (m_A0_scaled m); ring].
  apply rsum_ext. intros lm _. apply rsum_ext. intros k _. f_equal. unfold qA0, odivs, divs. destruct (m_A0_scaled m); reflexivity.
Qed.

Lemma total : rsum n tE = rsum n (fun i => tz i - c1 i * tsc1 i + rl (B i) (G1 i) - c0 i * tsc0 i + rl (B i) (G0 i)).
Proof.
  rewrite (rsum_ext n tE (fun i => (tz i - c1 i * tsc1 i + rl (B i) (G1 i)) + (rsum LMs (fun L => rsum K (fun k => H1aq i L k * tH1 i L k)) + rl (B i) (S1h i)))).
  2:{ intros i Hi. rewrite step_a, step_b, step_c1, step_d, step_e, step_f by auto. ring. }
  rewrite rsum_plus. rewrite (rsum_plus n (fun i => rsum LMs (fun L => rsum K (fun k => H1aq i L k * tH1 i L k))) (fun i => rl (B i) (S1h i))), <- step_g.
  rewrite (rsum_ext n (fun j => rsum LMs (fun L => rsum K (fun k => H1q j L k * tH1 j L k))) (fun i => - (c0 i * tsc0 i) + rl (B i) (G0 i))).
  2:{ intros i Hi. rewrite step_h, step_i, step_c0, step_k, step_l by auto. ring. }
  rewrite <- rsum_plus. apply rsum_ext. intros; ring.
Qed.

(** ** forces *)
Notation Fq := (pF sph m P0 P1 fg s0).
Lemma sum3_fold {A} (l : list A) (F : nat -> R) (f : nat -> A -> R) (w : nat -> R) :
  rsum 3 (fun a => (F a + rl l (f a)) * w a) = rsum 3 (fun a => F a * w a) + rl l (fun p => rsum 3 (fun a => f a p * w a)).
Proof.
  rewrite rl_rsum_swap, <- rsum_plus. apply rsum_ext. intros a _. rewrite rl_scal_r. ring.
Qed.
Lemma comp_vr b (c : R) : rsum 3 (fun a => c * (comp (N:=RNum) (ed t0 b) a / r0 b) * v b a) = c * vr b.
Proof. unfold vr, rsum. unfold r0, Rdiv. ring. Qed.

Lemma pck_rl (g : nat * nat -> R) : rl (pck m) g = rsum NPs (fun c => rsum K (fun k => g (c, k))).
Proof. unfold pck. rewrite rl_flat_map, rl_seq. apply rsum_ext. intros c _. rewrite rl_map, rl_seq. reflexivity. Qed.
Lemma lmk_rl (g : nat * nat -> R) : rl (lmk m) g = rsum lms (fun c => rsum K (fun k => g (c, k))).
Proof. unfold lmk. rewrite rl_flat_map, rl_seq. apply rsum_ext. intros c _. rewrite rl_map, rl_seq. reflexivity. Qed.

Lemma force_b i b : (i < n)%nat -> rsum 3 (fun a => Fq i (ed t0 b) a * v b a) =
  - (if m_has_zbl m then zgr (N:=RNum) m (tp i) (et b) (r0 b) * vr b else 0) + c1 i * (csd (N:=RNum) (D1 i b) (r0 b) * vr b) - G1 i b
  + c0 i * (csd (N:=RNum) (D0 i b) (r0 b) * vr b) - G0 i b.
Proof.
  intros Hi.
  assert (A1 : rsum 3 (fun a => zF (N:=RNum) m s0 i (ed t0 b) a * v b a) = - (if m_has_zbl m then zgr (N:=RNum) m (tp i) (et b) (r0 b) * vr b else 0)).
  { unfold zF. rewrite Hty, Het by auto. destruct (m_has_zbl m).
    - rewrite <- Ropp_mult_distr_l_reverse, <- comp_vr. apply rsum_ext. intros a _. unfold r0. cbn [nsub nmul ndiv RNum]. rewrite RNum_zero. ring.
    - rewrite rsum_0; [ring|]. intros a _. rewrite RNum_zero. ring. }
  assert (A2 : rsum 3 (fun a => qF1 sph m P0 P1 fg s0 i (ed t0 b) a * v b a) =
     rsum 3 (fun a => zF (N:=RNum) m s0 i (ed t0 b) a * v b a) + c1 i * (csd (N:=RNum) (D1 i b) (r0 b) * vr b)).
  { unfold qF1, ofsc, c1. destruct (m_A1_scaled m); [|ring].
    rewrite <- Rmult_assoc, <- comp_vr, <- rsum_plus. apply rsum_ext. intros a _. unfold fsc. rewrite Hty, Het by auto.
    fold (D1 i b). fold (r0 b). cbn [nadd nmul ndiv RNum]. unfold Rdiv. ring. }
  assert (A3 : rsum 3 (fun a => qF2 sph m P0 P1 fg s0 i (ed t0 b) a * v b a) = rsum 3 (fun a => qF1 sph m P0 P1 fg s0 i (ed t0 b) a * v b a) - G1 i b).
  { unfold qF2, fold1.
    rewrite (rsum_ext 3 _ (fun a => (qF1 sph m P0 P1 fg s0 i (ed t0 b) a + rl (pck m)
       (f1term m (R1v m s0) (R1d m s0) (Yv sph m) (Yg sph m) (pH1 sph m P0 s0) P1rq i (ed t0 b) a)) * v b a)) by (intros; rewrite nfold_rl; reflexivity).
    rewrite sum3_fold. unfold Rminus. f_equal. rewrite pck_rl. unfold G1. rewrite <- rsum_opp. apply rsum_ext. intros c _.
    rewrite <- rsum_opp. apply rsum_ext. intros k _. unfold f1term. rewrite R1v_e, R1d_e, Hei by auto.
    set (u := P1rq i c k). set (h := pH1 sph m P0 s0 (ei b) (plm2 m c) k). unfold dR1, dY. fold (r0 b).
    set (rd := setd (N:=RNum) (S1 i b) (r0 b) (ple m c * K + k)). set (y := Yt t0 b (plm1 m c)). change (Yv sph m i (ed t0 b) (plm1 m c)) with y.
    set (rr := R1t t0 i b (ple m c * K + k)).
    transitivity (rsum 3 (fun a => (- u * rd * y * h) * (comp (N:=RNum) (ed t0 b) a / r0 b) * v b a) +
       rsum 3 (fun a => (- u * rr * h) * (Yg (N:=RNum) sph m 0 (ed t0 b) (a * lms + plm1 m c) * v b a))).
    - rewrite <- rsum_plus. apply rsum_ext. intros a _. cbn [nopp nadd nmul ndiv RNum].
      change (Yg sph m i (ed t0 b) (a * lms + plm1 m c)) with (Yg sph m 0 (ed t0 b) (a * lms + plm1 m c)). ring.
    - rewrite comp_vr, rsum_scal_l. ring. }
  assert (A4 : rsum 3 (fun a => qF3 sph m P0 P1 fg s0 i (ed t0 b) a * v b a) =
     rsum 3 (fun a => qF2 sph m P0 P1 fg s0 i (ed t0 b) a * v b a) + c0 i * (csd (N:=RNum) (D0 i b) (r0 b) * vr b)).
  { unfold qF3, ofsc, c0. destruct (m_A0_scaled m); [|ring].
    rewrite <- Rmult_assoc, <- comp_vr, <- rsum_plus. apply rsum_ext. intros a _. unfold fsc. rewrite Hty, Het by auto.
    fold (D0 i b). fold (r0 b). cbn [nadd nmul ndiv RNum]. unfold Rdiv. ring. }
  assert (A5 : rsum 3 (fun a => Fq i (ed t0 b) a * v b a) = rsum 3 (fun a => qF3 sph m P0 P1 fg s0 i (ed t0 b) a * v b a) - G0 i b).
  { unfold pF, fold0.
    rewrite (rsum_ext 3 _ (fun a => (qF3 sph m P0 P1 fg s0 i (ed t0 b) a + rl (lmk m)
       (f0term m (R0v m s0) (R0d m s0) (Yv sph m) (Yg sph m) (mulW0T m s0 A0q) i (ed t0 b) a)) * v b a)) by (intros; rewrite nfold_rl; reflexivity).
    rewrite sum3_fold. unfold Rminus. f_equal. rewrite lmk_rl. unfold G0. rewrite <- rsum_opp. apply rsum_ext. intros lm _.
    rewrite <- rsum_opp. apply rsum_ext. intros k _. unfold f0term. rewrite R0v_e, R0d_e, Het by auto.
    set (u := mulW0T m s0 A0q i lm k). change (at_ (m_H0_weights m) (et b * K + k)) with (H0w b k). unfold dR0, dY. fold (r0 b).
    set (rd := setd (N:=RNum) (S0 i b) (r0 b) (Nat.sqrt lm * K + k)). set (y := Yt t0 b lm). change (Yv sph m i (ed t0 b) lm) with y.
    set (rr := R0t t0 i b (Nat.sqrt lm * K + k)).
    transitivity (rsum 3 (fun a => (- u * rd * y * H0w b k) * (comp (N:=RNum) (ed t0 b) a / r0 b) * v b a) +
       rsum 3 (fun a => (- u * rr * H0w b k) * (Yg (N:=RNum) sph m 0 (ed t0 b) (a * lms + lm) * v b a))).
    - rewrite <- rsum_plus. apply rsum_ext. intros a _. cbn [nopp nadd nmul ndiv RNum].
      change (Yg sph m i (ed t0 b) (a * lms + lm)) with (Yg sph m 0 (ed t0 b) (a * lms + lm)). ring.
    - rewrite comp_vr, rsum_scal_l. ring. }
  rewrite A5, A4, A3, A2, A1. reflexivity.
Qed.

Theorem energy_curve : derivable_pt_lim (fun t => rsum n (fun i => pE sph m P0 P1 fe (st t) i)) t0
  (- rsum n (fun i => rl (B i) (fun b => rsum 3 (fun a => Fq i (ed t0 b) a * v b a)))).
Proof.
  apply dlim_eq with (l := rsum n tE).
  2:{ apply (dlim_rsum n (fun t i => pE sph m P0 P1 fe (st t) i)). intros i Hi. apply E_d; auto. }
  rewrite total, <- rsum_opp. apply rsum_ext. intros i Hi. rewrite <- rl_opp. unfold tz, tsc1, tsc0.
  rewrite <- !rl_scal.
  rewrite (rl_ext (B i) (fun b => - rsum 3 (fun a => Fq i (ed t0 b) a * v b a)) (fun b =>
    (if m_has_zbl m then zgr (N:=RNum) m (tp i) (et b) (r0 b) * vr b else 0) - c1 i * (csd (N:=RNum) (D1 i b) (r0 b) * vr b) + G1 i b
  - c0 i * (csd (N:=RNum) (D0 i b) (r0 b) * vr b) + G0 i b)) by (intros; rewrite force_b by auto; ring).
  rewrite rl_plus, rl_minus, rl_plus, rl_minus. 
  assert (Z : rl (B i) (fun b => if m_has_zbl m then zgr (N:=RNum) m (tp i) (et b) (r0 b) * vr b else 0) =
     if m_has_zbl m then rl (B i) (fun b => zgr (N:=RNum) m (tp i) (et b) (r0 b) * vr b) else 0).
  { destruct (m_has_zbl m); [reflexivity|]. apply rl_0. reflexivity. }
  rewrite Z. reflexivity.
Qed.
End Grad.
