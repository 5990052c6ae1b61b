(** [kk_load_from_json] succeeds on a well-formed file, and what the loaded object contains.  Used in proofs only. *)
From Coq Require Import List Arith ZArith Bool Lia Reals Lra Permutation.
From Verif Require Import Base BaseLemmas Segs Instances RSums ToolsModel MpModel MpSpec MpProofs MpCtor MpR SplineModel SplineProofs ZblModel MaceModel MaceSpec Sys SysLoops
  MacePure MaceStages1 MaceStages7 MlpProofs MaceLoad.
From Verif Require Import KkSem KkWp KkModel KkSpec KkLoad1.
Import ListNotations.
Local Open Scope nat_scope.

Lemma cnt_loop (ls : list nat) l : for_ (length ls) (fun i s => ll <- rd ls i ;; Some (if ll =? l then s + 1 else s)) 0 = Some (count_occ Nat.eq_dec ls l).
Proof.
  apply (for_trace (fun i => count_occ Nat.eq_dec (firstn i ls) l)); [reflexivity|rewrite firstn_all; reflexivity|].
  intros i Hi. rewrite (rd_some ls i 0) by auto. cbn [bind]. rewrite (firstn_S_nth ls i _ (nth_error_nth' ls 0 Hi)), count_occ_app by auto. cbn [count_occ]. f_equal.
  destruct (Nat.eq_dec (nth i ls 0) l), (Nat.eqb_spec (nth i ls 0) l); lia.
Qed.
Definition blk (ls : list nat) l : nat := lsum (map (fun ll => if ll <? l then 2 * ll + 1 else 0) ls).
Lemma blk_S ls l : blk ls (S l) = blk ls l + (2 * l + 1) * count_occ Nat.eq_dec ls l.
Proof.
  unfold blk. induction ls as [|a ls IH]; cbn [map count_occ]; rewrite ?lsum_cons; [cbn; lia|]. rewrite IH. clear IH.
  destruct (Nat.eq_dec a l), (Nat.ltb_spec a (S l)), (Nat.ltb_spec a l); lia.
Qed.
Lemma blk_moff ls l : blk ls l = lsum (map (fun l' => (2 * l' + 1) * count_occ Nat.eq_dec ls l') (seq 0 l)).
Proof.
  induction l as [|l IH]; [|rewrite blk_S, IH, seq_S, map_app, lsum_app; cbn; lia].
  unfold blk. cbn. induction ls as [|a ls IH]; cbn [map]; rewrite ?lsum_cons; auto.
Qed.
Lemma blk_loop (ls : list nat) l : for_ (length ls) (fun p '(lme, num_eta) =>
    ll <- rd ls p ;;
    let lme := if ll <? l then lme + (2*ll+1) else lme in
    Some (lme, if ll =? l then num_eta + 1 else num_eta)) (0, 0) = Some (blk ls l, count_occ Nat.eq_dec ls l).
Proof.
  apply (for_trace (fun i => (blk (firstn i ls) l, count_occ Nat.eq_dec (firstn i ls) l))); [reflexivity|rewrite firstn_all; reflexivity|].
  intros i Hi. rewrite (rd_some ls i 0) by auto. cbn [bind]. unfold blk. rewrite (firstn_S_nth ls i _ (nth_error_nth' ls 0 Hi)), count_occ_app, map_app, lsum_app by auto. cbn [count_occ map lsum list_sum fold_right Nat.add]. f_equal. f_equal.
  - destruct (nth i ls 0 <? l); cbn; lia.
  - destruct (Nat.eq_dec (nth i ls 0) l), (Nat.eqb_spec (nth i ls 0) l); lia.
Qed.

(** ** the lists of paths *)
Definition app3 (st : list nat * list nat * list nat) (l : list (nat * nat * nat)) : list nat * list nat * list nat :=
  let '(a, b, c) := st in (a ++ map (fun p => snd (fst p)) l, b ++ map snd l, c ++ map (fun p => fst (fst p)) l).
Lemma app3_nil st : app3 st [] = st.
Proof. destruct st as [[a b] c]. cbn. rewrite !app_nil_r. reflexivity. Qed.
Lemma app3_app st l l' : app3 (app3 st l) l' = app3 st (l ++ l').
Proof. destruct st as [[a b] c]. cbn. rewrite !map_app, !app_assoc. reflexivity. Qed.

Lemma path_loop (ls l1s l2s : list nat) : length ls <= length l1s -> length ls <= length l2s ->
  for_ (length ls) (fun le st =>
    l1 <- rd l1s le ;; l2 <- rd l2s le ;;
    for_range (l1*l1) (l1*(l1+2)+1) (fun lm1 st =>
      for_range (l2*l2) (l2*(l2+2)+1) (fun lm2 '(a, b, c) =>
        Some (a ++ [lm1], b ++ [lm2], c ++ [le])) st) st) ([], [], []) =
  Some (app3 ([], [], []) (flat_map (fun le => flat_map (fun lm1 => map (fun lm2 => (le, lm1, lm2)) (seq (nth le l2s 0 * nth le l2s 0) (2 * nth le l2s 0 + 1)))
    (seq (nth le l1s 0 * nth le l1s 0) (2 * nth le l1s 0 + 1))) (seq 0 (length ls)))).
Proof.
  intros H1 H2. match goal with |- for_ ?n ?bd ?s0 = Some (app3 _ (flat_map ?g _)) => apply (for_trace (fun i => app3 s0 (flat_map g (seq 0 i)))) end;
    [rewrite app3_nil; reflexivity|reflexivity|].
  intros le Hle. rewrite (rd_some l1s le 0), (rd_some l2s le 0) by lia. cbn [bind]. rewrite seq_S, flat_map_app, <- app3_app. cbn [flat_map Nat.add]. rewrite app_nil_r.
  set (st0 := app3 _ _). set (l1 := nth le l1s 0). set (l2 := nth le l2s 0).
  match goal with |- _ = Some (app3 _ (flat_map ?g _)) => apply (for_range_trace (fun i => app3 st0 (flat_map g (seq (l1 * l1) i)))) end;
    [symmetry; apply app3_nil|do 3 f_equal; lia|].
  intros a Ha. rewrite seq_S, flat_map_app, <- app3_app. cbn [flat_map]. rewrite app_nil_r. set (st1 := app3 st0 _).
  match goal with |- _ = Some (app3 _ (map ?g _)) => apply (for_range_trace (fun i => app3 st1 (map g (seq (l2 * l2) i)))) end;
    [symmetry; apply app3_nil|do 3 f_equal; lia|].
  intros b Hb. rewrite seq_S, map_app, <- app3_app. cbn [map]. destruct (app3 st1 _) as [[x y] z]. reflexivity.
Qed.

Section Load.
Variable srt : list (list (list nat)) -> list (list (list nat)).
Hypothesis Hsrt : forall l, Permutation l (srt l).
Variable f : mace_file RNum.
Hypothesis F : file_ok f.
Hypothesis KF : kk_file_ok f.
Notation T := (length (f_atomic_numbers f)).
Notation K := (f_num_channels f).
Notation lms := ((f_l_max f + 1) * (f_l_max f + 1)).
Notation LMs := ((f_L_max f + 1) * (f_L_max f + 1)).
Notation mp := (mkp (N:=RNum) srt f).

Lemma mp_same cs cs' ms : monos_ok lms ms -> length cs = length ms -> length cs' = length ms ->
  mp_edges (mp cs ms) = mp_edges (mp cs' ms) /\ length (mp_ncoeffs (mp cs ms)) = lms + length (mp_edges (mp cs ms)) /\ mp_wf (mp cs ms) /\ mp_nvars (mp cs ms) = lms.
Proof.
  intros Hm H1 H2. destruct (make_mpoly_ok srt Hsrt lms ms Hm) as (nodes & edges & naux & G & X).
  destruct (X RNum cs H1) as (nc & E & _). destruct (X RNum cs' H2) as (nc' & E' & _).
  destruct (mkp_ok srt Hsrt f cs ms Hm H1) as (_ & (_ & W & V & _) & _ & _).
  split; [unfold mkp; rewrite E, E'; reflexivity|]. split; auto. rewrite (wf_nc _ W), (wf_nodes _ W), V. reflexivity.
Qed.

Definition krad_of (h : R) (vals ders : list (list (list RNum))) (c kn : nat) (S : krad RNum) : Prop :=
  kr_h S = h /\ kr_types S = length vals /\ kr_num S = c /\ v_ext (kr_c S) = [length vals; kn - 1; 4; c] /\
  forall a i q j, a < length vals -> i < kn - 1 -> q < 4 -> j < c ->
    v_val (kr_c S) [a; i; q; j] = hco (N:=RNum) h (vfun (N:=RNum) (nth j (nth a vals []) [])) (vfun (N:=RNum) (nth j (nth a ders []) [])) q i.
Definition one_ (vs : list (list RNum)) : list (list (list RNum)) := map (fun v => [v]) vs.
Definition kn0 := length (nth 0 (nth 0 (f_radial_spline_values_0 f) []) []).
Definition kn1 := length (nth 0 (nth 0 (f_radial_spline_values_1 f) []) []).
Definition knA0 := length (nth 0 (f_A0_spline_values f) []).
Definition knA1 := length (nth 0 (f_A1_spline_values f) []).
Definition E0 LM := mp_edges (mp (f_M0_weights f 0 LM 0) (f_M0_monomials f LM)).
Definition E1 := mp_edges (mp (f_M1_weights f 0 0) (f_M1_monomials f)).
Definition lpaths := flat_map (fun le => flat_map (fun lm1 => map (fun lm2 => (le, lm1, lm2)) (seq (nth le (f_Phi1_l2 f) 0 * nth le (f_Phi1_l2 f) 0) (2 * nth le (f_Phi1_l2 f) 0 + 1)))
    (seq (nth le (f_Phi1_l1 f) 0 * nth le (f_Phi1_l1 f) 0) (2 * nth le (f_Phi1_l1 f) 0 + 1))) (seq 0 (length (f_Phi1_l f))).
Definition cnt l := count_occ Nat.eq_dec (f_Phi1_l f) l.

Definition coeff_ok (w : nat -> nat -> list RNum) (ms : list (list nat)) (E : list (nat * nat)) (v : view RNum) : Prop :=
  v_ext v = [T; lms + length E; K] /\
  forall a p k, a < T -> p < lms + length E -> k < K -> v_val v [a; p; k] = nth p (mp_ncoeffs (mp (w a k) ms)) 0%R.

Record kld (km : kmace RNum) : Prop := {
  l_K : k_num_channels km = K;
  l_l : k_l_max km = f_l_max f;
  l_L : k_L_max km = f_L_max f;
  l_Z : k_atomic_numbers km = f_atomic_numbers f;
  l_E : k_atomic_energies km = f_atomic_energies f;
  l_hz : k_has_zbl km = f_has_zbl f;
  l_zbl : KkModel.k_zbl km = mkZBL (f_zbl_a_exp f) (f_zbl_a_prefactor f) (f_zbl_c f) (f_zbl_covalent_radii f) (f_zbl_p f);
  l_h : k_R0_spline_h km = f_radial_spline_h f;
  l_R0x : v_ext (k_R0_coeff km) = [T * T; kn0 - 1; 4; (f_l_max f + 1) * K];
  l_R0 : forall a b i q l k, a < T -> b < T -> i < kn0 - 1 -> q < 4 -> l <= f_l_max f -> k < K -> v_val (k_R0_coeff km) [a * T + b; i; q; l * K + k] =
    rsum K (fun kp => (nth (kp * K + k) (nth l (nth a (f_A0_weights f) []) []) 0 *
      (let x := pix T a b in hco (N:=RNum) (f_radial_spline_h f) (vfun (N:=RNum) (nth (l * K + kp) (nth x (f_radial_spline_values_0 f) []) []))
          (vfun (N:=RNum) (nth (l * K + kp) (nth x (f_radial_spline_derivs_0 f) []) [])) q i * nth (b * K + kp) (f_H0_weights f) 0))%R);
  l_R1 : krad_of (f_radial_spline_h f) (f_radial_spline_values_1 f) (f_radial_spline_derivs_1 f) (length (f_Phi1_l f) * K) kn1 (k_radial_1 km);
  l_s0 : k_A0_scaled km = f_A0_scaled f;
  l_A0 : f_A0_scaled f = true -> krad_of (f_A0_spline_h f) (one_ (f_A0_spline_values f)) (one_ (f_A0_spline_derivs f)) 1 knA0 (k_A0_splines km);
  l_M0s : k_M0_poly_spec km = map E0 (seq 0 LMs);
  l_M0l : length (k_M0_poly_coeff km) = LMs;
  l_M0 : forall LM, LM < LMs -> exists v, rd (k_M0_poly_coeff km) LM = Some v /\ coeff_ok (fun a k => f_M0_weights f a LM k) (f_M0_monomials f LM) (E0 LM) v;
  l_H1x : v_ext (k_H1_weights km) = [f_L_max f + 1; K; K];
  l_H1 : forall l i j, l < f_L_max f + 1 -> i < K -> j < K -> v_val (k_H1_weights km) [l; i; j] = nth ((l * K + i) * K + j) (f_H1_weights f) 0%R;
  l_Pl : k_Phi1_l km = f_Phi1_l f;
  l_lme : k_Phi1_lme km = f_Phi1_lme f;
  l_lel : k_Phi1_lelm1lm2 km = f_Phi1_lelm1lm2 f;
  l_cg : k_Phi1_clebsch_gordan km = f_Phi1_clebsch_gordan f;
  l_NE : k_num_lme km = lsum (map (fun q => 2 * nth q (f_Phi1_l f) 0 + 1) (seq 0 (length (f_Phi1_l f))));
  l_C : k_num_lelm1lm2 km = lsum (map (fun q => (2 * nth q (f_Phi1_l1 f) 0 + 1) * (2 * nth q (f_Phi1_l2 f) 0 + 1)) (seq 0 (length (f_Phi1_l f))));
  l_lm1 : k_Phi1_lm1 km = map (fun p => snd (fst p)) lpaths;
  l_lm2 : k_Phi1_lm2 km = map snd lpaths;
  l_le : k_Phi1_lel1l2 km = map (fun p => fst (fst p)) lpaths;
  l_A1l : length (k_A1_weights km) = f_l_max f + 1 /\ length (k_A1_weights_trans km) = f_l_max f + 1;
  l_A1 : forall l, l < f_l_max f + 1 -> exists w wt, rd (k_A1_weights km) l = Some w /\ rd (k_A1_weights_trans km) l = Some wt /\
    v_ext w = [cnt l * K; K] /\ v_ext wt = [K; cnt l * K] /\
    forall i j, i < cnt l * K -> j < K -> v_val w [i; j] = nth (i * K + j) (nth l (f_A1_weights f) []) 0%R /\ v_val wt [j; i] = nth (i * K + j) (nth l (f_A1_weights f) []) 0%R;
  l_s1 : k_A1_scaled km = f_A1_scaled f;
  l_A1s : f_A1_scaled f = true -> krad_of (f_A1_spline_h f) (one_ (f_A1_spline_values f)) (one_ (f_A1_spline_derivs f)) 1 knA1 (k_A1_splines km);
  l_M1s : k_M1_poly_spec km = E1;
  l_M1 : coeff_ok (fun a k => f_M1_weights f a k) (f_M1_monomials f) E1 (k_M1_poly_coeff km);
  l_HHx : v_ext (k_H2_weights_for_H1 km) = [T; K * K];
  l_HH : forall i j, i < T -> j < K * K -> v_val (k_H2_weights_for_H1 km) [i; j] = nth j (nth i (f_H2_weights_for_H1 f) []) 0%R;
  l_HM : k_H2_weights_for_M1 km = f_H2_weights_for_M1 f;
  l_r1 : k_readout_1_weights km = f_readout_1_weights f;
  l_r2 : exists V0 V1, kl_shape (k_readout_2 km) = [K; 16; 1] /\ kl_scale (k_readout_2 km) = f_readout_2_scale_factor f /\ kl_weights (k_readout_2 km) = [V0; V1] /\
    v_ext V0 = [16; K] /\ v_ext V1 = [1; 16] /\ (forall i j, i < 16 -> j < K -> v_val V0 [i; j] = nth (i * K + j) (f_readout_2_weights_1 f) 0%R) /\
    (forall i j, i < 1 -> j < 16 -> v_val V1 [i; j] = nth j (f_readout_2_weights_2 f) 0%R)
}.

Lemma stack_radial c (vals ders : list (list (list RNum))) : radial_ok T c vals ders -> 1 <= c ->
  (forall v row, In v vals -> In row v -> length row = length (nth 0 (nth 0 vals []) [])) -> stack c (length (nth 0 (nth 0 vals []) [])) vals ders.
Proof.
  intros (H1 & H2 & H3) Hc HR. pose proof (fo_T _ F) as HT.
  assert (HL : 1 <= length vals). { apply Nat.le_trans with (T * (T + 1) / 2); auto. apply Nat.div_le_lower_bound; nia. }
  destruct (H3 0 ltac:(lia)) as (kn & Hk & A & B & C & D).
  assert (Ek : length (nth 0 (nth 0 vals []) []) = kn) by (apply C, nth_In; lia).
  split; [auto|]. split; [auto|]. split; [lia|]. split; [auto|].
  intros q Hq. destruct (H3 q Hq) as (kn' & Hk' & A' & B' & C' & D').
  assert (kn' = kn). { rewrite <- Ek, <- (C' (nth 0 (nth q vals []) [])) by (apply nth_In; lia). apply (HR (nth q vals [])); apply nth_In; lia. }
  subst kn'. rewrite Ek. auto.
Qed.
Lemma nth_one (vs : list (list RNum)) q : q < length vs -> nth q (one_ vs) [] = [nth q vs []].
Proof. intros Hq. unfold one_. rewrite (nth_indep _ [] [[]]) by (rewrite map_length; auto). exact (map_nth (fun v => [v]) vs [] q). Qed.
Lemma stack_density (vals ders : list (list RNum)) : density_ok T vals ders -> (forall row, In row vals -> length row = length (nth 0 vals [])) ->
  stack 1 (length (nth 0 vals [])) (one_ vals) (one_ ders).
Proof.
  intros (H1 & H2 & H3) HR. pose proof (fo_T _ F) as HT.
  assert (HL : 1 <= length vals). { apply Nat.le_trans with (T * (T + 1) / 2); auto. apply Nat.div_le_lower_bound; nia. }
  unfold stack. replace (length (one_ vals)) with (length vals) by (symmetry; apply map_length). replace (length (one_ ders)) with (length ders) by (symmetry; apply map_length).
  split; [auto|]. split; [auto|]. split; [apply (H3 0); lia|]. split; [auto|].
  intros q Hq. rewrite !nth_one by lia. destruct (H3 q Hq) as [A B].
  split; [auto|]. split; [auto|]. split; intros row [<-|[]]; [apply HR, nth_In; lia|]. rewrite B. apply HR, nth_In; lia.
Qed.

Lemma kk_load_ok : exists km, kk_load_from_json srt f = Some km /\ kld km.
Proof.
  pose proof (fo_K _ F) as HK. pose proof (fo_T _ F) as HT.
  assert (Hn : 1 <= length (f_Phi1_l f)).
  { pose proof (fo_l_all _ F 0 ltac:(lia)) as H0. destruct (f_Phi1_l f); [destruct H0|simpl; lia]. }
  unfold kk_load_from_json.
  (* radial tables *)
  destruct (kk_R0_table_ok K (f_l_max f) T kn0 (f_radial_spline_h f) (f_radial_spline_values_0 f) (f_radial_spline_derivs_0 f) (f_H0_weights f) (f_A0_weights f))
    as (c0 & Ec0 & Xc0 & Vc0); auto.
  { apply stack_radial; [apply (fo_R0 _ F)|nia|apply (kf_R0 _ KF)]. }
  { apply (fo_R0 _ F). }
  { apply (fo_H0 _ F). }
  { apply (fo_A0 _ F). }
  { apply (fo_A0 _ F). }
  rewrite Ec0. cbn [bind]. clear Ec0.
  destruct (make_krad_ok (f_radial_spline_h f) (length (f_Phi1_l f) * K) kn1 (f_radial_spline_values_1 f) (f_radial_spline_derivs_1 f)) as (r1 & Er1 & Hr1).
  { apply stack_radial; [apply (fo_R1 _ F)|nia|apply (kf_R1 _ KF)]. }
  rewrite Er1. cbn [bind]. clear Er1.
  assert (XA0 : exists S, (if f_A0_scaled f then make_krad (f_A0_spline_h f) (one_ (f_A0_spline_values f)) (one_ (f_A0_spline_derivs f)) else Some dkrad) = Some S /\
    (f_A0_scaled f = true -> krad_of (f_A0_spline_h f) (one_ (f_A0_spline_values f)) (one_ (f_A0_spline_derivs f)) 1 knA0 S)).
  { destruct (f_A0_scaled f) eqn:Es; [|exists dkrad; split; [reflexivity|discriminate]].
    destruct (make_krad_ok (f_A0_spline_h f) 1 knA0 (one_ (f_A0_spline_values f)) (one_ (f_A0_spline_derivs f))) as (S & ES & HS); [|eauto].
    apply stack_density; [apply (fo_A0s _ F Es)|apply (kf_A0 _ KF Es)]. }
  destruct XA0 as (sA0 & EA0 & HA0). unfold one_ in EA0 at 1 2. rewrite EA0. cbn [bind]. clear EA0.
  (* unused tables *)
  match goal with |- context [bind (for_ LMs ?bd tt)] => destruct (for_inv (fun (i : nat) (s : unit) => True) LMs bd tt) as (u & Eu & _); auto end.
  { intros LM [] HLM _. 
    match goal with |- context [mk_view ?e ?g] => destruct (mk_view_ok (N:=RNum) e g) as (v & Ev & _) end.
    { intros idx Hi. apply inb3 in Hi as (a & k & w & -> & Ha & Hk & Hw). destruct (fo_M0 _ F a LM k Ha HLM Hk) as [_ M2]. 
      rewrite (rd_some _ _ 0%R) by (eapply Nat.lt_le_trans; [exact Hw|apply Nat.eq_le_incl; symmetry; exact M2]). eauto. }
    rewrite Ev. cbn [bind]. destruct (monomial_table_ok (f_M0_monomials f LM)) as (t & Et); [apply (kf_M0 _ KF LM HLM)|]. rewrite Et. cbn [bind]. eauto. }
  rewrite Eu. cbn [bind]. clear Eu u.
  (* M0 *)
  rewrite (app_loop LMs _ (fun LM => [E0 LM])).
  2:{ intros LM l HLM. destruct (fo_M0 _ F 0 LM 0 ltac:(lia) HLM ltac:(lia)) as [M1 M2]. destruct (mkp_ok srt Hsrt f _ _ M1 M2) as [-> _]. reflexivity. }
  cbn [bind app]. rewrite map_flat_single.
  match goal with |- context [bind (for_ LMs ?bd [])] => destruct (for_inv (fun (i : nat) (s : list (view RNum)) => length s = i /\
     forall LM, LM < i -> exists v, rd s LM = Some v /\ coeff_ok (fun a k => f_M0_weights f a LM k) (f_M0_monomials f LM) (E0 LM) v) LMs bd []) as (cs & Ecs & Lcs & Hcs) end.
  { split; [reflexivity|]. intros; lia. }
  { intros LM s HLM [Ls Hs]. destruct (fo_M0 _ F 0 LM 0 ltac:(lia) HLM ltac:(lia)) as [M1 M2]. destruct (mkp_ok srt Hsrt f _ _ M1 M2) as [-> _]. cbn [bind].
    destruct (mp_same _ _ _ M1 M2 M2) as (_ & L0 & _). rewrite L0. fold (E0 LM).
    rewrite (app_loop T _ (fun a => map (fun k => mp (f_M0_weights f a LM k) (f_M0_monomials f LM)) (seq 0 K))).
    2:{ intros a l Ha. rewrite <- map_flat_single. apply app_loop. intros k l' Hk. destruct (fo_M0 _ F a LM k Ha HLM Hk) as [M3 M4]. destruct (mkp_ok srt Hsrt f _ _ M3 M4) as [-> _].
        cbn [bind]. destruct (mp_same _ _ _ M3 M4 M2) as (E & L1 & _). rewrite L1, E. fold (E0 LM). rewrite Nat.leb_refl. reflexivity. }
    cbn [bind app]. set (Ps := flat_map _ _).
    assert (RP : forall a k, a < T -> k < K -> rd Ps (a * K + k) = Some (mp (f_M0_weights f a LM k) (f_M0_monomials f LM))).
    { intros a k Ha Hk. unfold rd, Ps. rewrite nth_error_flat_map_const with (c := K) (x := a); auto.
      - rewrite (nth_error_nth' _ (mp (f_M0_weights f a LM 0) (f_M0_monomials f LM))) by (rewrite map_length, seq_length; auto). f_equal.
        rewrite (map_nth (fun k => mp (f_M0_weights f a LM k) (f_M0_monomials f LM)) _ 0), seq_nth by auto. reflexivity.
      - intros. rewrite map_length, seq_length. reflexivity.
      - rewrite (nth_error_nth' _ 0) by (rewrite seq_length; auto). rewrite seq_nth by auto. reflexivity. }
    clearbody Ps.
    assert (RC : forall a p k, a < T -> p < lms + length (E0 LM) -> k < K ->
      (P <- rd Ps (a * K + k) ;; rd (mp_ncoeffs P) p) = Some (nth p (mp_ncoeffs (mp (f_M0_weights f a LM k) (f_M0_monomials f LM))) 0%R)).
    { intros a p k Ha Hp Hk. rewrite RP by auto. cbn [bind]. apply rd_some. destruct (fo_M0 _ F a LM k Ha HLM Hk) as [M3 M4].
      destruct (mp_same _ _ _ M3 M4 M2) as (E & L1 & _). rewrite L1, E. exact Hp. }
    match goal with |- context [mk_view ?e ?g] => destruct (mk_view_ok (N:=RNum) e g) as (v & Ev & Xv & Vv) end.
    { intros idx Hi. apply inb3 in Hi as (a & p & k & -> & Ha & Hp & Hk). rewrite RC by auto. eauto. }
    rewrite Ev. cbn [bind]. eexists. split; [reflexivity|]. split; [rewrite app_length; cbn; lia|]. intros LM' HL'.
    destruct (Nat.eq_dec LM' LM) as [->|Hne].
    - exists v. split; [unfold rd; rewrite nth_error_app2, Ls, Nat.sub_diag by lia; reflexivity|]. split; [exact Xv|]. intros a p k Ha Hp Hk. apply Vv. apply RC; auto.
    - destruct (Hs LM' ltac:(lia)) as (v' & Rv' & Hv'). exists v'. split; auto. unfold rd in *. rewrite nth_error_app1 by lia. exact Rv'. }
  rewrite Ecs. cbn [bind]. clear Ecs.
  (* H1 *)
  assert (RH : forall l i j, l < f_L_max f + 1 -> i < K -> j < K -> rd (f_H1_weights f) ((l * K + i) * K + j) = Some (nth ((l * K + i) * K + j) (f_H1_weights f) 0%R)).
  { intros l i j Hl Hi Hj. apply rd_some. pose proof (fo_H1 _ F). apply Nat.lt_le_trans with ((f_L_max f + 1) * K * K); auto. apply idx_lt; auto. apply idx_lt; auto. }
  match goal with |- context [mk_view [f_L_max f + 1; K; K] ?g] => destruct (mk_view_ok (N:=RNum) [f_L_max f + 1; K; K] g) as (vH1 & EvH1 & XvH1 & VvH1) end.
  { intros idx Hi. apply inb3 in Hi as (a & p & k & -> & Ha & Hp & Hk). rewrite RH by auto. eauto. }
  rewrite EvH1. cbn [bind]. clear EvH1.
  (* Phi1 *)
  rewrite (sum_loop _ _ (fun q => 2 * nth q (f_Phi1_l f) 0 + 1)) by (intros i s Hi; rewrite (rd_some _ i 0) by auto; reflexivity).
  cbn [bind].
  rewrite (sum_loop _ _ (fun q => (2 * nth q (f_Phi1_l1 f) 0 + 1) * (2 * nth q (f_Phi1_l2 f) 0 + 1))).
  2:{ intros i s Hi. pose proof (fo_l1 _ F). pose proof (fo_l2 _ F).
      rewrite (rd_some _ i 0) by lia. cbn [bind]. rewrite (rd_some _ i 0) by lia. reflexivity. }
  cbn [bind].
  rewrite (path_loop _ _ _ (fo_l1 _ F) (fo_l2 _ F)). fold lpaths. cbn [bind app3 app].
  (* A1 *)
  assert (RA : forall l i j, l < f_l_max f + 1 -> i < cnt l * K -> j < K -> (wl <- rd (f_A1_weights f) l ;; rd wl (i * K + j)) = Some (nth (i * K + j) (nth l (f_A1_weights f) []) 0%R)).
  { intros l i j Hl Hi Hj. pose proof (fo_A1 _ F) as [A1 A2]. rewrite (rd_some _ _ []) by lia. cbn [bind]. apply rd_some. specialize (A2 l ltac:(lia)). fold (cnt l) in A2.
    apply Nat.lt_le_trans with (cnt l * K * K); auto. apply idx_lt; auto. }
  match goal with |- context [bind (for_ (f_l_max f + 1) ?bd [])] => destruct (for_inv (fun (i : nat) (s : list (view RNum)) => length s = i /\
     forall l, l < i -> exists w, rd s l = Some w /\ v_ext w = [cnt l * K; K] /\ forall i j, i < cnt l * K -> j < K -> v_val w [i; j] = nth (i * K + j) (nth l (f_A1_weights f) []) 0%R) (f_l_max f + 1) bd [])
    as (ws & Ews & Lws & Hws) end.
  { split; [reflexivity|]. intros; lia. }
  { intros l s Hl [Ls Hs]. rewrite cnt_loop. cbn [bind]. fold (cnt l).
    match goal with |- context [mk_view ?e ?g] => destruct (mk_view_ok (N:=RNum) e g) as (v & Ev & Xv & Vv) end.
    { intros idx Hi. apply inb2 in Hi as (i & j & -> & Hi & Hj). rewrite RA by auto. eauto. }
    rewrite Ev. cbn [bind]. eexists. split; [reflexivity|]. split; [rewrite app_length; cbn; lia|]. intros l' Hl'.
    destruct (Nat.eq_dec l' l) as [->|Hne].
    - exists v. split; [unfold rd; rewrite nth_error_app2, Ls, Nat.sub_diag by lia; reflexivity|]. split; [exact Xv|]. intros i j Hi Hj. apply Vv. apply RA; auto.
    - destruct (Hs l' ltac:(lia)) as (v' & Rv' & Hv'). exists v'. split; auto. unfold rd in *. rewrite nth_error_app1 by lia. exact Rv'. }
  rewrite Ews. cbn [bind]. clear Ews.
  match goal with |- context [bind (for_ (f_l_max f + 1) ?bd [])] => destruct (for_inv (fun (i : nat) (s : list (view RNum)) => length s = i /\
     forall l, l < i -> exists w, rd s l = Some w /\ v_ext w = [K; cnt l * K] /\ forall i j, i < cnt l * K -> j < K -> v_val w [j; i] = nth (i * K + j) (nth l (f_A1_weights f) []) 0%R) (f_l_max f + 1) bd [])
    as (wts & Ewts & Lwts & Hwts) end.
  { split; [reflexivity|]. intros; lia. }
  { intros l s Hl [Ls Hs]. rewrite cnt_loop. cbn [bind]. fold (cnt l).
    match goal with |- context [mk_view ?e ?g] => destruct (mk_view_ok (N:=RNum) e g) as (v & Ev & Xv & Vv) end.
    { intros idx Hi. apply inb2 in Hi as (j & i & -> & Hj & Hi). rewrite RA by auto. eauto. }
    rewrite Ev. cbn [bind]. eexists. split; [reflexivity|]. split; [rewrite app_length; cbn; lia|]. intros l' Hl'.
    destruct (Nat.eq_dec l' l) as [->|Hne].
    - exists v. split; [unfold rd; rewrite nth_error_app2, Ls, Nat.sub_diag by lia; reflexivity|]. split; [exact Xv|]. intros i j Hi Hj. apply Vv. apply RA; auto.
    - destruct (Hs l' ltac:(lia)) as (v' & Rv' & Hv'). exists v'. split; auto. unfold rd in *. rewrite nth_error_app1 by lia. exact Rv'. }
  rewrite Ewts. cbn [bind]. clear Ewts.
  assert (XA1 : exists S, (if f_A1_scaled f then make_krad (f_A1_spline_h f) (one_ (f_A1_spline_values f)) (one_ (f_A1_spline_derivs f)) else Some dkrad) = Some S /\
    (f_A1_scaled f = true -> krad_of (f_A1_spline_h f) (one_ (f_A1_spline_values f)) (one_ (f_A1_spline_derivs f)) 1 knA1 S)).
  { destruct (f_A1_scaled f) eqn:Es; [|exists dkrad; split; [reflexivity|discriminate]].
    destruct (make_krad_ok (f_A1_spline_h f) 1 knA1 (one_ (f_A1_spline_values f)) (one_ (f_A1_spline_derivs f))) as (S & ES & HS); [|eauto].
    apply stack_density; [apply (fo_A1s _ F Es)|apply (kf_A1 _ KF Es)]. }
  destruct XA1 as (sA1 & EA1 & HA1). unfold one_ in EA1 at 1 2. rewrite EA1. cbn [bind]. clear EA1.
  (* M1 *)
  destruct (fo_M1 _ F 0 0 ltac:(lia) ltac:(lia)) as [M1a M1b].
  match goal with |- context [mk_view [T; K; length (f_M1_weights f 0 0)] ?g] => destruct (mk_view_ok (N:=RNum) [T; K; length (f_M1_weights f 0 0)] g) as (v1 & Ev1 & _) end.
  { intros idx Hi. apply inb3 in Hi as (a & k & w & -> & Ha & Hk & Hw). destruct (fo_M1 _ F a k Ha Hk) as [_ M2]. rewrite M1b in Hw. rewrite (rd_some _ _ 0%R) by (eapply Nat.lt_le_trans; [exact Hw|apply Nat.eq_le_incl; symmetry; exact M2]). eauto. }
  rewrite Ev1. cbn [bind]. clear Ev1 v1.
  rewrite M1b, Nat.leb_refl, firstn_all.
  destruct (monomial_table_ok (f_M1_monomials f)) as (tm & Etm); [apply (kf_M1 _ KF)|]. rewrite Etm. cbn [bind]. clear Etm tm.
  rewrite (app_loop T _ (fun a => map (fun k => mp (f_M1_weights f a k) (f_M1_monomials f)) (seq 0 K))).
  2:{ intros a s Ha. rewrite <- map_flat_single. apply app_loop. intros k s'' Hk.
      destruct (fo_M1 _ F a k Ha Hk) as [M1 M2]. destruct (mkp_ok srt Hsrt f _ _ M1 M2) as [-> _]. reflexivity. }
  cbn [bind app]. set (Ps := flat_map _ _).
  assert (RP : forall a k, a < T -> k < K -> rd Ps (a * K + k) = Some (mp (f_M1_weights f a k) (f_M1_monomials f))).
  { intros a k Ha Hk. unfold rd, Ps. rewrite nth_error_flat_map_const with (c := K) (x := a); auto.
    - rewrite (nth_error_nth' _ (mp (f_M1_weights f a 0) (f_M1_monomials f))) by (rewrite map_length, seq_length; auto). f_equal.
      rewrite (map_nth (fun k => mp (f_M1_weights f a k) (f_M1_monomials f)) _ 0), seq_nth by auto. reflexivity.
    - intros. rewrite map_length, seq_length. reflexivity.
    - rewrite (nth_error_nth' _ 0) by (rewrite seq_length; auto). rewrite seq_nth by auto. reflexivity. }
  clearbody Ps. pose proof (RP 0 0 ltac:(lia) ltac:(lia)) as RP0. cbn [Nat.mul Nat.add] in RP0. rewrite RP0. cbn [bind]. clear RP0. fold E1.
  assert (RC : forall a p k, a < T -> p < lms + length E1 -> k < K ->
    (P <- rd Ps (a * K + k) ;; rd (mp_ncoeffs P) p) = Some (nth p (mp_ncoeffs (mp (f_M1_weights f a k) (f_M1_monomials f))) 0%R)).
  { intros a p k Ha Hp Hk. rewrite RP by auto. cbn [bind]. apply rd_some. destruct (fo_M1 _ F a k Ha Hk) as [M3 M4].
    destruct (mp_same _ _ _ M3 M4 M1b) as (E & L1 & _). rewrite L1, E. exact Hp. }
  match goal with |- context [mk_view [T; lms + length E1; K] ?g] => destruct (mk_view_ok (N:=RNum) [T; lms + length E1; K] g) as (vM1 & EvM1 & XvM1 & VvM1) end.
  { intros idx Hi. apply inb3 in Hi as (a & p & k & -> & Ha & Hp & Hk). rewrite RC by auto. eauto. }
  rewrite EvM1. cbn [bind]. clear EvM1.
  (* H2 *)
  assert (RHH : forall i j, i < T -> j < K * K -> (w <- rd (f_H2_weights_for_H1 f) i ;; rd w j) = Some (nth j (nth i (f_H2_weights_for_H1 f) []) 0%R)).
  { intros i j Hi Hj. pose proof (fo_HH _ F) as [A B]. rewrite (rd_some _ _ []) by lia. cbn [bind]. apply rd_some. specialize (B i Hi). lia. }
  match goal with |- context [mk_view [T; K * K] ?g] => destruct (mk_view_ok (N:=RNum) [T; K * K] g) as (vHH & EvHH & XvHH & VvHH) end.
  { intros idx Hi. apply inb2 in Hi as (i & j & -> & Hi & Hj). rewrite RHH by auto. eauto. }
  rewrite EvHH. cbn [bind]. clear EvHH.
  destruct (make_kmlp_ok K 16 (f_readout_2_weights_1 f) (f_readout_2_weights_2 f) (f_readout_2_scale_factor f) (fo_r2a _ F) (fo_r2b _ F))
    as (ro & V0 & V1 & Ero & S1 & S2 & S3 & S4 & S5 & S6 & S7).
  rewrite Ero. cbn [bind]. eexists. split; [reflexivity|].
  constructor; cbn; auto.
  - intros l Hl. destruct (Hws l Hl) as (w & A1 & A2 & A3). destruct (Hwts l Hl) as (wt & B1 & B2 & B3). exists w, wt. repeat split; auto.
  - split; [exact XvM1|]. intros a p k Ha Hp Hk. apply VvM1. apply RC; auto.
  - exists V0, V1. rewrite RNum_zero in S6. rewrite RNum_zero in S7. repeat split; auto.
Qed.
End Load.
