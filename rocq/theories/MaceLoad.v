(** Loading a well-formed file succeeds and yields a well-formed object. *)
From Coq Require Import List Arith ZArith Lia Bool Permutation.
From Verif Require Import Base BaseLemmas Segs SplineModel SplineProofs MpModel MpSpec MpProofs MpR MlpModel MlpProofs MlpSpec MlpR
  ZblModel MaceModel MacePure MaceStages6 MaceStages7 MacePipe MaceSpec.
Import ListNotations.

Lemma app_loop {A} n (body : nat -> list A -> option (list A)) (g : nat -> list A) s0 :
  (forall i s, i < n -> body i s = Some (s ++ g i)) -> for_ n body s0 = Some (s0 ++ flat_map g (seq 0 n)).
Proof.
  intros H. apply (for_trace (fun i => s0 ++ flat_map g (seq 0 i))); [simpl; rewrite app_nil_r; auto|auto|].
  intros k Hk. rewrite (H k _ Hk), flat_map_S, app_assoc. reflexivity.
Qed.

Lemma sum_loop n (body : nat -> nat -> option nat) (g : nat -> nat) :
  (forall i s, i < n -> body i s = Some (s + g i)) -> for_ n body 0 = Some (lsum (map g (seq 0 n))).
Proof.
  intros H. apply (for_trace (fun i => lsum (map g (seq 0 i)))); auto.
  intros k Hk. rewrite (H k _ Hk), seq_S, map_app, lsum_app. simpl. f_equal. unfold lsum; simpl; lia.
Qed.

Definition chunks {A} (c n : nat) (w : list A) : list (list A) := map (fun i => firstn c (skipn (i * c) w)) (seq 0 n).
Lemma concat_chunks {A} c n (w : list A) : length w = c * n -> concat (chunks c n w) = w.
Proof.
  revert w; induction n as [|n IH]; intros w H.
  - simpl. rewrite Nat.mul_0_r in H. destruct w; [auto|discriminate].
  - unfold chunks. cbn [seq map concat]. rewrite Nat.mul_0_l. cbn [skipn].
    rewrite <- seq_shift, map_map.
    rewrite (map_ext _ (fun i => firstn c (skipn (i * c) (skipn c w)))).
    2:{ intros i. rewrite SysLoops.skipn_skipn'. reflexivity. }
    fold (chunks c n (skipn c w)). rewrite IH by (rewrite skipn_length; nia).
    apply firstn_skipn.
Qed.
Lemma rows_chunks {A} c n (w : list A) row : length w = c * n -> In row (chunks c n w) -> length row = c.
Proof.
  unfold chunks. rewrite in_map_iff. intros H (i & <- & Hi). apply in_seq in Hi.
  rewrite firstn_length, skipn_length. apply Nat.min_l. nia.
Qed.
Lemma length_chunks {A} c n (w : list A) : length (chunks c n w) = n.
Proof. unfold chunks. rewrite map_length, seq_length. reflexivity. Qed.

Lemma map_flat_single {A B} (g : A -> B) l : flat_map (fun x => [g x]) l = map g l.
Proof. induction l; simpl; f_equal; auto. Qed.

Section Load.
Context {N : Num}.
Variable srt : list (list (list nat)) -> list (list (list nat)).
Hypothesis Hsrt : forall l, Permutation l (srt l).
Variable f : mace_file N.
Hypothesis F : file_ok f.

Notation T := (length (f_atomic_numbers f)).
Notation K := (f_num_channels f).
Notation lms := ((f_l_max f + 1) * (f_l_max f + 1)).
Notation LMs := ((f_L_max f + 1) * (f_L_max f + 1)).

Definition dmp : @mpoly N := mkMP 0 [] [] 0 [] [] [] [] [].
Definition mkp (cs : list N) (ms : list (list nat)) : @mpoly N :=
  match make_mpoly srt lms cs ms with Some p => p | None => dmp end.
Definition ld_set (vals ders : list (list (list N))) : list (@spline_set N) :=
  map (fun q => splset (f_radial_spline_h f) (nth q vals []) (nth q ders []) (length (nth 0 (nth q vals []) []))) (seq 0 (length vals)).
Definition ld_spl h (vals ders : list (list N)) : list (@cubic_spline N) :=
  map (fun q => spl h (nth q vals []) (nth q ders [])) (seq 0 (length vals)).
Definition ldP0 : list (@mpoly N) :=
  flat_map (fun a => flat_map (fun lm => map (fun k => mkp (f_M0_weights f a lm k) (f_M0_monomials f lm)) (seq 0 K)) (seq 0 LMs)) (seq 0 T).
Definition ldP1 : list (@mpoly N) :=
  flat_map (fun a => map (fun k => mkp (f_M1_weights f a k) (f_M1_monomials f)) (seq 0 K)) (seq 0 T).
Definition ldWs : list (list (list N)) := [chunks K 16 (f_readout_2_weights_1 f); [f_readout_2_weights_2 f]].

Definition ldm : mace_model N :=
  mkModel K (f_l_max f) (f_L_max f) (f_atomic_numbers f) (f_atomic_energies f) (f_has_zbl f)
    (mkZBL (f_zbl_a_exp f) (f_zbl_a_prefactor f) (f_zbl_c f) (f_zbl_covalent_radii f) (f_zbl_p f))
    (ld_set (f_radial_spline_values_0 f) (f_radial_spline_derivs_0 f))
    (ld_set (f_radial_spline_values_1 f) (f_radial_spline_derivs_1 f))
    (f_H0_weights f) (f_A0_weights f) (f_A0_scaled f)
    (if f_A0_scaled f then ld_spl (f_A0_spline_h f) (f_A0_spline_values f) (f_A0_spline_derivs f) else [])
    (f_H1_weights f)
    (f_Phi1_l f) (f_Phi1_l1 f) (f_Phi1_l2 f) (f_Phi1_lme f) (f_Phi1_clebsch_gordan f) (f_Phi1_lelm1lm2 f)
    (lsum (map (fun q => 2 * nth q (f_Phi1_l f) 0 + 1) (seq 0 (length (f_Phi1_l f)))))
    (lsum (map (fun q => (2 * nth q (f_Phi1_l1 f) 0 + 1) * (2 * nth q (f_Phi1_l2 f) 0 + 1)) (seq 0 (length (f_Phi1_l f)))))
    (f_A1_weights f) (f_A1_scaled f)
    (if f_A1_scaled f then ld_spl (f_A1_spline_h f) (f_A1_spline_values f) (f_A1_spline_derivs f) else [])
    (f_H2_weights_for_H1 f) (f_H2_weights_for_M1 f) (f_readout_1_weights f).

Definition ldlive (r : @mlp N) : Prop := wf_mlp K ldWs (f_readout_2_scale_factor f) r.
Definition ldfe (x : list N) : N := nth 0 (out_of ldWs (act_g (f_readout_2_scale_factor f)) x) nzero.
Definition ldfg (x : list N) (k : nat) : N := nth k (concat (Dk K ldWs (f_readout_2_scale_factor f) 1 x)) nzero.

Lemma ld_layers : layers_ok K ldWs.
Proof.
  pose proof (fo_r2a _ F) as A. pose proof (fo_r2b _ F) as B.
  unfold ldWs. cbn [layers_ok]. rewrite length_chunks. cbn [length]. repeat split; try lia.
  - intros row Hr. eapply rows_chunks; eauto.
  - intros row [<-|[]]. exact B.
Qed.

Lemma ld_mlp : exists r, make_mlp [K; 16; 1] [f_readout_2_weights_1 f; f_readout_2_weights_2 f] (f_readout_2_scale_factor f) = Some r /\ ldlive r.
Proof.
  destruct (fresh_ok K ldWs (f_readout_2_scale_factor f) (fo_K _ F)) as (r & E & H); [simpl; lia|].
  exists r. split; [|exact H]. rewrite <- E. unfold net_shape, net_weights, ldWs. cbn [map].
  rewrite concat_chunks by (apply (fo_r2a _ F)). rewrite length_chunks. cbn [length concat]. rewrite app_nil_r. reflexivity.
Qed.

Lemma ld_ro : ro_ok ldm ldlive ldfe ldfg.
Proof.
  intros r x Hr Hx. pose proof (layers_chain _ _ ld_layers) as HC. pose proof (fo_K _ F) as HK.
  assert (H2 : 1 <= length ldWs) by (simpl; lia).
  destruct (evaluate_gradient_ok K ldWs (f_readout_2_scale_factor f) HK H2 HC r x Hr Hx) as (r' & E & Hr').
  exists r'. do 2 eexists. split; [exact E|]. split; [|split; [|exact Hr']].
  - apply rd_some. rewrite (length_out K ldWs HK H2 ld_layers). simpl. lia.
  - intros k Hk. apply rd_some. rewrite (length_jac K ldWs (f_readout_2_scale_factor f) HK H2 ld_layers) by auto.
    simpl in *. lia.
Qed.

Lemma mkp_ok cs ms : monos_ok lms ms -> length cs = length ms ->
  make_mpoly srt lms cs ms = Some (mkp cs ms) /\ mp_live lms (mkp cs ms) (mkp cs ms) /\
  mp_coeffs (mkp cs ms) = cs /\ mp_monos (mkp cs ms) = ms.
Proof.
  intros Hm Hl. destruct (built_ok srt Hsrt N lms cs ms Hm Hl) as (p & E & Hw & Hv & L1 & L2 & Hc & Hms).
  unfold mkp. rewrite E. split; [auto|]. split; [|auto]. split; [unfold mp_sim; auto 10|].
  split; auto. split; auto. lia.
Qed.

Lemma ld_sets vals ders c : radial_ok T c vals ders -> 1 <= c ->
  for_ (length vals) (fun i s =>
      v <- rd vals i ;; d <- rd ders i ;;
      x <- make_spline_set (f_radial_spline_h f) v d ;; Some (s ++ [x])) [] = Some (ld_set vals ders).
Proof.
  intros (H1 & H2 & H3) Hc.
  rewrite (app_loop _ _ (fun q => [splset (f_radial_spline_h f) (nth q vals []) (nth q ders []) (length (nth 0 (nth q vals []) []))])).
  - unfold ld_set. cbn [app]. rewrite map_flat_single. reflexivity.
  - intros i s Hi. rewrite (rd_some _ i []) by auto. cbn [bind]. rewrite (rd_some _ i []) by lia. cbn [bind].
    destruct (H3 i Hi) as (kn & Hk & L1 & L2 & R1 & R2).
    assert (Hr : length (nth 0 (nth i vals []) []) = kn) by (apply R1, nth_In; lia).
    rewrite (make_spline_set_spec (f_radial_spline_h f) (nth i vals []) (nth i ders []) kn); auto; try lia.
    cbn [bind]. rewrite Hr. reflexivity.
Qed.

Lemma ld_spls h vals ders : density_ok T vals ders ->
  for_ (length vals) (fun i s =>
      v <- rd vals i ;; d <- rd ders i ;;
      x <- make_spline h v d ;; Some (s ++ [x])) [] = Some (ld_spl h vals ders).
Proof.
  intros (H1 & H2 & H3).
  rewrite (app_loop _ _ (fun q => [spl h (nth q vals []) (nth q ders [])])).
  - unfold ld_spl. cbn [app]. rewrite map_flat_single. reflexivity.
  - intros i s Hi. rewrite (rd_some _ i []) by auto. cbn [bind]. rewrite (rd_some _ i []) by lia. cbn [bind].
    destruct (H3 i Hi) as (L1 & L2). rewrite make_spline_spec by auto. reflexivity.
Qed.


Lemma load_eq : exists r, ldlive r /\ load_from_json srt f = Some (ldm,
  mkBufs [] [] [] [] [] [] [] [] [] [] [] [] [] [] ldP0 [] [] [] [] [] [] [] [] [] [] [] ldP1 [] [] r).
Proof.
  destruct ld_mlp as (r & Er & Hr). exists r. split; [exact Hr|]. unfold load_from_json.
  pose proof (fo_K _ F) as HK.
  rewrite (ld_sets _ _ _ (fo_R0 _ F)) by nia. cbn [bind].
  rewrite (ld_sets _ _ _ (fo_R1 _ F)).
  2:{ assert (1 <= length (f_Phi1_l f)); [|nia]. pose proof (fo_l_all _ F 0 ltac:(lia)) as H0. destruct (f_Phi1_l f); [destruct H0|simpl; lia]. }
  cbn [bind].
  match goal with |- context [if f_A0_scaled f then for_ ?a ?b ?c else _] =>
    replace (if f_A0_scaled f then for_ a b c else Some []) with
     (Some (if f_A0_scaled f then ld_spl (f_A0_spline_h f) (f_A0_spline_values f) (f_A0_spline_derivs f) else [])) end.
  2:{ destruct (f_A0_scaled f) eqn:E; [|reflexivity]. symmetry. apply ld_spls. apply (fo_A0s _ F E). }
  cbn [bind].
  rewrite (app_loop T _ (fun a => flat_map (fun lm => map (fun k => mkp (f_M0_weights f a lm k) (f_M0_monomials f lm)) (seq 0 K)) (seq 0 LMs))).
  2:{ intros a s Ha. apply app_loop. intros lm s' Hlm. rewrite <- map_flat_single. apply app_loop. intros k s'' Hk.
      destruct (fo_M0 _ F a lm k Ha Hlm Hk) as [M1 M2]. destruct (mkp_ok _ _ M1 M2) as [-> _]. reflexivity. }
  cbn [bind app].
  rewrite (sum_loop _ _ (fun q => 2 * nth q (f_Phi1_l f) 0 + 1)) by
    (intros i s Hi; rewrite (rd_some _ i 0) by auto; reflexivity).
  cbn [bind].
  rewrite (sum_loop _ _ (fun q => (2 * nth q (f_Phi1_l1 f) 0 + 1) * (2 * nth q (f_Phi1_l2 f) 0 + 1))).
  2:{ intros i s Hi. pose proof (fo_l1 _ F). pose proof (fo_l2 _ F).
      rewrite (rd_some _ i 0) by lia. cbn [bind]. rewrite (rd_some _ i 0) by lia. reflexivity. }
  cbn [bind].
  match goal with |- context [if f_A1_scaled f then for_ ?a ?b ?c else _] =>
    replace (if f_A1_scaled f then for_ a b c else Some []) with
     (Some (if f_A1_scaled f then ld_spl (f_A1_spline_h f) (f_A1_spline_values f) (f_A1_spline_derivs f) else [])) end.
  2:{ destruct (f_A1_scaled f) eqn:E; [|reflexivity]. symmetry. apply ld_spls. apply (fo_A1s _ F E). }
  cbn [bind].
  rewrite (app_loop T _ (fun a => map (fun k => mkp (f_M1_weights f a k) (f_M1_monomials f)) (seq 0 K))).
  2:{ intros a s Ha. rewrite <- map_flat_single. apply app_loop. intros k s'' Hk.
      destruct (fo_M1 _ F a k Ha Hk) as [M1 M2]. destruct (mkp_ok _ _ M1 M2) as [-> _]. reflexivity. }
  cbn [bind app]. rewrite Er. cbn [bind]. reflexivity.
Qed.

Lemma length_set vals ders : length (ld_set vals ders) = length vals.
Proof. unfold ld_set. rewrite map_length, seq_length. reflexivity. Qed.
Lemma length_spls h vals ders : length (ld_spl h vals ders) = length vals.
Proof. unfold ld_spl. rewrite map_length, seq_length. reflexivity. Qed.

Lemma nth_set vals ders q d : q < length vals -> nth q (ld_set vals ders) d =
  splset (f_radial_spline_h f) (nth q vals []) (nth q ders []) (length (nth 0 (nth q vals []) [])).
Proof. intros H. unfold ld_set. apply (nth_tab (length vals) (fun q => splset (f_radial_spline_h f) (nth q vals []) (nth q ders []) (length (nth 0 (nth q vals []) [])))); auto. Qed.
Lemma nth_spls h vals ders q d : q < length vals -> nth q (ld_spl h vals ders) d = spl h (nth q vals []) (nth q ders []).
Proof. intros H. unfold ld_spl. apply (nth_tab (length vals) (fun q => spl h (nth q vals []) (nth q ders []))); auto. Qed.

Lemma ld_tables vals ders c : radial_ok T c vals ders -> 1 <= c -> tables_ok ldm (ld_set vals ders) c.
Proof.
  intros (H1 & H2 & H3) Hc. split; [rewrite length_set; exact H1|].
  intros x Hx. unfold ld_set in Hx. apply in_map_iff in Hx. destruct Hx as (q & <- & Hq). apply in_seq in Hq.
  destruct (H3 q ltac:(lia)) as (kn & Hk & L1 & L2 & R1 & R2). unfold splset. cbn [css_num css_c css_nodes].
  split; auto. rewrite (length_flat_map_const _ _ (4 * c)), seq_length; [lia|].
  intros i _. rewrite hset_tab, length_tab. lia.
Qed.

Lemma ld_wf : mace_wf ldm.
Proof.
  pose proof (fo_K _ F) as HK.
  assert (Hn : 1 <= length (f_Phi1_l f)).
  { pose proof (fo_l_all _ F 0 ltac:(lia)) as H0. destruct (f_Phi1_l f); [destruct H0|simpl; lia]. }
  constructor; unfold ldm; cbn.
  - exact HK.
  - apply (fo_T _ F).
  - apply ld_tables; [apply (fo_R0 _ F)|nia].
  - apply ld_tables; [apply (fo_R1 _ F)|nia].
  - apply (fo_H0 _ F).
  - apply (fo_A0 _ F).
  - intros t Ht. apply (proj2 (fo_A0 _ F) t Ht).
  - intros t l Ht Hl. apply (proj2 (fo_A0 _ F) t Ht); auto.
  - intros E. rewrite E. rewrite length_spls. apply (fo_A0s _ F E).
  - apply (fo_H1 _ F).
  - apply (fo_l1 _ F).
  - apply (fo_l2 _ F).
  - apply (fo_l_le _ F).
  - apply (fo_l1_le _ F).
  - apply (fo_l2_le _ F).
  - apply (fo_lme _ F).
  - apply (fo_lel _ F).
  - intros p Hp. pose proof (fo_lme_lt _ F p Hp) as H.
    rewrite <- (map_seq_nth (fun l => 2 * l + 1) (f_Phi1_l f) 0) in H. exact H.
  - intros p Hp. apply (fo_lel_lt _ F p Hp).
  - apply (f_equal lsum (map_seq_nth (fun l => 2 * l + 1) (f_Phi1_l f) 0)).
  - unfold paths. rewrite length_flat_map. f_equal. apply map_ext. intros q. rewrite length_paths_at. reflexivity.
  - intros l Hl. unfold mult. cbn. apply count_occ_In. apply (fo_l_all _ F l Hl).
  - apply (fo_A1 _ F).
  - intros l Hl. unfold mult. cbn. apply (proj2 (fo_A1 _ F) l Hl).
  - intros E. rewrite E. rewrite length_spls. apply (fo_A1s _ F E).
  - apply (fo_HH _ F).
  - intros t Ht. apply (proj2 (fo_HH _ F) t Ht).
  - apply (fo_HM _ F).
  - apply (fo_r1 _ F).
  - apply (fo_E0 _ F).
Qed.

Lemma ld_zbl : zbl_wf ldm.
Proof. exact (fo_zbl _ F). Qed.

Definition ldp0 q := nth q ldP0 dmp.
Definition ldp1 q := nth q ldP1 dmp.

Lemma ldp0_live q : q < T * LMs * K -> mp_live lms (ldp0 q) (ldp0 q) /\ q < length ldP0.
Proof.
  intros Hq. assert (L : length ldP0 = T * LMs * K).
  { unfold ldP0. rewrite (length_flat_map_const _ _ (LMs * K)), seq_length; [lia|].
    intros a _. rewrite (length_flat_map_const _ _ K), seq_length; [lia|]. intros; rewrite map_length, seq_length; auto. }
  split; [|lia]. assert (Hin : In (ldp0 q) ldP0) by (apply nth_In; lia).
  unfold ldP0 in Hin. apply in_flat_map in Hin. destruct Hin as (a & Ha & Hin). apply in_seq in Ha.
  apply in_flat_map in Hin. destruct Hin as (lm & Hlm & Hin). apply in_seq in Hlm.
  apply in_map_iff in Hin. destruct Hin as (k & <- & Hk). apply in_seq in Hk.
  destruct (fo_M0 _ F a lm k) as [M1 M2]; try lia. apply (mkp_ok _ _ M1 M2).
Qed.
Lemma ldp1_live q : q < T * K -> mp_live lms (ldp1 q) (ldp1 q) /\ q < length ldP1.
Proof.
  intros Hq. assert (L : length ldP1 = T * K).
  { unfold ldP1. rewrite (length_flat_map_const _ _ K), seq_length; [lia|]. intros; rewrite map_length, seq_length; auto. }
  split; [|lia]. assert (Hin : In (ldp1 q) ldP1) by (apply nth_In; lia).
  unfold ldP1 in Hin. apply in_flat_map in Hin. destruct Hin as (a & Ha & Hin). apply in_seq in Ha.
  apply in_map_iff in Hin. destruct Hin as (k & <- & Hk). apply in_seq in Hk.
  destruct (fo_M1 _ F a k) as [M1 M2]; try lia. apply (mkp_ok _ _ M1 M2).
Qed.

Lemma load_ok : exists b, load_from_json srt f = Some (ldm, b) /\ bufs_live ldm ldp0 ldp1 ldlive b.
Proof.
  destruct load_eq as (r & Hr & E). eexists. split; [exact E|]. split; [|split; [|exact Hr]]; cbn.
  - intros q Hq. destruct (ldp0_live q Hq) as [A B]. exists (ldp0 q). split; [apply rd_some; auto|exact A].
  - intros q Hq. destruct (ldp1_live q Hq) as [A B]. exists (ldp1 q). split; [apply rd_some; auto|exact A].
Qed.
End Load.
