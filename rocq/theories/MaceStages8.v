(** Stages of [MACE]: reverse_Phi1, reverse_A0. *)
From Coq Require Import List Arith ZArith Lia Bool.
From Verif Require Import Base BaseLemmas Segs BlasModel BlasLemmas SplineModel MpModel MpProofs MlpModel
  ZblModel MaceModel Sys SysLoops MaceGrid MacePure MaceStages1 MaceStages2 MaceStages3 MaceStages4 MaceStages5 MaceStages6 MaceStages7.
Import ListNotations.

Lemma nth_rk K R a k : a < R -> k < K ->
  nth_error (flat_map (fun a => map (pair a) (seq 0 K)) (seq 0 R)) (a * K + k) = Some (a, k).
Proof.
  intros Ha Hk. rewrite nth_error_flat_map_const with (c := K) (x := a); auto.
  - rewrite nth_error_map, nth_error_seq0 by auto. reflexivity.
  - intros. rewrite map_length, seq_length. reflexivity.
  - apply nth_error_seq0; auto.
Qed.

Lemma length_rk K R : length (flat_map (fun a => map (pair a) (seq 0 K)) (seq 0 R)) = R * K.
Proof.
  rewrite length_flat_map_const with (c := K); [rewrite seq_length; auto|].
  intros. rewrite map_length, seq_length. reflexivity.
Qed.

Section S8.
Context {N : Num}.
Variable m : mace_model N.
Variable s : sys N.
Notation n := (length s).
Notation T := (length (m_atomic_numbers m)).
Notation K := (m_num_channels m).
Notation lms := (num_lm m).
Notation LMs := (num_LM m).
Notation nle := (length (m_Phi1_l m)).
Notation ncg := (length (m_Phi1_clebsch_gordan m)).
Notation NP := (m_num_lelm1lm2 m).
Notation NL := (m_num_lme m).
Hypothesis W : mace_wf m.
Variable nH : nat.
Hypothesis SW : sys_wf m s nH.

Lemma adds_firstn_S (a : list N) L t p v : nth_error L t = Some (p, v) -> p < length a ->
  addto (adds a (firstn t L)) p v = Some (adds a (firstn (S t) L)).
Proof.
  intros H Hp. rewrite addto_some by (rewrite length_adds; auto).
  rewrite (firstn_S_nth _ _ _ H), adds_app. reflexivity.
Qed.

Lemma fill_eb c (f : nat -> edge N -> nat -> N) : fill nzero (eb s c f) = eb s c (fun _ _ _ => nzero).
Proof.
  rewrite (fill_len _ _ eq_refl). apply list_eq_nth with (d := nzero).
  - rewrite repeat_length, !length_eb. reflexivity.
  - intros p _. rewrite nth_repeat. unfold eb. generalize (epairs s) as l. intros l. revert p.
    induction l as [|x l IH]; intros p; simpl; [destruct p; auto|].
    destruct (Nat.lt_ge_cases p c) as [H|H].
    + rewrite app_nth1 by (rewrite length_tab; auto). rewrite nth_tab by auto. reflexivity.
    + rewrite app_nth2 by (rewrite length_tab; auto). apply IH.
Qed.

Definition oz (b : bool) (F : nat -> edge N -> nat -> N) : nat -> edge N -> nat -> N :=
  if b then fun _ _ _ => nzero else F.

Lemma nth_pck c k : c < NP -> k < K -> nth_error (pck m) (c * K + k) = Some (c, k).
Proof. intros Hc Hk. unfold pck. apply nth_rk; auto. rewrite <- (mw_nlel _ W). auto. Qed.
Lemma length_pck : length (pck m) = NP * K.
Proof. unfold pck. rewrite length_rk, (mw_nlel _ W). reflexivity. Qed.

(** reverse_Phi1, with the adjoint of H1 given by its buffer *)
Lemma reverse_Phi1_ok zd zh Yb Ygb Rb Rdb Hb P1r dP1 d1r F Ha Yf Yd Rf Rd H dP :
  eread s Yb lms Yf -> eread s Ygb (3 * lms) Yd -> eread s Rb (nle * K) Rf -> eread s Rdb (nle * K) Rd ->
  nread nH Hb LMs K H -> length Hb = nH * (LMs * K) -> length Ha = length Hb ->
  length P1r = n * (NP * K) -> nread n dP1 NL K dP ->
  reverse_Phi1 m n (f_num_neigh s) (f_neigh_indices s) (f_xyz s) (f_r s) zd zh Yb Ygb Rb Rdb Hb P1r dP1 d1r (eb s 3 F) Ha =
  Some (cube n NP K (phi1T m dP),
        eb s 3 (fold1 m Rf Rd Yf Yd H (phi1T m dP) (oz zd F)),
        adds (if zh then fill nzero Ha else Ha) (hadds m s Rf Yf (phi1T m dP))).
Proof.
  intros HY HYd HR HRd HH LHb LHa LP HdP. unfold reverse_Phi1.
  destruct (tab_0 m _ _ (mw_s1 _ W) (mw_T _ W)) as (s0 & Es & Ec). rewrite Es. cbn [bind]. rewrite Ec.
  rewrite (fill_len _ (n * (NP * K))) by (rewrite length_resize; lia). rewrite repeat_cube.
  match goal with |- bind ?L _ = _ => assert (E2 : L = Some (cube n NP K (phi1T m dP))) end.
  { apply (sseg_all (for_ n _)). unfold cube.
    apply sseg_for_const with (sz := NP * K); [intros; apply length_grid|]. intros i Hi. cbn [plus].
    apply (cg_loop m i (i * (NP * K)) NP (cgr m) (fun p k => dP i (cgl m p) k)); auto.
    - apply (mw_lel_lt _ W).
    - intros p a Hp. pose proof (mw_lme _ W). pose proof (mw_lel _ W).
      rewrite (rd_some (m_Phi1_lelm1lm2 m) p 0) by lia. rewrite (rd_some (m_Phi1_clebsch_gordan m) p nzero) by lia.
      rewrite (rd_some (m_Phi1_lme m) p 0) by lia. cbn [bind]. fold (cgl m p) (cgr m p).
      apply for_ext. intros k a' Hk. pose proof (mw_lme_lt _ W p Hp).
      rewrite (HdP i (cgl m p) k) by (auto; lia). cbn [bind]. f_equal. lia. }
  rewrite E2. clear E2. cbn [bind]. set (d := phi1T m dP).
  rewrite resize_eq by (rewrite length_eb, length_xyz; reflexivity).
  replace (if zd then fill nzero (eb s 3 F) else eb s 3 F) with (eb s 3 (oz zd F)) by (destruct zd; [rewrite fill_eb|]; reflexivity).
  generalize (oz zd F) as F0. intros F0.
  set (F1 := fold1 m Rf Rd Yf Yd H d F0).
  set (fb := fun p : nat * edge N => tab 3 (F0 (fst p) (snd p))).
  set (fb' := fun p : nat * edge N => tab 3 (F1 (fst p) (snd p))).
  match goal with |- bind ?L _ = _ => assert (E2 : L = Some (eb s 3 F1, length (epairs s))) end.
  { apply (for_trace (fun i => (part2 fb fb' (epairs s) (eo s i), eo s i))).
    - reflexivity.
    - rewrite eo_n, <- !part2_all by auto. reflexivity.
    - intros i Hi. rewrite rd_nn by auto. cbn [bind]. rewrite eo_S' by auto.
      apply (eloop s i _ (fun j => (part2 fb fb' (epairs s) (eo s i + j), eo s i + j))); auto.
      { rewrite Nat.add_0_r. reflexivity. }
      intros j e Hj Hin Hq. replace (eo s i + S j) with (S (eo s i + j)) by lia. set (q := eo s i + j) in *.
      rewrite (rd_rij _ _ _ _ Hq), (rd_nidx _ _ _ _ Hq). cbn [bind].
      pose proof (sw_idx _ _ _ SW i e Hi Hin) as Hidx.
      destruct (part2_split fb fb' (epairs s) q (i, e) 3) as (pre & post & A1 & A2 & A3);
        [intros; apply length_tab|auto|].
      rewrite A1, A2.
      set (st := fun c => pre ++ tab 3 (fun a => nfold (firstn (c * K) (pck m)) (f1term m Rf Rd Yf Yd H d i e a) (F0 i e a)) ++ post).
      match goal with |- bind ?L _ = _ => assert (E1 : L = Some (st NP, NP)) end.
      { change (pre ++ fb (i, e) ++ post) with (st 0).
        apply (paths_loop m W st). intros le j1 c0 Hle Hj1 Hc.
        assert (Hl1 : pl1 m le * pl1 m le + j1 < lms).
        { pose proof (mw_l1_le _ W le Hle). unfold num_lm. nia. }
        set (lm1 := pl1 m le * pl1 m le + j1) in *.
        rewrite (HY q i e lm1 _ Hq Hl1 eq_refl). cbn [bind].
        rewrite (HYd q i e (0 * lms + lm1)) by (auto; lia). cbn [bind].
        rewrite (HYd q i e (1 * lms + lm1)) by (auto; lia). cbn [bind].
        rewrite (HYd q i e (2 * lms + lm1)) by (auto; lia). cbn [bind].
        apply lm2_loop. intros j2 Hj2.
        destruct (path_nth _ W _ _ _ _ (Hc j2 Hj2)) as (P1' & P2' & P3' & P4').
        assert (Hl2 : pl2 m le * pl2 m le + j2 < LMs).
        { pose proof (mw_l2_le _ W le Hle). unfold num_LM. nia. }
        set (c := c0 + j2) in *. set (lm2 := pl2 m le * pl2 m le + j2) in *.
        apply (for_trace (fun k => pre ++ tab 3 (fun a => nfold (firstn (c * K + k) (pck m)) (f1term m Rf Rd Yf Yd H d i e a) (F0 i e a)) ++ post)).
        - rewrite Nat.add_0_r. reflexivity.
        - unfold st. replace (S c * K) with (c * K + K) by lia. reflexivity.
        - intros k Hk.
          rewrite (rd_cube n NP K _ i c k) by (auto; lia). cbn [bind].
          rewrite (HR q i e (le * K + k)); auto; [|nia|nia]. cbn [bind].
          rewrite (HRd q i e (le * K + k)); auto; [|nia|nia]. cbn [bind].
          rewrite (HH (e_idx e) lm2 k) by (auto; lia). cbn [bind].
          rewrite (rd_comp s q i e Hq 0) by lia. rewrite (rd_comp s q i e Hq 1) by lia. rewrite (rd_comp s q i e Hq 2) by lia.
          cbn [bind].
          replace (3 * q) with (q * 3) by lia.
          replace (c * K + S k) with (S (c * K + k)) by lia.
          pose proof (nth_pck c k P4' Hk) as Np.
          rewrite (tab_ext 3 (fun a => nfold (firstn (S (c * K + k)) (pck m)) (f1term m Rf Rd Yf Yd H d i e a) (F0 i e a))
             (fun a => nadd (nfold (firstn (c * K + k) (pck m)) (f1term m Rf Rd Yf Yd H d i e a) (F0 i e a)) (f1term m Rf Rd Yf Yd H d i e a (c, k)))).
          2:{ intros a Ha'. apply nfold_firstn_S. exact Np. }
          rewrite <- (add3 pre post _ (fun a => f1term m Rf Rd Yf Yd H d i e a (c, k)) q A3).
          unfold f1term. rewrite P1', P2', P3'. cbn [comp]. reflexivity. }
      rewrite E1. cbn [bind]. replace (q + 1) with (S q) by lia. do 2 f_equal. unfold st, fb', F1, fold1.
      cbn [fst snd]. do 3 f_equal. rewrite <- length_pck, firstn_all. reflexivity. }
  rewrite E2. clear E2. cbn [bind].
  rewrite resize_eq by auto.
  assert (LH0 : length (if zh then fill nzero Ha else Ha) = nH * (LMs * K)).
  { destruct zh; [|lia]. rewrite (fill_len _ _ eq_refl), repeat_length. lia. }
  set (H0 := if zh then fill nzero Ha else Ha) in *.
  set (hd := hadd1 m Rf Yf d).
  match goal with |- bind ?L _ = _ => assert (E2 : L = Some (adds H0 (hadds m s Rf Yf d), length (epairs s))) end.
  2:{ rewrite E2. reflexivity. }
  apply (for_trace (fun i => (adds H0 (flat_map hd (firstn (eo s i) (epairs s))), eo s i))).
  - reflexivity.
  - rewrite eo_n, firstn_all. reflexivity.
  - intros i Hi. rewrite rd_nn by auto. cbn [bind]. rewrite eo_S' by auto.
    apply (eloop s i _ (fun j => (adds H0 (flat_map hd (firstn (eo s i + j) (epairs s))), eo s i + j))); auto.
    { rewrite Nat.add_0_r. reflexivity. }
    intros j e Hj Hin Hq. replace (eo s i + S j) with (S (eo s i + j)) by lia. set (q := eo s i + j) in *.
    rewrite (rd_nidx _ _ _ _ Hq). cbn [bind].
    pose proof (sw_idx _ _ _ SW i e Hi Hin) as Hidx.
    rewrite (firstn_S_nth _ _ _ Hq), flat_map_app', adds_app. cbn [flat_map]. rewrite app_nil_r.
    assert (LB : length (adds H0 (flat_map hd (firstn q (epairs s)))) = nH * (LMs * K)) by (rewrite length_adds; auto).
    set (B := adds H0 (flat_map hd (firstn q (epairs s)))) in *.
    set (st := fun c => adds B (firstn (c * K) (hd (i, e)))).
    match goal with |- bind ?L _ = _ => assert (E1 : L = Some (st NP, NP)) end.
    { change B with (st 0) at 1.
      apply (paths_loop m W st). intros le j1 c0 Hle Hj1 Hc.
      assert (Hl1 : pl1 m le * pl1 m le + j1 < lms).
      { pose proof (mw_l1_le _ W le Hle). unfold num_lm. nia. }
      set (lm1 := pl1 m le * pl1 m le + j1) in *.
      apply lm2_loop. intros j2 Hj2.
      destruct (path_nth _ W _ _ _ _ (Hc j2 Hj2)) as (P1' & P2' & P3' & P4').
      assert (Hl2 : pl2 m le * pl2 m le + j2 < LMs).
      { pose proof (mw_l2_le _ W le Hle). unfold num_LM. nia. }
      set (c := c0 + j2) in *. set (lm2 := pl2 m le * pl2 m le + j2) in *.
      apply (for_trace (fun k => adds B (firstn (c * K + k) (hd (i, e))))).
      - rewrite Nat.add_0_r. reflexivity.
      - unfold st. replace (S c * K) with (c * K + K) by lia. reflexivity.
      - intros k Hk.
        rewrite (HR q i e (le * K + k)); auto; [|nia|nia]. cbn [bind].
        rewrite (HY q i e lm1 _ Hq Hl1 eq_refl). cbn [bind].
        rewrite (rd_cube n NP K _ i c k) by (auto; lia). cbn [bind].
        replace (c * K + S k) with (S (c * K + k)) by lia.
        apply adds_firstn_S.
        + unfold hd, hadd1. rewrite nth_error_map, (nth_pck c k P4' Hk). cbn. rewrite P1', P2', P3'. do 2 f_equal. lia.
        + rewrite LB. assert (e_idx e * LMs + lm2 < nH * LMs) by nia. nia. }
    rewrite E1. cbn [bind]. replace (q + 1) with (S q) by lia. do 2 f_equal. unfold st. f_equal.
    apply firstn_all2. unfold hd, hadd1. rewrite map_length, length_pck. lia.
Qed.

Lemma nth_lmk lm k : lm < lms -> k < K -> nth_error (lmk m) (lm * K + k) = Some (lm, k).
Proof. intros. unfold lmk. apply nth_rk; auto. Qed.
Lemma length_lmk : length (lmk m) = lms * K.
Proof. apply length_rk. Qed.

Lemma reverse_A0_ok Yb Ygb Rb Rdb Aab F Yf Yd Rf Rd Aa :
  eread s Yb lms Yf -> eread s Ygb (3 * lms) Yd ->
  eread s Rb ((m_l_max m + 1) * K) Rf -> eread s Rdb ((m_l_max m + 1) * K) Rd ->
  nread n Aab lms K Aa ->
  reverse_A0 m n (f_node_types s) (f_num_neigh s) (f_neigh_types s) (f_xyz s) (f_r s) Yb Ygb Rb Rdb Aab (eb s 3 F) =
  Some (eb s 3 (fold0 m Rf Rd Yf Yd (mulW0T m s Aa) F)).
Proof.
  intros HY HYd HR HRd HA. unfold reverse_A0. pose proof (mw_K _ W) as HK.
  set (Pa := mulW0T m s Aa). set (F1 := fold0 m Rf Rd Yf Yd Pa F).
  set (fb := fun p : nat * edge N => tab 3 (F (fst p) (snd p))).
  set (fb' := fun p : nat * edge N => tab 3 (F1 (fst p) (snd p))).
  match goal with |- bind ?L _ = _ => assert (E2 : L = Some (eb s 3 F1, length (epairs s))) end.
  2:{ rewrite E2. reflexivity. }
  apply (for_trace (fun i => (part2 fb fb' (epairs s) (eo s i), eo s i))).
  - reflexivity.
  - rewrite eo_n, <- !part2_all by auto. reflexivity.
  - intros i Hi. rewrite rd_ty, rd_nn by auto. cbn [bind]. rewrite eo_S' by auto.
    pose proof (sw_ty _ _ _ SW i Hi) as Hty.
    match goal with |- bind ?L _ = _ => assert (E0 : L = Some (grid lms K (Pa i))) end.
    { apply (swr_all (lms * K) (for_ (m_l_max m + 1) _)); [|rewrite repeat_length; lia].
      apply (swr_l _ _ (m_l_max m + 1) K); [|reflexivity]. intros l Hl.
      rewrite (rd_some (m_A0_weights m) (ty s i) []) by (pose proof (mw_A0a _ W); lia). cbn [bind].
      rewrite (rd_some (nth (ty s i) (m_A0_weights m) []) l []) by (pose proof (mw_A0b _ W _ Hty); lia). cbn [bind].
      pose proof (mw_A0c _ W (ty s i) l Hty ltac:(lia)).
      eapply swr_eq; [| |apply (dgemm_nt_swr (2 * l + 1) K K Aab ((i*lms + l*l)*K) K
         (nth l (nth (ty s i) (m_A0_weights m) []) []) 0 K (l*l*K)
         (fun mm p => Aa i (l * l + mm) p) (fun p k => W0 m (ty s i) l (p * K + k)))]; auto.
      + apply flat_map_ext_in. intros mm Hmm. apply in_seq in Hmm. apply tab_ext. intros k Hk.
        unfold Pa, mulW0T. rewrite sqrt_lm by lia. reflexivity.
      + intros mm p Hmm Hp. apply (HA i (l * l + mm) p); auto; [unfold num_lm; nia|lia].
      + intros p k Hp Hk. apply rd_some. nia. }
    rewrite E0. clear E0. cbn [bind].
    apply (eloop s i _ (fun j => (part2 fb fb' (epairs s) (eo s i + j), eo s i + j))); auto.
    { rewrite Nat.add_0_r. reflexivity. }
    intros j e Hj Hin Hq. replace (eo s i + S j) with (S (eo s i + j)) by lia. set (q := eo s i + j) in *.
    rewrite (rd_rij _ _ _ _ Hq), (rd_nty _ _ _ _ Hq). cbn [bind].
    pose proof (sw_ety _ _ _ SW i e Hi Hin) as Hety.
    destruct (part2_split fb fb' (epairs s) q (i, e) 3) as (pre & post & A1 & A2 & A3);
      [intros; apply length_tab|auto|].
    rewrite A1, A2.
    set (g := fun t => pre ++ tab 3 (fun a => nfold (firstn t (lmk m)) (f0term m Rf Rd Yf Yd Pa i e a) (F i e a)) ++ post).
    match goal with |- bind ?L _ = _ => assert (E1 : L = Some (g (lms * K))) end.
    { apply (for_trace (fun l => g (l * l * K))).
      - reflexivity.
      - f_equal.
      - intros l Hl. apply (for_trace (fun mm => g ((l * l + mm) * K))).
        + rewrite Nat.add_0_r. reflexivity.
        + f_equal. lia.
        + intros mm Hmm. assert (Hlm : l * l + mm < lms) by (unfold num_lm; nia).
          set (lm := l * l + mm) in *.
          assert (Hs : Nat.sqrt lm = l) by (apply sqrt_lm; lia).
          rewrite (HY q i e lm _ Hq Hlm eq_refl). cbn [bind].
          rewrite (HYd q i e (0 * lms + lm)) by (auto; lia). cbn [bind].
          rewrite (HYd q i e (1 * lms + lm)) by (auto; lia). cbn [bind].
          rewrite (HYd q i e (2 * lms + lm)) by (auto; lia). cbn [bind].
          apply (for_trace (fun k => g (lm * K + k))).
          * rewrite Nat.add_0_r. reflexivity.
          * f_equal. unfold lm. lia.
          * intros k Hk.
            rewrite rd_grid with (i := lm) (j := k) by (auto; lia). cbn [bind].
            rewrite (HR q i e (l * K + k)); auto; [|nia|nia]. cbn [bind].
            rewrite (HRd q i e (l * K + k)); auto; [|nia|nia]. cbn [bind].
            rewrite (rd_some (m_H0_weights m) (e_type e * K + k) nzero) by (pose proof (mw_H0 _ W); nia). cbn [bind].
            rewrite (rd_comp s q i e Hq 0) by lia. rewrite (rd_comp s q i e Hq 1) by lia. rewrite (rd_comp s q i e Hq 2) by lia.
            cbn [bind].
            replace (lm * K + S k) with (S (lm * K + k)) by lia.
            pose proof (nth_lmk lm k Hlm Hk) as Np.
            unfold g at 2.
            rewrite (tab_ext 3 (fun a => nfold (firstn (S (lm * K + k)) (lmk m)) (f0term m Rf Rd Yf Yd Pa i e a) (F i e a))
               (fun a => nadd (nfold (firstn (lm * K + k) (lmk m)) (f0term m Rf Rd Yf Yd Pa i e a) (F i e a)) (f0term m Rf Rd Yf Yd Pa i e a (lm, k)))).
            2:{ intros a Ha'. apply nfold_firstn_S. exact Np. }
            rewrite <- (add3 pre post _ (fun a => f0term m Rf Rd Yf Yd Pa i e a (lm, k)) q A3).
            unfold f0term. rewrite Hs. cbn [comp]. reflexivity. }
    rewrite E1. cbn [bind]. replace (q + 1) with (S q) by lia. do 2 f_equal. unfold g, fb', F1, fold0.
    cbn [fst snd]. do 3 f_equal. rewrite <- length_lmk, firstn_all. reflexivity.
Qed.
End S8.
