(** Stages of [MACE]: compute_Phi1, compute_A1, reverse_A1. *)
From Coq Require Import List Arith ZArith Lia Bool.
From Verif Require Import Base BaseLemmas Segs BlasModel BlasLemmas SplineModel MpModel MpProofs MlpModel
  ZblModel MaceModel Sys SysLoops MaceGrid MacePure MaceStages1 MaceStages2 MaceStages3 MaceStages4 MaceStages5 MaceStages6.
Import ListNotations.

(** one row of a grid *)
Lemma grid_row {A} a K (f g : nat -> nat -> A) a0 base stmt :
  a0 < a -> sseg (base + a0 * K) stmt (tab K (f a0)) (tab K (g a0)) ->
  (forall b k, b <> a0 -> b < a -> k < K -> g b k = f b k) ->
  sseg base stmt (grid a K f) (grid a K g).
Proof.
  intros Ha [_ H] Hg. split; [rewrite !length_grid; auto|]. intros pre post Hp.
  assert (E : forall h : nat -> nat -> A, grid a K h = flat_map (fun i => tab K (h i)) (seq 0 a0) ++ tab K (h a0) ++
       flat_map (fun i => tab K (h i)) (seq (S a0) (a - S a0))).
  { intros h. unfold grid. replace a with (a0 + S (a - S a0)) at 1 by lia.
    rewrite seq_app, flat_map_app'. reflexivity. }
  rewrite !E, <- !app_assoc. 
  replace (flat_map (fun i => tab K (g i)) (seq 0 a0)) with (flat_map (fun i => tab K (f i)) (seq 0 a0)).
  2:{ apply flat_map_ext_in. intros i Hi. apply in_seq in Hi. apply tab_ext. intros. symmetry. apply Hg; lia. }
  replace (flat_map (fun i => tab K (g i)) (seq (S a0) (a - S a0))) with (flat_map (fun i => tab K (f i)) (seq (S a0) (a - S a0))).
  2:{ apply flat_map_ext_in. intros i Hi. apply in_seq in Hi. apply tab_ext. intros. symmetry. apply Hg; lia. }
  rewrite !(app_assoc pre). apply H.
  rewrite app_length, length_flat_map_const with (c := K) by (intros; apply length_tab). rewrite seq_length. lia.
Qed.

Lemma pair_eq {A B} (a a' : A) (b b' : B) : a = a' -> b = b' -> (a, b) = (a', b').
Proof. intros -> ->; reflexivity. Qed.

Lemma filter_seq_S (P : nat -> bool) p : filter P (seq 0 (S p)) = filter P (seq 0 p) ++ (if P p then [p] else []).
Proof. rewrite seq_S, filter_app. simpl. reflexivity. Qed.

Section S7.
Context {N : Num}.
Variable m : mace_model N.
Variable s : sys N.
Notation n := (length s).
Notation T := (length (m_atomic_numbers m)).
Notation K := (m_num_channels m).
Notation lms := (num_lm m).
Notation LMs := (num_LM m).
Notation nle := (length (m_Phi1_l m)).
Notation ncg := (length (m_Phi1_clebsch_gordan m)).
Notation NP := (m_num_lelm1lm2 m).
Notation NL := (m_num_lme m).
Hypothesis W : mace_wf m.
Variable nH : nat.
Hypothesis SW : sys_wf m s nH.

(** ** the loops over paths *)
Lemma length_paths_at le : length (paths_at m le) = (2 * pl1 m le + 1) * (2 * pl2 m le + 1).
Proof.
  unfold paths_at. rewrite length_flat_map_const with (c := 2 * pl2 m le + 1).
  - rewrite seq_length. reflexivity.
  - intros. rewrite map_length, seq_length. reflexivity.
Qed.

Definition poff le := length (flat_map (paths_at m) (seq 0 le)).
Lemma poff_S le : poff (S le) = poff le + (2 * pl1 m le + 1) * (2 * pl2 m le + 1).
Proof. unfold poff. rewrite seq_S, flat_map_app', app_length. simpl. rewrite app_nil_r, length_paths_at. reflexivity. Qed.
Lemma poff_all : poff nle = length (paths m).
Proof. reflexivity. Qed.

Lemma nth_paths le j1 j2 : le < nle -> j1 < 2 * pl1 m le + 1 -> j2 < 2 * pl2 m le + 1 ->
  nth_error (paths m) (poff le + (j1 * (2 * pl2 m le + 1) + j2)) = Some (le, pl1 m le * pl1 m le + j1, pl2 m le * pl2 m le + j2).
Proof.
  intros Hle H1 H2. unfold paths.
  assert (E : poff le = offs (paths_at m) (seq 0 nle) le).
  { unfold poff, offs. do 2 f_equal. replace nle with (le + (nle - le)) by lia.
    rewrite seq_app, firstn_app, seq_length, Nat.sub_diag. simpl. rewrite app_nil_r.
    rewrite firstn_all2; auto. rewrite seq_length; lia. }
  rewrite E. assert (B : j1 * (2 * pl2 m le + 1) + j2 < (2 * pl1 m le + 1) * (2 * pl2 m le + 1)) by nia.
  rewrite nth_error_flat_map_offs with (x := le).
  - unfold paths_at. rewrite nth_error_flat_map_const with (c := 2 * pl2 m le + 1) (x := pl1 m le * pl1 m le + j1); auto.
    + rewrite nth_error_map. rewrite (nth_error_nth' _ 0) by (rewrite seq_length; auto). rewrite seq_nth by auto. reflexivity.
    + intros. rewrite map_length, seq_length. reflexivity.
    + rewrite (nth_error_nth' _ 0) by (rewrite seq_length; auto). rewrite seq_nth by auto. reflexivity.
  - apply nth_error_seq0; auto.
  - rewrite length_paths_at. auto.
Qed.

Lemma path_nth c le a b : nth_error (paths m) c = Some (le, a, b) ->
  ple m c = le /\ plm1 m c = a /\ plm2 m c = b /\ c < NP.
Proof.
  intros H. unfold ple, plm1, plm2, path. rewrite (nth_error_nth _ _ _ H). repeat split; auto.
  rewrite (mw_nlel _ W). apply nth_error_Some. congruence.
Qed.

Lemma paths_loop {St} (st : nat -> St) (blm1 : nat -> nat -> nat -> St -> nat -> option (St * nat)) :
  (forall le j1 c0, le < nle -> j1 < 2 * pl1 m le + 1 ->
     (forall j, j < 2 * pl2 m le + 1 ->
        nth_error (paths m) (c0 + j) = Some (le, pl1 m le * pl1 m le + j1, pl2 m le * pl2 m le + j)) ->
     blm1 le (pl1 m le * pl1 m le + j1) (pl2 m le) (st c0) c0 = Some (st (c0 + (2 * pl2 m le + 1)), c0 + (2 * pl2 m le + 1))) ->
  for_ nle (fun le '(P, c) =>
     l1 <- rd (m_Phi1_l1 m) le ;;
     l2 <- rd (m_Phi1_l2 m) le ;;
     for_range (l1*l1) (l1*(l1+2)+1) (fun lm1 '(P, c) => blm1 le lm1 l2 P c) (P, c)) (st 0, 0) =
  Some (st NP, NP).
Proof.
  intros H. rewrite (mw_nlel _ W), <- poff_all.
  apply (for_trace (fun le => (st (poff le), poff le))); auto.
  intros le Hle. rewrite (rd_some (m_Phi1_l1 m) le 0) by (pose proof (mw_l1 _ W); lia).
  rewrite (rd_some (m_Phi1_l2 m) le 0) by (pose proof (mw_l2 _ W); lia). cbn [bind].
  fold (pl1 m le) (pl2 m le). set (l1 := pl1 m le) in *. set (l2 := pl2 m le) in *.
  apply (for_range_trace (fun j1 => (st (poff le + j1 * (2 * l2 + 1)), poff le + j1 * (2 * l2 + 1)))).
  - simpl. rewrite Nat.add_0_r. reflexivity.
  - rewrite poff_S. fold l1 l2. replace (l1 * (l1 + 2) + 1 - l1 * l1) with (2 * l1 + 1) by nia. reflexivity.
  - intros j1 Hj0. assert (Hj : j1 < 2 * l1 + 1) by nia.
    pose proof (H le j1 (poff le + j1 * (2 * l2 + 1)) Hle Hj) as E. fold l1 l2 in E. rewrite E.
    + replace (poff le + j1 * (2 * l2 + 1) + (2 * l2 + 1)) with (poff le + S j1 * (2 * l2 + 1)) by lia.
      reflexivity.
    + intros j Hj2. pose proof (nth_paths le j1 j Hle Hj Hj2) as E2. fold l1 l2 in E2.
      rewrite <- E2. f_equal. lia.
Qed.

Lemma lm2_loop {St} (st : nat -> St) (body : nat -> nat -> St -> option St) l2 c0 :
  (forall j, j < 2 * l2 + 1 -> body (l2 * l2 + j) (c0 + j) (st (c0 + j)) = Some (st (S (c0 + j)))) ->
  for_range (l2*l2) (l2*(l2+2)+1) (fun lm2 '(P, c) => P <- body lm2 c P ;; Some (P, c + 1)) (st c0, c0) =
  Some (st (c0 + (2 * l2 + 1)), c0 + (2 * l2 + 1)).
Proof.
  intros H. apply (for_range_trace (fun j => (st (c0 + j), c0 + j))).
  - rewrite Nat.add_0_r. reflexivity.
  - replace (l2 * (l2 + 2) + 1 - l2 * l2) with (2 * l2 + 1) by nia. reflexivity.
  - intros j Hj0. rewrite (H j) by nia. cbn [bind]. do 2 f_equal; [f_equal|]; lia.
Qed.

Lemma tab_row_add base (f : nat -> N) (v : nat -> N) (body : nat -> list N -> option (list N)) :
  (forall k a, k < K -> body k a = addto a (base + k) (v k)) ->
  sseg base (for_ K body) (tab K f) (tab K (fun k => nadd (f k) (v k))).
Proof.
  intros H. apply (sseg_tab base K (fun k x => nadd x (v k))). intros k a x Hk Hr. rewrite H by auto.
  unfold addto. rewrite Hr. reflexivity.
Qed.

Lemma grid_row_add a (f g : nat -> nat -> N) a0 base (v : nat -> N) body :
  a0 < a -> (forall k x, k < K -> body k x = addto x (base + a0 * K + k) (v k)) ->
  (forall k, k < K -> g a0 k = nadd (f a0 k) (v k)) ->
  (forall b k, b <> a0 -> b < a -> k < K -> g b k = f b k) ->
  sseg base (for_ K body) (grid a K f) (grid a K g).
Proof.
  intros Ha Hb Hg Hg'. apply grid_row with (a0 := a0); auto.
  rewrite (tab_ext K (g a0) (fun k => nadd (f a0 k) (v k))) by auto.
  apply tab_row_add. auto.
Qed.

(** sum over Clebsch-Gordan entries, rows selected by [row], read from [col] *)
Lemma cg_loop i base A (row : nat -> nat) (v : nat -> nat -> N)
    (body : nat -> list N -> option (list N)) :
  base = i * (A * K) ->
  (forall p, p < ncg -> row p < A) ->
  (forall p a, p < ncg -> body p a = for_ K (fun k a => addto a (base + row p * K + k) (nmul (cgC m p) (v p k))) a) ->
  sseg base (for_ ncg body) (grid A K (fun _ _ => nzero))
    (grid A K (fun a k => nfold (filter (fun p => row p =? a) (seq 0 ncg)) (fun p => nmul (cgC m p) (v p k)) nzero)).
Proof.
  intros -> Hrow Hb. split; [rewrite !length_grid; auto|]. intros pre post Hp.
  set (st := fun q => grid A K (fun a k => nfold (filter (fun p => row p =? a) (seq 0 q)) (fun p => nmul (cgC m p) (v p k)) nzero)).
  apply (for_trace (fun q => pre ++ st q ++ post)); auto.
  intros p Hp'. rewrite Hb by auto.
  assert (S1 : sseg (i * (A * K)) (for_ K (fun k a => addto a (i * (A * K) + row p * K + k) (nmul (cgC m p) (v p k)))) (st p) (st (S p))).
  { apply grid_row_add with (a0 := row p) (v := fun k => nmul (cgC m p) (v p k)); auto.
    - intros k Hk. rewrite filter_seq_S, Nat.eqb_refl, nfold_snoc. reflexivity.
    - intros b k Hb' Hlt Hk. rewrite filter_seq_S. destruct (Nat.eqb_spec (row p) b); [lia|].
      rewrite app_nil_r. reflexivity. }
  apply S1. auto.
Qed.

Lemma compute_Phi1_ok Yb Rb Hb Yf Rf H P1r P1 : 
  eread s Yb lms Yf -> eread s Rb (nle * K) Rf -> nread nH Hb LMs K H ->
  compute_Phi1 m n (f_num_neigh s) (f_neigh_indices s) Yb Rb Hb P1r P1 =
  Some (cube n NP K (phi1r m s Rf Yf H), cube n NL K (phi1 m (phi1r m s Rf Yf H))).
Proof.
  intros HY HR HH. unfold compute_Phi1.
  destruct (tab_0 m _ _ (mw_s1 _ W) (mw_T _ W)) as (s0 & Es & Ec). rewrite Es. cbn [bind]. rewrite Ec.
  rewrite (fill_len _ (n * (NP * K))) by (rewrite length_resize; lia). rewrite repeat_cube.
  set (f := fun i : nat => grid NP K (fun _ _ => @nzero N)). set (g := fun i => grid NP K (phi1r m s Rf Yf H i)).
  match goal with |- bind ?L _ = _ => assert (E : L = Some (cube n NP K (phi1r m s Rf Yf H), length (epairs s))) end.
  { apply (for_trace (fun i => (part2 f g (seq 0 n) i, eo s i))).
    - reflexivity.
    - rewrite eo_n, <- part2_all by (rewrite seq_length; auto). reflexivity.
    - intros i Hi. rewrite rd_nn by auto. cbn [bind].
      destruct (part2_split f g (seq 0 n) i i (NP * K)) as (pre & post & A1 & A2 & A3);
        [intros; apply length_grid|apply nth_error_seq0; auto|].
      rewrite A1, A2, eo_S' by auto.
      set (ph := fun j c k => nfold (firstn j (es s i)) (fun e => nmul (nmul (Rf i e (ple m c * K + k)) (Yf i e (plm1 m c)))
         (H (e_idx e) (plm2 m c) k)) nzero).
      apply (eloop s i _ (fun j => (pre ++ grid NP K (ph j) ++ post, eo s i + j))); auto.
      + rewrite Nat.add_0_r. reflexivity.
      + unfold g, phi1r, ph. rewrite firstn_all. reflexivity.
      + intros j e Hj Hin Hq. set (q := eo s i + j) in *.
        rewrite (rd_nidx _ _ _ _ Hq). cbn [bind].
        pose proof (sw_idx _ _ _ SW i e Hi Hin) as Hidx.
        set (st := fun c' => pre ++ grid NP K (fun c k => if c <? c' then ph (S j) c k else ph j c k) ++ post).
        match goal with |- bind ?L _ = _ => assert (E1 : L = Some (st NP, NP)) end.
        { replace (pre ++ grid NP K (ph j) ++ post) with (st 0) by reflexivity.
          apply (paths_loop st). intros le j1 c0 Hle Hj1 Hc.
          assert (Hl1 : pl1 m le * pl1 m le + j1 < lms).
          { pose proof (mw_l1_le _ W le Hle). unfold num_lm. nia. }
          rewrite (HY q i e (pl1 m le * pl1 m le + j1) _ Hq Hl1 eq_refl). cbn [bind].
          apply lm2_loop. intros j2 Hj2.
          destruct (path_nth _ _ _ _ (Hc j2 Hj2)) as (P1' & P2' & P3' & P4').
          set (c := c0 + j2) in *. unfold st.
          assert (SS : sseg (i * (NP * K)) (for_ K (fun k P => addto P (i * (NP * K) + c * K + k)
             (nmul (nmul (Rf i e (le * K + k)) (Yf i e (pl1 m le * pl1 m le + j1))) (H (e_idx e) (pl2 m le * pl2 m le + j2) k))))
             (grid NP K (fun c' k => if c' <? c then ph (S j) c' k else ph j c' k))
             (grid NP K (fun c' k => if c' <? S c then ph (S j) c' k else ph j c' k))).
          { apply grid_row_add with (a0 := c) (v := fun k => (nmul (nmul (Rf i e (le * K + k)) (Yf i e (pl1 m le * pl1 m le + j1))) (H (e_idx e) (pl2 m le * pl2 m le + j2) k))); auto.
            - intros k Hk. destruct (Nat.ltb_spec c c); [lia|]. destruct (Nat.ltb_spec c (S c)); [|lia].
                unfold ph. rewrite (nfold_firstn_S _ _ _ _ _ Hj), P1', P2', P3'. reflexivity.
            - intros b k Hb' Hlt Hk. destruct (Nat.ltb_spec b c); destruct (Nat.ltb_spec b (S c)); try lia; auto. }
          destruct SS as [_ SS]. rewrite <- SS by auto. apply for_ext. intros k P Hk.
          rewrite (HR q i e (le * K + k)); auto; [|nia|nia]. cbn [bind].
          assert (Hl2 : pl2 m le * pl2 m le + j2 < LMs).
          { pose proof (mw_l2_le _ W le Hle). unfold num_LM. nia. }
          rewrite (HH (e_idx e) (pl2 m le * pl2 m le + j2) k) by (auto; lia). cbn [bind].
          f_equal. lia. }
        rewrite E1. cbn [bind]. replace (eo s i + S j) with (q + 1) by (unfold q; lia). do 3 f_equal. unfold st. do 2 f_equal.
        apply grid_ext. intros c k Hc Hk. destruct (Nat.ltb_spec c NP); [reflexivity|lia]. }
  rewrite E. cbn [bind].
  rewrite (fill_len _ (n * (NL * K))) by (rewrite length_resize; lia). rewrite repeat_cube.
  match goal with |- bind ?L _ = _ => assert (E2 : L = Some (cube n NL K (phi1 m (phi1r m s Rf Yf H)))) end.
  2:{ rewrite E2. reflexivity. }
  apply (sseg_all (for_ n _)). unfold cube at 2 3.
  apply sseg_for_const with (sz := NL * K); [intros; apply length_grid|]. intros i Hi. cbn [plus].
  apply (cg_loop i (i * (NL * K)) NL (cgl m) (fun p k => phi1r m s Rf Yf H i (cgr m p) k)); auto.
  - apply (mw_lme_lt _ W).
  - intros p a Hp. pose proof (mw_lme _ W). pose proof (mw_lel _ W).
    rewrite (rd_some (m_Phi1_lme m) p 0) by lia. rewrite (rd_some (m_Phi1_clebsch_gordan m) p nzero) by lia.
    rewrite (rd_some (m_Phi1_lelm1lm2 m) p 0) by lia. cbn [bind]. fold (cgl m p) (cgr m p).
    apply for_ext. intros k a' Hk.
    pose proof (mw_lel_lt _ W p Hp).
    rewrite (rd_cube n NP K _ i (cgr m p) k) by (auto; lia). cbn [bind]. f_equal. lia.
Qed.

(** ** compute_A1, reverse_A1 *)
Lemma num_e_loop : 
  for_ nle (fun q '(num_lme, num_e) =>
      l <- rd (m_Phi1_l m) q ;;
      e <- rd num_e l ;;
      num_e <- wr num_e l (e + 1)%nat ;;
      Some ((num_lme + (2*l+1))%nat, num_e)) (0%nat, repeat 0%nat (m_l_max m + 1)) =
  Some (NL, tab (m_l_max m + 1) (mult m)).
Proof.
  rewrite (mw_nlme _ W).
  apply (for_trace (fun q => (lsum (map (fun l => 2 * l + 1) (firstn q (m_Phi1_l m))),
     tab (m_l_max m + 1) (count_occ Nat.eq_dec (firstn q (m_Phi1_l m)))))).
  - cbn [firstn map lsum]. f_equal. unfold tab. generalize (m_l_max m + 1) as k. 
    intros k. cbn [count_occ]. generalize 0 at 3 as b. induction k as [|k IH]; intros b; simpl; auto. f_equal. apply IH.
  - rewrite firstn_all. reflexivity.
  - intros q Hq. destruct (nth_error (m_Phi1_l m) q) as [l|] eqn:El; [|apply nth_error_None in El; lia].
    unfold rd at 1. rewrite El. cbn [bind].
    assert (Hl : l < m_l_max m + 1).
    { pose proof (mw_l_le _ W l (nth_error_In _ _ El)). lia. }
    rewrite rd_tab by auto. cbn [bind]. rewrite wr_tab by auto. cbn [bind].
    rewrite (firstn_S_nth _ _ _ El). do 2 f_equal.
    + rewrite map_app, lsum_app. simpl. lia.
    + apply tab_ext. intros l' Hl'. rewrite count_occ_app. cbn [count_occ].
      destruct (Nat.eqb_spec l' l); destruct (Nat.eq_dec l l'); try congruence; try lia.
Qed.

Lemma moff_S l : moff m (S l) = moff m l + (2 * l + 1) * mult m l.
Proof. unfold moff. rewrite seq_S, map_app, lsum_app. simpl. lia. Qed.

Lemma moff_mono a b : a <= b -> moff m a <= moff m b.
Proof. intros H. induction H; auto. rewrite moff_S. lia. Qed.

Lemma lsum_cons x l : lsum (x :: l) = x + lsum l.
Proof. reflexivity. Qed.

Lemma lsum_mulr {A} (f : A -> nat) c l : lsum (map (fun x => f x * c) l) = lsum (map f l) * c.
Proof. induction l; [reflexivity|]. cbn [map]. rewrite !lsum_cons. lia. Qed.

Lemma moff_all : moff m (m_l_max m + 1) = NL.
Proof.
  rewrite (mw_nlme _ W). unfold moff, mult. pose proof (mw_l_le _ W) as H.
  induction (m_Phi1_l m) as [|l t IH]; cbn [map count_occ]; rewrite ?lsum_cons.
  - clear. change (lsum []) with 0. induction (seq 0 _) as [|x t IH]; [reflexivity|]. cbn [map]. rewrite lsum_cons, IH. lia.
  - rewrite <- IH by (intros; apply H; simpl; auto).
    assert (Hl : l < m_l_max m + 1) by (specialize (H l (or_introl eq_refl)); lia).
    clear IH H.
    transitivity (lsum (map (fun l' => (2 * l' + 1) * count_occ Nat.eq_dec t l' + (if l' =? l then 2 * l + 1 else 0)) (seq 0 (m_l_max m + 1)))).
    + f_equal. apply map_ext. intros l'. destruct (Nat.eq_dec l l') as [e|e]; destruct (Nat.eqb_spec l' l); try lia; try congruence.
    + assert (G : forall k, lsum (map (fun l' => (2 * l' + 1) * count_occ Nat.eq_dec t l' + (if l' =? l then 2 * l + 1 else 0)) (seq 0 k)) =
        (if l <? k then 2 * l + 1 else 0) + lsum (map (fun l' => (2 * l' + 1) * count_occ Nat.eq_dec t l') (seq 0 k))).
      { induction k as [|k IH]; [reflexivity|].
        rewrite !seq_S, !map_app, !lsum_app, IH. simpl.
        destruct (Nat.ltb_spec l k); destruct (Nat.ltb_spec l (S k)); destruct (Nat.eqb_spec k l); try lia. }
      rewrite G. destruct (Nat.ltb_spec l (m_l_max m + 1)); lia.
Qed.

Lemma row_lt l mm r : l <= m_l_max m -> mm < 2 * l + 1 -> r < mult m l -> moff m l + mm * mult m l + r < NL.
Proof.
  intros Hl Hm Hr. rewrite <- moff_all. pose proof (moff_mono (S l) (m_l_max m + 1) ltac:(lia)). rewrite moff_S in H. nia.
Qed.

Lemma compute_A1_ok Pb P A1 : nread n Pb NL K P ->
  compute_A1 m n Pb A1 = Some (cube n lms K (a1raw m P)).
Proof.
  intros HP. unfold compute_A1. rewrite num_e_loop. cbn [bind]. pose proof (mw_K _ W) as HK.
  apply (swr_all (n * (lms * K)) (for_ n _)); [|rewrite length_resize; lia].
  apply swr_for_const with (sz := lms * K); auto. intros i Hi. cbn [plus].
  assert (SW1 : swr (i * (lms * K)) (lms * K) (for_ (m_l_max m + 1) (fun l A1 =>
       dgemm_nn (2*l+1) K (mult m l*K) Pb (i*NL*K + moff m l*K) (mult m l*K) (nth l (m_A1_weights m) []) 0 K A1 ((i*lms + l*l)*K) K))
       (grid lms K (a1raw m P i))).
  { apply (swr_l _ _ (m_l_max m + 1) K); [|reflexivity]. intros l Hl.
    pose proof (mw_mult _ W l ltac:(lia)). pose proof (mw_A1b _ W l ltac:(lia)).
    eapply swr_eq; [| |apply (dgemm_nn_swr (2 * l + 1) K (mult m l * K) Pb (i*NL*K + moff m l*K) (mult m l * K)
       (nth l (m_A1_weights m) []) 0 K ((i*lms + l*l)*K)
       (fun mm p => P i (moff m l + mm * mult m l + p / K) (p mod K)) (fun p k => W1 m l (p * K + k)))]; auto.
    - lia.
    - apply flat_map_ext_in. intros mm Hmm. apply in_seq in Hmm. apply tab_ext. intros k Hk.
      unfold a1raw. rewrite sqrt_lm by lia. replace (l * l + mm - l * l) with mm by lia. reflexivity.
    - nia.
    - intros mm p Hmm Hp. pose proof (Nat.div_mod_eq p K). pose proof (Nat.mod_upper_bound p K ltac:(lia)).
      assert (p / K < mult m l) by (apply Nat.div_lt_upper_bound; lia).
      apply (HP i (moff m l + mm * mult m l + p / K) (p mod K)); auto; [apply row_lt; lia|].
      rewrite H1 at 1. nia.
    - intros p k Hp Hk. apply rd_some. nia. }
  destruct SW1 as [Ls SW1]. split; auto. intros pre seg post Hp Hs.
  set (st := fun l => for_ l (fun l A1 => dgemm_nn (2*l+1) K (mult m l*K) Pb (i*NL*K + moff m l*K) (mult m l*K)
       (nth l (m_A1_weights m) []) 0 K A1 ((i*lms + l*l)*K) K) (pre ++ seg ++ post)).
  assert (G : forall l, l <= m_l_max m + 1 -> 
    for_ l (fun l '(A1, po, ao) =>
          w <- rd (m_A1_weights m) l ;;
          e <- rd (tab (m_l_max m + 1) (mult m)) l ;;
          A1 <- dgemm_nn (2*l+1) K (e*K) Pb po (e*K) w 0 K A1 ao K ;;
          Some (A1, (po + (2*l+1)*e*K)%nat, (ao + (2*l+1)*K)%nat)) (pre ++ seg ++ post, i*NL*K, i*lms*K) =
    (A <- st l ;; Some (A, i*NL*K + moff m l*K, (i*lms + l*l)*K))).
  { induction l as [|l IH]; intros Hl.
    - change (moff m 0) with 0. cbn [for_ for_from bind st]. unfold st. cbn. rewrite !Nat.add_0_r. reflexivity.
    - unfold st in *. rewrite !for_S, IH by lia. 
      destruct (for_ l _ (pre ++ seg ++ post)) as [A|]; cbn [bind]; auto.
      rewrite (rd_some _ l []) by (pose proof (mw_A1a _ W); lia). rewrite rd_tab by lia. cbn [bind].
      destruct (dgemm_nn _ _ _ _ _ _ _ _ _ _ _) as [A'|]; cbn [bind]; auto. rewrite moff_S. f_equal. apply pair_eq; [apply pair_eq|]; auto; lia. }
  rewrite G by auto. unfold st. rewrite SW1 by auto. reflexivity.
Qed.

Lemma length_rA1 Aa i : length (rA1 m Aa i) = NL * K.
Proof.
  unfold rA1. rewrite length_flat_map.
  replace (map _ _) with (map (fun l => (2 * l + 1) * mult m l * K) (seq 0 (m_l_max m + 1))).
  - rewrite <- moff_all. unfold moff. apply lsum_mulr.
  - apply map_ext. intros l. rewrite length_flat_map_const with (c := mult m l * K) by (intros; apply length_tab).
    rewrite seq_length. lia.
Qed.

Lemma reverse_A1_ok Pb Ab Aa dP : length Pb = n * (NL * K) -> nread n Ab lms K Aa ->
  reverse_A1 m n Pb Ab dP = Some (cube n NL K (rA1f m Aa)).
Proof.
  intros LP HA. unfold reverse_A1. rewrite num_e_loop. cbn [bind]. pose proof (mw_K _ W) as HK.
  replace (cube n NL K (rA1f m Aa)) with (flat_map (rA1 m Aa) (seq 0 n)).
  2:{ unfold cube. apply flat_map_ext_in. intros i _. apply grid_of_list. apply length_rA1. }
  apply (swr_all (n * (NL * K)) (for_ n _)); [|rewrite length_resize; lia].
  apply swr_for_const with (sz := NL * K); auto. intros i Hi. cbn [plus].
  assert (SW1 : swr (i * (NL * K)) (NL * K) (for_ (m_l_max m + 1) (fun l dP =>
       dgemm_nt (2*l+1) (mult m l*K) K Ab ((i*lms + l*l)*K) K (nth l (m_A1_weights m) []) 0 K dP (i*NL*K + moff m l*K) (mult m l*K)))
       (rA1 m Aa i)).
  { unfold rA1. apply swr_for with (sz := fun l => (2 * l + 1) * (mult m l * K)).
    - intros l Hl. pose proof (mw_mult _ W l ltac:(lia)). pose proof (mw_A1b _ W l ltac:(lia)).
      eapply swr_eq; [| |apply (dgemm_nt_swr (2 * l + 1) (mult m l * K) K Ab ((i*lms + l*l)*K) K
         (nth l (m_A1_weights m) []) 0 K (i*NL*K + moff m l*K)
         (fun mm p => Aa i (l * l + mm) p) (fun p k => W1 m l (p * K + k)))]; auto.
      + replace (lsum _) with (moff m l * K).
        * lia.
        * unfold moff. rewrite <- lsum_mulr. f_equal. apply map_ext. intros; lia.
      + nia.
      + intros mm p Hmm Hp. apply (HA i (l * l + mm) p); auto; [unfold num_lm; nia|lia].
      + intros p k Hp Hk. apply rd_some. nia.
    - rewrite <- moff_all. unfold moff. rewrite <- lsum_mulr. f_equal. apply map_ext. intros; lia. }
  destruct SW1 as [Ls SW1]. split; auto. intros pre seg post Hp Hs.
  set (st := fun l => for_ l (fun l dP => dgemm_nt (2*l+1) (mult m l*K) K Ab ((i*lms + l*l)*K) K
     (nth l (m_A1_weights m) []) 0 K dP (i*NL*K + moff m l*K) (mult m l*K)) (pre ++ seg ++ post)).
  assert (G : forall l, l <= m_l_max m + 1 -> 
    for_ l (fun l '(dPhi1, ao, po) =>
          w <- rd (m_A1_weights m) l ;;
          e <- rd (tab (m_l_max m + 1) (mult m)) l ;;
          dPhi1 <- dgemm_nt (2*l+1) (e*K) K Ab ao K w 0 K dPhi1 po (e*K) ;;
          Some (dPhi1, (ao + (2*l+1)*K)%nat, (po + (2*l+1)*e*K)%nat)) (pre ++ seg ++ post, i*lms*K, i*NL*K) =
    (A <- st l ;; Some (A, (i*lms + l*l)*K, i*NL*K + moff m l*K))).
  { induction l as [|l IH]; intros Hl.
    - change (moff m 0) with 0. unfold st. cbn. rewrite !Nat.add_0_r. reflexivity.
    - unfold st in *. rewrite !for_S, IH by lia. 
      destruct (for_ l _ (pre ++ seg ++ post)) as [A|]; cbn [bind]; auto.
      rewrite (rd_some _ l []) by (pose proof (mw_A1a _ W); lia). rewrite rd_tab by lia. cbn [bind].
      destruct (dgemm_nt _ _ _ _ _ _ _ _ _ _ _) as [A'|]; cbn [bind]; auto. rewrite moff_S. f_equal. apply pair_eq; [apply pair_eq|]; auto; lia. }
  rewrite G by auto. unfold st. rewrite SW1 by auto. reflexivity.
Qed.
End S7.
