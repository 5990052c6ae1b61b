(** Stages of [MACE]: compute_M0, compute_M1. *)
From Coq Require Import List Arith ZArith Lia Bool.
From Verif Require Import Base BaseLemmas Segs BlasModel BlasLemmas SplineModel MpModel MpProofs MlpModel
  ZblModel MaceModel Sys SysLoops MaceGrid MacePure MaceStages1 MaceStages2 MaceStages4.
Import ListNotations.

Lemma rd_wr_eq {A} (l l' : list A) i v : wr l i v = Some l' -> rd l' i = Some v.
Proof.
  unfold wr, rd. destruct (Nat.ltb_spec i (length l)); [|discriminate]. intros H'. inversion H'.
  rewrite nth_error_upd, Nat.eqb_refl. apply Nat.ltb_lt in H. rewrite H. reflexivity.
Qed.
Lemma rd_wr_ne {A} (l l' : list A) i j v : wr l i v = Some l' -> i <> j -> rd l' j = rd l j.
Proof.
  unfold wr, rd. destruct (Nat.ltb_spec i (length l)); [|discriminate]. intros H' Hn. inversion H'.
  rewrite nth_error_upd. destruct (Nat.eqb_spec i j); [lia|reflexivity].
Qed.

Section S5.
Context {N : Num}.

Lemma live_eval v (p q : @mpoly N) x : mp_live v p q -> length x = v ->
  exists q', mp_evaluate_gradient q x = Some (q', (pval p x, pgrad p x)) /\ mp_live v p q'.
Proof.
  intros ((E1 & E2 & E3 & E4 & E5 & E6 & E7) & Wp & Hv & L1 & L2) Hx.
  assert (Eq : q = set_vals p (mp_nvals q) (mp_nadjs q)).
  { destruct p, q; cbn in *. subst. reflexivity. }
  assert (Wq : mp_wf q).
  { destruct Wp as [w1 w2 w3]. rewrite Eq. constructor; auto. }
  pose proof (evaluate_gradient_ok q Wq x) as H.
  assert (Ev : pval q x = pval p x) by (rewrite Eq; reflexivity).
  assert (Eg : pgrad q x = pgrad p x) by (rewrite Eq; reflexivity).
  rewrite Ev, Eg in H. rewrite H; [|congruence|rewrite <- E5; auto|rewrite <- E5; auto].
  eexists. split; [reflexivity|]. split; [|split; [auto|split; [auto|]]].
  - repeat split; cbn; auto.
  - cbn. rewrite !app_length, !skipn_length, length_vlist, length_blist by auto.
    pose proof (wf_nodes _ Wq). rewrite E5. split; lia.
Qed.

(** strided copies *)
Lemma dcopy_get lms (A : list N) ao K x (f : nat -> N) : length x = lms ->
  (forall lm, lm < lms -> rd A (ao + lm * K) = Some (f lm)) ->
  dcopy lms A ao K x 0 1 = Some (tab lms f).
Proof.
  intros Hx HA. unfold dcopy.
  apply (swr_all lms (for_ lms _)); auto. apply swr_tab. intros j a Hj. rewrite HA by auto. cbn [bind].
  f_equal. lia.
Qed.

Lemma dcopy_put lms (g : list N) (Mg : list N) base K (f : nat -> N) : 1 <= K ->
  (forall lm, lm < lms -> rd g lm = Some (f lm)) ->
  (forall lm, lm < lms -> base + lm * K < length Mg) ->
  exists Mg', dcopy lms g 0 1 Mg base K = Some Mg' /\ length Mg' = length Mg /\
    (forall lm, lm < lms -> rd Mg' (base + lm * K) = Some (f lm)) /\
    (forall p, (forall lm, lm < lms -> p <> base + lm * K) -> rd Mg' p = rd Mg p).
Proof.
  intros HK Hg Hb. unfold dcopy.
  destruct (for_inv (fun j M => length M = length Mg /\
    (forall lm, lm < j -> rd M (base + lm * K) = Some (f lm)) /\
    (forall p, (forall lm, lm < j -> p <> base + lm * K) -> rd M p = rd Mg p)) lms
    (fun p y => u <- rd g (0 + p*1) ;; wr y (base + p*K) u) Mg) as (M & E & L & H1 & H2).
  - repeat split; intros; auto; lia.
  - intros j M Hj (L & H1 & H2). replace (0 + j * 1) with j by lia. rewrite Hg by auto. cbn [bind].
    destruct (wr M (base + j * K) (f j)) as [M'|] eqn:E.
    2:{ rewrite wr_some in E; [discriminate|]. rewrite L. auto. }
    exists M'. split; auto. pose proof (wr_length _ _ _ _ E). repeat split; [congruence| |].
    + intros lm Hlm. destruct (Nat.eq_dec lm j) as [->|Hne]; [eapply rd_wr_eq; eauto|].
      rewrite (rd_wr_ne _ _ _ _ _ E) by nia. apply H1. lia.
    + intros p Hp. rewrite (rd_wr_ne _ _ _ _ _ E); [apply H2; intros; apply Hp; lia|].
      intros Ep. apply (Hp j); lia.
  - exists M. auto.
Qed.

Variable m : mace_model N.
Variable s : sys N.
Notation n := (length s).
Notation T := (length (m_atomic_numbers m)).
Notation K := (m_num_channels m).
Notation lms := (num_lm m).
Notation LMs := (num_LM m).
Hypothesis W : mace_wf m.
Hypothesis Hty : forall i, i < n -> ty s i < T.

Section M0.
Variable P : nat -> @mpoly N.
Variable A : nat -> nat -> nat -> N.
Variable Ab : list N.
Hypothesis HA : nread n Ab lms K A.

(** gradient cell *)
Definition gix i L lm k := i * (LMs * (lms * K)) + (L * (lms * K) + (lm * K + k)).

Lemma gix_inj i L lm k i' L' lm' k' : k < K -> k' < K -> lm < lms -> lm' < lms -> L < LMs -> L' < LMs ->
  gix i L lm k = gix i' L' lm' k' -> i = i' /\ L = L' /\ lm = lm' /\ k = k'.
Proof.
  unfold gix. intros Hk Hk' Hl Hl' HL HL' H.
  assert (B1 : lm * K + k < lms * K) by nia. assert (B1' : lm' * K + k' < lms * K) by nia.
  assert (B2 : L * (lms * K) + (lm * K + k) < LMs * (lms * K)) by nia.
  assert (B2' : L' * (lms * K) + (lm' * K + k') < LMs * (lms * K)) by nia.
  destruct (idx_inj _ _ _ _ _ B2 B2' H) as [E1 H1].
  destruct (idx_inj _ _ _ _ _ B1 B1' H1) as [E2 H2].
  destruct (idx_inj _ _ _ _ _ Hk Hk' H2) as [E3 H3]. auto.
Qed.

Definition Inv0 (b : nat) (st : list (@mpoly N) * list N * list N) : Prop :=
  let '(P0, M0, Mg) := st in
  mps_live lms (T * LMs * K) P P0 /\ length M0 = n * (LMs * K) /\ length Mg = n * (LMs * (lms * K)) /\
  forall i L k, i < n -> L < LMs -> k < K -> i * (LMs * K) + (L * K + k) < b ->
    rd M0 (i * (LMs * K) + (L * K + k)) = Some (m0 m s P A i L k) /\
    forall lm, lm < lms -> rd Mg (gix i L lm k) = Some (g0 m s P A i L lm k).

Lemma step0 i L k P0 M0 Mg x : i < n -> L < LMs -> k < K ->
  Inv0 (i * (LMs * K) + (L * K + k)) (P0, M0, Mg) -> length x = lms ->
  exists P0' M0' Mg' x',
    (x <- dcopy lms Ab (i*lms*K + k) K x 0 1 ;;
     type_i <- rd (f_node_types s) i ;;
     p <- rd P0 (type_i*LMs*K + (L * K + k))%nat ;;
     '(p, (f, g)) <- mp_evaluate_gradient p x ;;
     P0 <- wr P0 (type_i*LMs*K + (L * K + k))%nat p ;;
     M0 <- wr M0 (i*LMs*K + (L * K + k))%nat f ;;
     M0_grad <- dcopy lms g 0 1 Mg (i*LMs*K*lms + (L*lms*K + k)) K ;;
     Some (P0, M0, M0_grad, x, (L * K + k + 1)%nat)) = Some (P0', M0', Mg', x', L * K + k + 1) /\
    Inv0 (S (i * (LMs * K) + (L * K + k))) (P0', M0', Mg') /\ length x' = lms.
Proof.
  intros Hi HL Hk (HP & L0 & Lg & Hd) Hx. pose proof (mw_K _ W) as HK.
  rewrite (dcopy_get lms Ab _ K x (fun lm => A i lm k)); auto.
  2:{ intros lm Hlm. apply (HA i lm k); auto. nia. }
  cbn [bind]. rewrite rd_ty by auto. cbn [bind]. fold (xcol m A i k). pose proof (Hty i Hi) as Ht.
  assert (Hix : ty s i * LMs * K + (L * K + k) < T * LMs * K).
  { assert (L * K + k < LMs * K) by nia. nia. }
  destruct (HP _ Hix) as (p & Ep & Hp). rewrite Ep. cbn [bind].
  destruct (live_eval lms _ p (xcol m A i k) Hp (length_tab _ _)) as (p' & Ee & Hp').
  rewrite Ee. cbn [bind].
  pose proof (rd_lt _ _ _ Ep) as Hlt.
  destruct (wr P0 _ p') as [P0'|] eqn:EP; [|rewrite wr_some in EP by auto; discriminate]. cbn [bind].
  assert (Hc : i * (LMs * K) + (L * K + k) < n * (LMs * K)).
  { assert (L * K + k < LMs * K) by nia. nia. }
  replace (i * LMs * K + (L * K + k)) with (i * (LMs * K) + (L * K + k)) by lia.
  destruct (wr M0 _ _) as [M0'|] eqn:EM; [|rewrite wr_some in EM by lia; discriminate]. cbn [bind].
  destruct (dcopy_put lms (pgrad (P (ty s i * LMs * K + (L * K + k))) (xcol m A i k)) Mg
     (i * LMs * K * lms + (L * lms * K + k)) K (fun lm => g0 m s P A i L lm k)) as (Mg' & Ed & Ld & D1 & D2); auto.
  { intros lm Hlm. unfold g0, at_. apply rd_some. rewrite length_pgrad; [|apply Hp].
    destruct Hp as (_ & _ & Hv & _). rewrite Hv. auto. }
  { intros lm Hlm. rewrite Lg.
    assert (lm * K + k < lms * K) by nia. assert (L * (lms * K) + (lm * K + k) < LMs * (lms * K)) by nia. nia. }
  rewrite Ed. cbn [bind]. do 4 eexists. split; [reflexivity|]. split; [|apply length_tab].
  repeat split.
  - intros q Hq. destruct (Nat.eq_dec q (ty s i * LMs * K + (L * K + k))) as [->|Hne].
    + exists p'. split; [eapply rd_wr_eq; eauto|auto].
    + destruct (HP q Hq) as (pq & Eq & Hpq). exists pq. split; auto.
      rewrite (rd_wr_ne _ _ _ _ _ EP); auto.
  - rewrite (wr_length _ _ _ _ EM). auto.
  - congruence.
  - destruct (Nat.eq_dec (i * (LMs * K) + (L * K + k)) (i0 * (LMs * K) + (L1 * K + k0))) as [E|E].
    + rewrite <- E. rewrite (rd_wr_eq _ _ _ _ EM).
      assert (B : L * K + k < LMs * K) by nia. assert (B' : L1 * K + k0 < LMs * K) by nia.
      destruct (idx_inj _ _ _ _ _ B B' E) as [-> E'].
      destruct (idx_inj _ _ _ _ _ Hk H1 E') as [-> ->]. reflexivity.
    + rewrite (rd_wr_ne _ _ _ _ _ EM) by auto. apply Hd; auto. lia.
  - intros lm Hlm. destruct (Nat.eq_dec (i * (LMs * K) + (L * K + k)) (i0 * (LMs * K) + (L1 * K + k0))) as [E|E].
    + assert (B : L * K + k < LMs * K) by nia. assert (B' : L1 * K + k0 < LMs * K) by nia.
      destruct (idx_inj _ _ _ _ _ B B' E) as [<- E'].
      destruct (idx_inj _ _ _ _ _ Hk H1 E') as [<- <-].
      rewrite <- (D1 lm Hlm). f_equal. unfold gix. lia.
    + rewrite D2; [apply Hd; auto; lia|]. intros lm' Hlm' Eq.
      replace (i * LMs * K * lms + (L * lms * K + k) + lm' * K) with (gix i L lm' k) in Eq by (unfold gix; lia).
      apply gix_inj in Eq; auto. destruct Eq as (-> & -> & _ & ->). lia.
Qed.

Lemma compute_M0_ok P0 M0 Mg : mps_live lms (T * LMs * K) P P0 ->
  exists P0' Mg', compute_M0 m n (f_node_types s) Ab P0 M0 Mg =
    Some (P0', cube n LMs K (m0 m s P A), Mg') /\ mps_live lms (T * LMs * K) P P0' /\
    forall i L lm k, i < n -> L < LMs -> lm < lms -> k < K -> rd Mg' (gix i L lm k) = Some (g0 m s P A i L lm k).
Proof.
  intros HP. unfold compute_M0.
  match goal with |- context [for_ n ?body ?st] =>
    destruct (for_inv (fun i st0 => Inv0 (i * (LMs * K)) st0) n body st) as (st' & E & H) end.
  - split; [exact HP|]. split; [rewrite length_resize; lia|]. split; [rewrite length_resize; lia|].
    intros; lia.
  - intros i [[P0' M0'] Mg'] Hi HI.
    match goal with |- context [for_ LMs ?body ?st] =>
      destruct (for_inv (fun L '(P0, M0, Mg, x, lmk) => Inv0 (i * (LMs * K) + L * K) (P0, M0, Mg) /\
          length x = lms /\ lmk = L * K) LMs body st) as (st' & E & H) end.
    + split; [|split; [apply repeat_length|reflexivity]].
      replace (i * (LMs * K) + 0 * K) with (i * (LMs * K)) by lia. exact HI.
    + intros L [[[[P1 M1] G1] x1] c1] HL (HI1 & Hx1 & ->).
      match goal with |- context [for_ K ?body ?st] =>
        destruct (for_inv (fun k '(P0, M0, Mg, x, lmk) => Inv0 (i * (LMs * K) + (L * K + k)) (P0, M0, Mg) /\
          length x = lms /\ lmk = L * K + k) K body st) as (st' & E & H) end.
      * rewrite Nat.add_0_r. auto.
      * intros k [[[[P2 M2] G2] x2] c2] Hk (HI2 & Hx2 & ->).
        destruct (step0 i L k P2 M2 G2 x2 Hi HL Hk HI2 Hx2) as (P3 & M3 & G3 & x3 & E3 & HI3 & Hx3).
        rewrite E3. eexists. split; [reflexivity|]. cbv beta iota. split; [|split; [auto|lia]].
        replace (i * (LMs * K) + (L * K + S k)) with (S (i * (LMs * K) + (L * K + k))) by lia. auto.
      * exists st'. rewrite E. split; auto. destruct st' as [[[[P3 M3] G3] x3] c3].
        destruct H as (H1 & H2 & ->). split; [|split; [auto|lia]].
        replace (i * (LMs * K) + S L * K) with (i * (LMs * K) + (L * K + K)) by lia. auto.
    + rewrite E. cbn [bind]. destruct st' as [[[[P3 M3] G3] x3] c3]. destruct H as (H1 & H2 & _).
      eexists. split; [reflexivity|].
      replace (S i * (LMs * K)) with (i * (LMs * K) + LMs * K) by lia. auto.
  - destruct st' as [[P' M'] Mg']. destruct H as (H1 & H2 & H3 & H4).
    assert (Hb : forall i L k, i < n -> L < LMs -> k < K -> i * (LMs * K) + (L * K + k) < n * (LMs * K)).
    { intros i L k Hi HL Hk. assert (L * K + k < LMs * K) by nia. nia. }
    exists P', Mg'. split; [|split; auto].
    + rewrite E. do 3 f_equal. rewrite (cube_of_list M' n LMs K nzero H2). apply cube_ext.
      intros i L k Hi HL Hk. apply rd_nth. apply H4; auto.
    + intros i L lm k Hi HL Hlm Hk. apply H4; auto.
Qed.
End M0.

Section M1.
Variable P : nat -> @mpoly N.
Variable A : nat -> nat -> nat -> N.
Variable Ab : list N.
Hypothesis HA : nread n Ab lms K A.

Definition Inv1 (b : nat) (st : list (@mpoly N) * list N * list N) : Prop :=
  let '(P0, M0, Mg) := st in
  mps_live lms (T * K) P P0 /\ length M0 = n * K /\ length Mg = n * K * lms * K /\
  forall i k, i < n -> k < K -> i * K + k < b ->
    rd M0 (i * K + k) = Some (m1 m s P A i k) /\
    forall lm, lm < lms -> rd Mg (i * (lms * K) + (lm * K + k)) = Some (g1 m s P A i lm k).

Lemma step1 i k P0 M0 Mg x : i < n -> k < K ->
  Inv1 (i * K + k) (P0, M0, Mg) -> length x = lms ->
  exists P0' M0' Mg' x',
    (x <- dcopy lms Ab (i*lms*K + k) K x 0 1 ;;
     type_i <- rd (f_node_types s) i ;;
     p <- rd P0 (type_i*K + k)%nat ;;
     '(p, (f, g)) <- mp_evaluate_gradient p x ;;
     P0 <- wr P0 (type_i*K + k)%nat p ;;
     M0 <- wr M0 (i*K + k)%nat f ;;
     M0_grad <- dcopy lms g 0 1 Mg (i*K*lms + k) K ;;
     Some (P0, M0, M0_grad, x)) = Some (P0', M0', Mg', x') /\
    Inv1 (S (i * K + k)) (P0', M0', Mg') /\ length x' = lms.
Proof.
  intros Hi Hk (HP & L0 & Lg & Hd) Hx. pose proof (mw_K _ W) as HK.
  rewrite (dcopy_get lms Ab _ K x (fun lm => A i lm k)); auto.
  2:{ intros lm Hlm. apply (HA i lm k); auto. nia. }
  cbn [bind]. rewrite rd_ty by auto. cbn [bind]. fold (xcol m A i k). pose proof (Hty i Hi) as Ht.
  assert (Hix : ty s i * K + k < T * K) by nia.
  destruct (HP _ Hix) as (p & Ep & Hp). rewrite Ep. cbn [bind].
  destruct (live_eval lms _ p (xcol m A i k) Hp (length_tab _ _)) as (p' & Ee & Hp').
  rewrite Ee. cbn [bind].
  pose proof (rd_lt _ _ _ Ep) as Hlt.
  destruct (wr P0 _ p') as [P0'|] eqn:EP; [|rewrite wr_some in EP by auto; discriminate]. cbn [bind].
  assert (Hc : i * K + k < n * K) by nia.
  destruct (wr M0 _ _) as [M0'|] eqn:EM; [|rewrite wr_some in EM by lia; discriminate]. cbn [bind].
  assert (HlK : lms * K <= K * lms * K) by nia.
  destruct (dcopy_put lms (pgrad (P (ty s i * K + k)) (xcol m A i k)) Mg
     (i * K * lms + k) K (fun lm => g1 m s P A i lm k)) as (Mg' & Ed & Ld & D1 & D2); auto.
  { intros lm Hlm. unfold g1, at_. apply rd_some. rewrite length_pgrad; [|apply Hp].
    destruct Hp as (_ & _ & Hv & _). rewrite Hv. auto. }
  { intros lm Hlm. rewrite Lg.
    assert (lm * K + k < lms * K) by nia.
    assert (i * (lms * K) + (lm * K + k) < n * (lms * K)) by nia.
    assert (n * (lms * K) <= n * (K * lms * K)) by nia. lia. }
  rewrite Ed. cbn [bind]. do 4 eexists. split; [reflexivity|]. split; [|apply length_tab].
  repeat split.
  - intros q Hq. destruct (Nat.eq_dec q (ty s i * K + k)) as [->|Hne].
    + exists p'. split; [eapply rd_wr_eq; eauto|auto].
    + destruct (HP q Hq) as (pq & Eq & Hpq). exists pq. split; auto.
      rewrite (rd_wr_ne _ _ _ _ _ EP); auto.
  - rewrite (wr_length _ _ _ _ EM). auto.
  - congruence.
  - destruct (Nat.eq_dec (i * K + k) (i0 * K + k0)) as [E|E].
    + rewrite <- E. rewrite (rd_wr_eq _ _ _ _ EM).
      destruct (idx_inj _ _ _ _ _ Hk H0 E) as [-> ->]. reflexivity.
    + rewrite (rd_wr_ne _ _ _ _ _ EM) by auto. apply Hd; auto. lia.
  - intros lm Hlm. destruct (Nat.eq_dec (i * K + k) (i0 * K + k0)) as [E|E].
    + destruct (idx_inj _ _ _ _ _ Hk H0 E) as [<- <-].
      rewrite <- (D1 lm Hlm). f_equal. lia.
    + rewrite D2; [apply Hd; auto; lia|]. intros lm' Hlm' Eq.
      replace (i * K * lms + k + lm' * K) with (i * (lms * K) + (lm' * K + k)) in Eq by lia.
      assert (B1 : lm * K + k0 < lms * K) by nia. assert (B1' : lm' * K + k < lms * K) by nia.
      destruct (idx_inj _ _ _ _ _ B1 B1' Eq) as [-> Eq1].
      destruct (idx_inj _ _ _ _ _ H0 Hk Eq1) as [_ ->]. lia.
Qed.

Lemma compute_M1_ok P0 M0 Mg : mps_live lms (T * K) P P0 ->
  exists P0' Mg', compute_M1 m n (f_node_types s) Ab P0 M0 Mg =
    Some (P0', grid n K (m1 m s P A), Mg') /\ mps_live lms (T * K) P P0' /\
    nread n Mg' lms K (g1 m s P A).
Proof.
  intros HP. unfold compute_M1.
  match goal with |- context [for_ n ?body ?st] =>
    destruct (for_inv (fun i st0 => Inv1 (i * K) st0) n body st) as (st' & E & H) end.
  - split; [exact HP|]. split; [rewrite length_resize; lia|]. split; [rewrite length_resize; lia|].
    intros; lia.
  - intros i [[P0' M0'] Mg'] Hi HI.
    match goal with |- context [for_ K ?body ?st] =>
        destruct (for_inv (fun k '(P0, M0, Mg, x) => Inv1 (i * K + k) (P0, M0, Mg) /\
          length x = lms) K body st) as (st' & E & H) end.
    + rewrite Nat.add_0_r. split; auto. apply repeat_length.
    + intros k [[[P2 M2] G2] x2] Hk (HI2 & Hx2).
      destruct (step1 i k P2 M2 G2 x2 Hi Hk HI2 Hx2) as (P3 & M3 & G3 & x3 & E3 & HI3 & Hx3).
      rewrite E3. eexists. split; [reflexivity|]. cbv beta iota. split; auto.
      replace (i * K + S k) with (S (i * K + k)) by lia. auto.
    + rewrite E. cbn [bind]. destruct st' as [[[P3 M3] G3] x3]. destruct H as (H1 & H2).
      eexists. split; [reflexivity|].
      replace (S i * K) with (i * K + K) by lia. auto.
  - destruct st' as [[P' M'] Mg']. destruct H as (H1 & H2 & H3 & H4).
    assert (Hb : forall i k, i < n -> k < K -> i * K + k < n * K) by (intros; nia).
    exists P', Mg'. split; [|split; auto].
    + rewrite E. do 3 f_equal. rewrite (grid_of_list M' n K nzero H2). apply grid_ext.
      intros i k Hi Hk. apply rd_nth. apply H4; auto.
    + intros i lm k q Hi Hlm Hk ->. apply H4; auto.
Qed.
End M1.
End S5.
