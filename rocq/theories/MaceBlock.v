(** A block of nodes that has no edges from or to the rest of a system evaluates as if it were alone. *)
From Coq Require Import List Arith ZArith Lia Bool.
From Verif Require Import Base BaseLemmas Segs BlasLemmas MpModel MpProofs MlpModel ZblModel MaceModel Sys SysLoops MaceGrid
  MacePure MaceStages1 MaceStages4 MaceStages6 MaceStages7 MaceStages8 MacePipe MaceHsrc.
Import ListNotations.

Section Block.
Context {N : Num}.
Variable sph : nat -> N -> N -> N -> list N * list N.
Variable m : mace_model N.
Hypothesis W : mace_wf m.
Variables (P0 P1 : nat -> @mpoly N).
Variable fe : list N -> N.
Variable fg : list N -> nat -> N.
Variables s s' : sys N.
Variable o : nat.
Notation n := (length s).
Notation n' := (length s').
Notation K := (m_num_channels m).
Notation lms := (num_lm m).
Notation LMs := (num_LM m).
Notation NPs := (length (paths m)).

Definition sh (e : edge N) : edge N := mkEdge (e_type e) (o + e_idx e) (e_x e) (e_y e) (e_z e) (e_r e).
Hypothesis Hle : o + n <= n'.
Hypothesis Hty : forall i, i < n -> ty s' (o + i) = ty s i.
Hypothesis Hes : forall i, i < n -> es s' (o + i) = map sh (es s i).
Hypothesis Hix : forall i e, i < n -> In e (es s i) -> e_idx e < n.
Hypothesis Hix' : forall i e, i < n' -> In e (es s' i) -> e_idx e < n'.
Hypothesis Hout : forall i e, i < n' -> i < o \/ o + n <= i -> In e (es s' i) -> e_idx e < o \/ o + n <= e_idx e.

Lemma R0v_b i e p : i < n -> R0v m s' (o + i) (sh e) p = R0v m s i e p.
Proof. intros Hi. unfold R0v. rewrite Hty by auto. reflexivity. Qed.
Lemma R0d_b i e p : i < n -> R0d m s' (o + i) (sh e) p = R0d m s i e p.
Proof. intros Hi. unfold R0d. rewrite Hty by auto. reflexivity. Qed.
Lemma R1v_b i e p : i < n -> R1v m s' (o + i) (sh e) p = R1v m s i e p.
Proof. intros Hi. unfold R1v. rewrite Hty by auto. reflexivity. Qed.
Lemma R1d_b i e p : i < n -> R1d m s' (o + i) (sh e) p = R1d m s i e p.
Proof. intros Hi. unfold R1d. rewrite Hty by auto. reflexivity. Qed.

Lemma zE_b i : i < n -> zE m s' (o + i) = zE m s i.
Proof.
  intros Hi. unfold zE. destruct (m_has_zbl m); [|reflexivity]. rewrite Hes, nfold_map by auto. apply nfold_ext.
  intros e _. rewrite Hty by auto. reflexivity.
Qed.
Lemma zF_b i e a : i < n -> zF m s' (o + i) (sh e) a = zF m s i e a.
Proof. intros Hi. unfold zF. destruct (m_has_zbl m); [|reflexivity]. rewrite Hty by auto. reflexivity. Qed.

Lemma sc0_b i : i < n -> sc0 m s' (o + i) = sc0 m s i.
Proof. intros Hi. unfold sc0. rewrite Hes, nfold_map by auto. apply nfold_ext. intros e _. rewrite Hty by auto. reflexivity. Qed.
Lemma sc1_b i : i < n -> sc1 m s' (o + i) = sc1 m s i.
Proof. intros Hi. unfold sc1. rewrite Hes, nfold_map by auto. apply nfold_ext. intros e _. rewrite Hty by auto. reflexivity. Qed.

Lemma odivs_b fl (sc sc' : nat -> N) f f' i lm k : sc' (o + i) = sc i -> f' (o + i) lm k = f i lm k ->
  odivs fl sc' f' (o + i) lm k = odivs fl sc f i lm k.
Proof. intros E1 E2. unfold odivs, divs. destruct fl; congruence. Qed.

Notation pA0s := (pA0 sph m).
Lemma pA0_b i lm k : i < n -> pA0 sph m s' (o + i) lm k = pA0 sph m s i lm k.
Proof.
  intros Hi. unfold pA0. apply odivs_b; [apply sc0_b; auto|]. unfold mulW0. apply nsum_ext. intros q Hq.
  rewrite Hty by auto. f_equal. unfold phi0. rewrite Hes, nfold_map by auto. apply nfold_ext. intros e _.
  rewrite R0v_b by auto. reflexivity.
Qed.

Lemma xcol_b (A A' : nat -> nat -> nat -> N) i k : (forall lm, lm < lms -> A' (o + i) lm k = A i lm k) ->
  xcol m A' (o + i) k = xcol m A i k.
Proof. intros H. unfold xcol. apply tab_ext. exact H. Qed.

Lemma pM0_b i L k : i < n -> pM0 sph m P0 s' (o + i) L k = pM0 sph m P0 s i L k.
Proof.
  intros Hi. unfold pM0, m0. rewrite Hty by auto. f_equal. apply xcol_b. intros; apply pA0_b; auto.
Qed.
Lemma pH1_b i L k : i < n -> pH1 sph m P0 s' (o + i) L k = pH1 sph m P0 s i L k.
Proof. intros Hi. unfold pH1, mulH1. apply nsum_ext. intros q Hq. rewrite pM0_b by auto. reflexivity. Qed.

Lemma pP1r_b i c k : i < n -> pP1r sph m P0 s' (o + i) c k = pP1r sph m P0 s i c k.
Proof.
  intros Hi. unfold pP1r, phi1r. rewrite Hes, nfold_map by auto. apply nfold_ext. intros e He.
  rewrite R1v_b by auto. f_equal. cbn [sh e_idx]. apply pH1_b. eauto.
Qed.
Lemma pP1_b i a k : i < n -> pP1 sph m P0 s' (o + i) a k = pP1 sph m P0 s i a k.
Proof. intros Hi. unfold pP1, phi1. apply nfold_ext. intros p _. rewrite pP1r_b by auto. reflexivity. Qed.
Lemma pA1_b i lm k : i < n -> pA1 sph m P0 s' (o + i) lm k = pA1 sph m P0 s i lm k.
Proof.
  intros Hi. unfold pA1. apply odivs_b; [apply sc1_b; auto|]. unfold a1raw. cbv zeta. apply nsum_ext. intros q _.
  rewrite pP1_b by auto. reflexivity.
Qed.
Lemma pM1_b i k : i < n -> pM1 sph m P0 P1 s' (o + i) k = pM1 sph m P0 P1 s i k.
Proof. intros Hi. unfold pM1, m1. rewrite Hty by auto. f_equal. apply xcol_b. intros; apply pA1_b; auto. Qed.
Lemma pH2_b i k : i < n -> pH2 sph m P0 P1 s' (o + i) k = pH2 sph m P0 P1 s i k.
Proof.
  intros Hi. unfold pH2, h2. rewrite Hty by auto. f_equal; apply nsum_ext; intros q _.
  - rewrite pH1_b by auto. reflexivity.
  - rewrite pM1_b by auto. reflexivity.
Qed.
Lemma pE_b i : i < n -> pE sph m P0 P1 fe s' (o + i) = pE sph m P0 P1 fe s i.
Proof.
  intros Hi. unfold pE, en. rewrite zE_b, Hty by auto. f_equal.
  - apply nfold_ext. intros k _. rewrite pH1_b by auto. reflexivity.
  - f_equal. apply tab_ext. intros. apply pH2_b; auto.
Qed.

Lemma qH2_b i k : i < n -> qH2 sph m P0 P1 fg s' (o + i) k = qH2 sph m P0 P1 fg s i k.
Proof. intros Hi. unfold qH2. f_equal. apply tab_ext. intros. apply pH2_b; auto. Qed.
Lemma qH1a_b i L k : i < n -> qH1a sph m P0 P1 fg s' (o + i) L k = qH1a sph m P0 P1 fg s i L k.
Proof.
  intros Hi. unfold qH1a, rH2n, rH2h, ra1. rewrite Hty by auto.
  destruct (Nat.ltb_spec (o + i) n'); [|lia]. destruct (Nat.ltb_spec i n); [|lia]. cbn [andb].
  destruct (L =? 0); [|reflexivity]. f_equal. apply nsum_ext. intros q _. rewrite qH2_b by auto. reflexivity.
Qed.
Lemma qM1_b i k : i < n -> qM1 sph m P0 P1 fg s' (o + i) k = qM1 sph m P0 P1 fg s i k.
Proof. intros Hi. unfold qM1, rH2m. apply nsum_ext. intros q _. rewrite qH2_b by auto. reflexivity. Qed.
Lemma qA1r_b i lm k : i < n -> qA1r sph m P0 P1 fg s' (o + i) lm k = qA1r sph m P0 P1 fg s i lm k.
Proof.
  intros Hi. unfold qA1r, rm1, g1. rewrite qM1_b, Hty by auto.
  rewrite (xcol_b (pA1 sph m P0 s) (pA1 sph m P0 s')) by (intros; apply pA1_b; auto). reflexivity.
Qed.
Lemma dotlk_b f f' g g' i : (forall lm k, f' (o + i) lm k = f i lm k) -> (forall lm k, g' (o + i) lm k = g i lm k) ->
  dotlk m f' g' (o + i) = dotlk (N:=N) m f g i.
Proof. intros E1 E2. unfold dotlk. apply nsum_ext. intros p _. rewrite E1, E2. reflexivity. Qed.
Lemma ofsc_b fl sp sc sc' dot dot' F F' i e a : i < n -> sc' (o + i) = sc i -> dot' (o + i) = dot i ->
  F' (o + i) (sh e) a = F i e a -> ofsc s' fl sp sc' dot' F' (o + i) (sh e) a = ofsc (N:=N) s fl sp sc dot F i e a.
Proof.
  intros Hi E1 E2 E3. unfold ofsc, fsc. destruct fl; [|exact E3]. rewrite E1, E2, E3, Hty by auto. reflexivity.
Qed.
Lemma qF1_b i e a : i < n -> qF1 sph m P0 P1 fg s' (o + i) (sh e) a = qF1 sph m P0 P1 fg s i e a.
Proof.
  intros Hi. unfold qF1. apply ofsc_b; auto; [apply sc1_b; auto| |apply zF_b; auto].
  apply dotlk_b; intros; [apply qA1r_b|apply pA1_b]; auto.
Qed.
Lemma qA1_b i lm k : i < n -> qA1 sph m P0 P1 fg s' (o + i) lm k = qA1 sph m P0 P1 fg s i lm k.
Proof. intros Hi. unfold qA1. apply odivs_b; [apply sc1_b|apply qA1r_b]; auto. Qed.
Lemma rA1f_b A A' i a k : (forall lm k, A' (o + i) lm k = A i lm k) -> rA1f m A' (o + i) a k = rA1f (N:=N) m A i a k.
Proof.
  intros E. unfold rA1f, rA1. f_equal. apply flat_map_ext_in. intros l _. apply flat_map_ext_in. intros mm _.
  apply tab_ext. intros p _. apply nsum_ext. intros q _. rewrite E. reflexivity.
Qed.
Lemma qP1r_b i c k : i < n -> qP1r sph m P0 P1 fg s' (o + i) c k = qP1r sph m P0 P1 fg s i c k.
Proof.
  intros Hi. unfold qP1r, phi1T. apply nfold_ext. intros p _. f_equal. apply rA1f_b. intros; apply qA1_b; auto.
Qed.
Lemma qF2_b i e a : i < n -> In e (es s i) -> qF2 sph m P0 P1 fg s' (o + i) (sh e) a = qF2 sph m P0 P1 fg s i e a.
Proof.
  intros Hi He. unfold qF2, fold1. rewrite qF1_b by auto. apply nfold_ext. intros [c k] _. unfold f1term.
  rewrite qP1r_b, R1d_b, R1v_b by auto. cbn [sh e_idx e_r]. rewrite pH1_b by eauto. reflexivity.
Qed.

(** the edges into the block come from the block, in the same order *)
Lemma flat_map_nil {A B} (g : A -> list B) l : (forall x, In x l -> g x = []) -> flat_map g l = [].
Proof. intros H. induction l as [|x l IH]; simpl; [auto|]. rewrite H, IH; simpl; auto. intros; apply H; simpl; auto. Qed.

Lemma hsrc_b j L : j < n ->
  hsrc m s' (o + j) L = map (fun t => ((o + fst (fst t), sh (snd (fst t))), snd t)) (hsrc m s j L).
Proof.
  intros Hj. unfold hsrc, epairs. rewrite !flat_map_flat_map.
  replace n' with (o + (n + (n' - o - n))) by lia. rewrite !seq_app, !flat_map_app'.
  rewrite flat_map_nil, app_nil_l.
  2:{ intros i Hi. apply in_seq in Hi. rewrite flat_map_map. apply flat_map_nil. intros e He. cbn [snd].
      destruct (Hout i e ltac:(lia) ltac:(lia) He) as [H|H]; destruct (Nat.eqb_spec (e_idx e) (o + j)); auto; lia. }
  rewrite (flat_map_nil _ (seq _ (n' - o - n))), app_nil_r.
  2:{ intros i Hi. apply in_seq in Hi. rewrite flat_map_map. apply flat_map_nil. intros e He. cbn [snd].
      destruct (Hout i e ltac:(lia) ltac:(lia) He) as [H|H]; destruct (Nat.eqb_spec (e_idx e) (o + j)); auto; lia. }
  rewrite flat_map_seq_shift, map_flat_map. cbn [Nat.add]. apply flat_map_ext_in. intros i Hi. apply in_seq in Hi.
  rewrite !flat_map_map, Hes, flat_map_map, map_flat_map by lia. apply flat_map_ext_in. intros e He. cbn [snd fst sh e_idx].
  replace (o + e_idx e =? o + j) with (e_idx e =? j).
  - destruct (e_idx e =? j); [|reflexivity]. rewrite map_map. reflexivity.
  - apply eq_true_iff_eq. rewrite !Nat.eqb_eq. lia.
Qed.

Lemma in_hsrc p c j L : In (p, c) (hsrc m s j L) -> fst p < n /\ In (snd p) (es s (fst p)) /\ c < NPs.
Proof.
  unfold hsrc. intros H. apply in_flat_map in H. destruct H as ([i e] & Hie & H). apply in_epairs in Hie. cbn [snd] in H.
  destruct (e_idx e =? j); [|destruct H]. apply in_map_iff in H. destruct H as (c' & E & Hc). injection E as <- <-.
  unfold csel in Hc. apply filter_In in Hc. destruct Hc as [Hc _]. apply in_seq in Hc. cbn [fst snd]. intuition lia.
Qed.

Lemma qH1_b j L k : j < n -> L < LMs -> k < K -> qH1 sph m P0 P1 fg s' (o + j) L k = qH1 sph m P0 P1 fg s j L k.
Proof.
  intros Hj HL Hk. unfold qH1, qH1l. rewrite !hadds_nth by (auto; lia).
  rewrite qH1a_b, hsrc_b, nfold_map by auto. apply nfold_ext. intros [p c] Hin. cbn [fst snd].
  destruct (in_hsrc _ _ _ _ Hin) as (Hi & He & Hc). rewrite R1v_b, qP1r_b by auto. reflexivity.
Qed.

Lemma qM0_b i L k : i < n -> L < LMs -> k < K -> qM0 sph m P0 P1 fg s' (o + i) L k = qM0 sph m P0 P1 fg s i L k.
Proof.
  intros Hi HL Hk. unfold qM0, mulH1T. apply nsum_ext. intros q Hq. rewrite qH1_b by auto. reflexivity.
Qed.
Lemma qA0r_b i lm k : i < n -> k < K -> qA0r sph m P0 P1 fg s' (o + i) lm k = qA0r sph m P0 P1 fg s i lm k.
Proof.
  intros Hi Hk. unfold qA0r, rm0. apply nfold_ext. intros L HL. apply in_seq in HL.
  rewrite qM0_b by (auto; lia). f_equal. unfold g0. rewrite Hty by auto.
  rewrite (xcol_b (pA0 sph m s) (pA0 sph m s')) by (intros; apply pA0_b; auto). reflexivity.
Qed.
Lemma qF3_b i e a : i < n -> In e (es s i) -> qF3 sph m P0 P1 fg s' (o + i) (sh e) a = qF3 sph m P0 P1 fg s i e a.
Proof.
  intros Hi He. pose proof (mw_K _ W) as HK. unfold qF3. apply ofsc_b; auto; [apply sc0_b; auto| |apply qF2_b; auto].
  unfold dotlk. apply nsum_ext. intros p Hp. rewrite qA0r_b, pA0_b; auto. apply Nat.mod_upper_bound. lia.
Qed.
Lemma qA0_b i lm k : i < n -> k < K -> qA0 sph m P0 P1 fg s' (o + i) lm k = qA0 sph m P0 P1 fg s i lm k.
Proof. intros Hi Hk. unfold qA0. apply odivs_b; [apply sc0_b|apply qA0r_b]; auto. Qed.
Lemma pF_b i e a : i < n -> In e (es s i) -> pF sph m P0 P1 fg s' (o + i) (sh e) a = pF sph m P0 P1 fg s i e a.
Proof.
  intros Hi He. unfold pF, fold0. rewrite qF3_b by auto. apply nfold_ext. intros [lm k] _. unfold f0term.
  assert (E : mulW0T m s' (qA0 sph m P0 P1 fg s') (o + i) lm k = mulW0T m s (qA0 sph m P0 P1 fg s) i lm k).
  { unfold mulW0T. apply nsum_ext. intros q Hq. rewrite qA0_b, Hty by auto. reflexivity. }
  rewrite E, R0d_b, R0v_b by auto. reflexivity.
Qed.
End Block.
