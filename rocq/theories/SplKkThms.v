(** Theorems about the Kokkos spline classes.  Used in proofs only. *)
From Coq Require Import List Arith ZArith Bool Lia Reals Lra FunctionalExtensionality.
From Verif Require Import Base BaseLemmas Segs Instances RSums SplineModel SplineProofs SplineR.
From Verif Require Import KkSem KkSound KkWp KkWp2 KkModel KkHost KkTac KkSpec MpKk SplKkModel SplKkSpec SplKk.
Import ListNotations.
Local Open Scope R_scope.

Lemma nth_skipn {A} (l : list A) k q d : nth q (skipn k l) d = nth (k + q) l d.
Proof. revert l. induction k as [|k IH]; intros [|x l]; cbn; auto. destruct q; auto. Qed.
Lemma in_cell h r n : 0 < h -> 0 <= r < h * INR n -> exists i, ntrunc (n:=RNum) (r / h) = Z.of_nat i /\ (i < n)%nat.
Proof.
  intros Hh [H0 H1]. destruct (cell_exists h r Hh H0) as (i & Hi). exists i. split; [apply trunc_cell; auto|eapply cell_lt; eauto].
Qed.

(** ** CubicSplineKokkos *)
Lemma spline_same h vs ds m r : 0 < h -> (2 <= length vs)%nat -> is_spline h vs ds m ->
  kcs_evaluate (N:=RNum) true h m r = cs_evaluate (N:=RNum) (spl (N:=RNum) h vs ds) r /\
  (r < h * INR (length vs - 1) ->
   kcs_evaluate_deriv (N:=RNum) true h m r = cs_evaluate_deriv (N:=RNum) (spl (N:=RNum) h vs ds) r /\
   kcs_evaluate_deriv_divided (N:=RNum) true h m r = cs_evaluate_deriv_divided (N:=RNum) (spl (N:=RNum) h vs ds) r).
Proof.
  intros Hh Hv IS. set (z := ntrunc (n:=RNum) (r / h)).
  destruct (Z_lt_dec z 0) as [Hneg|Hpos].
  - destruct (cs_throws (N:=RNum) h vs ds r (or_introl Hneg)) as (-> & -> & ->).
    destruct (kcs_eval_neg h vs ds m r true IS Hneg) as (-> & ->). rewrite (kcs_eval_out h vs ds m r true IS) by auto. auto.
  - destruct (Z_le_dec (Z.of_nat (length vs - 1)) z) as [Hbig|Hsm].
    + destruct (cs_throws (N:=RNum) h vs ds r (or_intror Hbig)) as (-> & _ & _). rewrite (kcs_eval_out h vs ds m r true IS) by auto.
      split; auto. intros Hr. exfalso.
      destruct (Rle_dec 0 r) as [H0|H0].
      * destruct (in_cell h r _ Hh (conj H0 Hr)) as (i & Ei & Hi). fold z in Ei. lia.
      * destruct (Rle_dec r (- h)) as [H1|H1].
        -- pose proof (trunc_big_neg h r Hh H1) as T. change (z < 0)%Z in T. lia.
        -- pose proof (trunc_small_neg h r Hh ltac:(lra)) as T. change (z = 0%Z) in T.
           lia.
    + assert (Ez : ntrunc (n:=RNum) (r / h) = Z.of_nat (Z.to_nat z)) by (rewrite Z2Nat.id by lia; reflexivity).
      assert (Hi : (Z.to_nat z < length vs - 1)%nat) by lia.
      destruct (kcs_eval_in true h vs ds m r _ IS Ez Hi) as (-> & -> & ->).
      destruct (cs_all_ok (N:=RNum) h vs ds r _ Ez Hi) as (-> & -> & ->).
      split; [reflexivity|]. intros _. split; reflexivity.
Qed.

Lemma lemma_C81 (h : R) (vs ds : list R) (m0 : mem RNum) : 0 < h -> (2 <= length vs)%nat -> length ds = length vs ->
  exists s m, make_spline (N:=RNum) h vs ds = Some s /\ (forall o, hexec (kcs_new (N:=RNum) h vs ds) m0 o <-> o = Some m) /\
    forall r, kcs_evaluate (N:=RNum) true h m r = cs_evaluate (N:=RNum) s r /\
      (r < h * INR (length vs - 1) ->
       kcs_evaluate_deriv (N:=RNum) true h m r = cs_evaluate_deriv (N:=RNum) s r /\
       kcs_evaluate_deriv_divided (N:=RNum) true h m r = cs_evaluate_deriv_divided (N:=RNum) s r).
Proof.
  intros Hh Hv Hd. destruct (hok_exec _ _ _ (kcs_new_hok h vs ds m0 (Nat.le_trans 1 2 _ (le_S 1 1 (le_n 1)) Hv) Hd)) as (m & He & IS).
  exists (spl (N:=RNum) h vs ds), m. split; [apply make_spline_spec; [exact (Nat.le_trans 1 2 _ (le_S 1 1 (le_n 1)) Hv)|exact Hd]|].
  split; auto. intros r. apply spline_same; auto.
Qed.
Lemma length_view (m : mem RNum) b n : dims m b = [n] -> length (kk_view m b) = n.
Proof. intros D. unfold kk_view, extent. rewrite map_length, seq_length, D. reflexivity. Qed.
Lemma lemma_C81_views (h : R) (n : nat) (m0 : mem RNum) : 0 < h -> (2 <= n)%nat -> dims m0 sV = [n] -> dims m0 sD = [n] ->
  exists s m, make_spline (N:=RNum) h (kk_view m0 sV) (kk_view m0 sD) = Some s /\
    (forall o, hexec (kcs_new_views (N:=RNum) h n) m0 o <-> o = Some m) /\
    forall r, kcs_evaluate (N:=RNum) true h m r = cs_evaluate (N:=RNum) s r /\
      (r < h * INR (n - 1) ->
       kcs_evaluate_deriv (N:=RNum) true h m r = cs_evaluate_deriv (N:=RNum) s r /\
       kcs_evaluate_deriv_divided (N:=RNum) true h m r = cs_evaluate_deriv_divided (N:=RNum) s r).
Proof.
  intros Hh Hv D1 D2. destruct (hok_exec _ _ _ (kcs_new_views_hok h n m0 (Nat.le_trans 1 2 _ (le_S 1 1 (le_n 1)) Hv) D1 D2)) as (m & He & IS).
  pose proof (length_view m0 sV n D1) as L1. pose proof (length_view m0 sD n D2) as L2.
  exists (spl (N:=RNum) h (kk_view m0 sV) (kk_view m0 sD)), m. split; [apply make_spline_spec; [refine (eq_ind_r (fun k => (1 <= k)%nat) _ L1); lia|exact (eq_trans L2 (eq_sym L1))]|].
  split; auto. intros r. rewrite <- L1. apply spline_same; auto. rewrite L1. auto.
Qed.
Lemma lemma_C81_device (h : R) (vs ds : list R) (m0 : mem RNum) : 0 < h -> (2 <= length vs)%nat -> length ds = length vs ->
  exists m, (forall o, hexec (kcs_new (N:=RNum) h vs ds) m0 o <-> o = Some m) /\
    forall r, 0 <= r < h * INR (length vs - 1) ->
      kcs_evaluate (N:=RNum) false h m r = SplineModel.Ret 0 /\ kcs_evaluate_deriv (N:=RNum) false h m r = SplineModel.Ret (0, 0) /\
      kcs_evaluate_deriv_divided (N:=RNum) false h m r = SplineModel.Ret (0, 0).
Proof.
  intros Hh Hv Hd. destruct (hok_exec _ _ _ (kcs_new_hok h vs ds m0 (Nat.le_trans 1 2 _ (le_S 1 1 (le_n 1)) Hv) Hd)) as (m & He & IS).
  exists m. split; auto. intros r Hr. destruct (in_cell h r _ Hh Hr) as (i & Ei & Hi).
  destruct (kcs_eval_in false h vs ds m r i IS Ei Hi) as (-> & -> & ->). cbv zeta beta iota.
  set (x := r - h * IZR (Z.of_nat i)).
  replace (0 + 0 * x + 0 * (x * x) + 0 * (x * x * x)) with 0 by ring. replace (0 + 2 * 0 * x + 3 * 0 * (x * x)) with 0 by ring.
  replace (0 / r) with 0 by (unfold Rdiv; ring). auto.
Qed.

(** ** CubicSplineSetKokkos *)
Lemma copy_ok (m : mem RNum) dst src : dims m dst = dims m src ->
  copy_view dst src m = Some (set_view m dst (dims m dst) (fun idx => val m (src, idx))).
Proof. intros E. unfold copy_view. destruct (list_eq_dec Nat.eq_dec (dims m dst) (dims m src)); [reflexivity|contradiction]. Qed.
Section Set_.
Variables (h : R) (vs ds : list (list R)) (n : nat).
Notation num := (length vs).
Notation s := (mkKss (N:=RNum) h n num).
Notation S := (splset (N:=RNum) h vs ds n).
Hypothesis Hh : 0 < h.

Lemma split_list (a : list R) k : (k <= length a)%nat -> a = [] ++ firstn k a ++ skipn k a /\ length (firstn k a) = k.
Proof. intros H. split; [cbn [app]; symmetry; apply firstn_skipn|]. apply firstn_length_le. auto. Qed.
Lemma cpu_eval r i (a : list R) : ntrunc (n:=RNum) (r / h) = Z.of_nat i -> (i < n - 1)%nat -> (num <= length a)%nat ->
  css_evaluate (N:=RNum) S r a 0 = Some (tab num (fun j => pval (N:=RNum) h (srow (N:=RNum) vs j) (srow (N:=RNum) ds j) i (r - h * INR i)) ++ skipn num a).
Proof.
  intros E Hi Ha. destruct (split_list a num Ha) as [A B]. rewrite A at 1.
  etransitivity; [apply (css_evaluate_ok (N:=RNum) h vs ds n r i [] (firstn num a) (skipn num a) E Hi B)|].
  cbn [app]. rewrite INR_IZR_INZ. reflexivity.
Qed.
Lemma cpu_derivs r i (a b : list R) : ntrunc (n:=RNum) (r / h) = Z.of_nat i -> (i < n - 1)%nat -> (num <= length a)%nat -> (num <= length b)%nat ->
  css_evaluate_derivs (N:=RNum) S r a 0 b 0 =
    Some (tab num (fun j => sval (N:=RNum) h (srow (N:=RNum) vs j) (srow (N:=RNum) ds j) i (r - h * INR i)) ++ skipn num a,
          tab num (fun j => sder (N:=RNum) h (srow (N:=RNum) vs j) (srow (N:=RNum) ds j) i (r - h * INR i)) ++ skipn num b).
Proof.
  intros E Hi Ha Hb. destruct (split_list a num Ha) as [A B]. destruct (split_list b num Hb) as [A' B']. rewrite A at 1. rewrite A' at 1.
  etransitivity; [apply (css_evaluate_derivs_ok (N:=RNum) h vs ds n r i [] (firstn num a) (skipn num a) [] (firstn num b) (skipn num b) E Hi B B')|].
  cbn [app]. rewrite INR_IZR_INZ. reflexivity.
Qed.
Lemma view_skip (m : mem RNum) b (a : list R) (f : nat -> R) : dims m b = [length a] -> (num <= length a)%nat ->
  (forall j, (j < num)%nat -> va m (b, [j]) = f j) -> (forall j, (num <= j)%nat -> va m (b, [j]) = nth j a 0) ->
  kk_view m b = tab num f ++ skipn num a.
Proof.
  intros D Hk H1 H2. apply (list_eq_nth _ _ 0).
  - rewrite (length_view m b _ D), app_length, length_tab, skipn_length. lia.
  - intros i Hi. rewrite (length_view m b _ D) in Hi.
    rewrite (view_tab m b (length a) (fun j => va m (b, [j])) D) by auto. rewrite nth_tab by auto.
    destruct (lt_dec i num) as [L|L].
    + rewrite app_nth1 by (rewrite length_tab; auto). rewrite nth_tab by auto. auto.
    + rewrite app_nth2 by (rewrite length_tab; lia). rewrite length_tab, nth_skipn. rewrite H2 by lia. f_equal. lia.
Qed.
Lemma row_skip (f g : list nat -> R) w i (F : nat -> R) : (num <= w)%nat ->
  (forall j, (j < num)%nat -> f [i; j] = F j) -> (forall j, (num <= j)%nat -> f [i; j] = g [i; j]) ->
  row_of f w i = tab num F ++ skipn num (row_of g w i).
Proof.
  intros Hw H1 H2. unfold row_of. change (map (fun j => f [i; j]) (seq 0 w)) with (tab w (fun j => f [i; j])).
  change (map (fun j => g [i; j]) (seq 0 w)) with (tab w (fun j => g [i; j])).
  apply (list_eq_nth _ _ 0).
  - rewrite app_length, skipn_length, !length_tab. lia.
  - intros j Hj. rewrite length_tab in Hj. rewrite nth_tab by auto. destruct (lt_dec j num) as [L|L].
    + rewrite app_nth1 by (rewrite length_tab; auto). rewrite nth_tab by auto. auto.
    + rewrite app_nth2 by (rewrite length_tab; lia). rewrite length_tab, nth_skipn. rewrite nth_tab by lia.
      replace (num + (j - num))%nat with j by lia. apply H2. lia.
Qed.
Lemma as_view_set m b (l : list R) : b <> sC -> is_set h vs ds n m ->
  is_set h vs ds n (set_view (N:=RNum) m b [length l] (fun idx => nth (nth 0 idx 0%nat) l 0)).
Proof.
  intros Hb (D & V). split.
  - cbn [set_view dims]. destruct (buf_dec b sC); [congruence|]. auto.
  - intros i q j Hi Hq Hj. unfold va. cbn [set_view val fst]. destruct (buf_dec b sC); [congruence|]. apply V; auto.
Qed.
Lemma set_set m b ext v : b <> sC -> is_set h vs ds n m -> is_set h vs ds n (set_view (N:=RNum) m b ext v).
Proof.
  intros Hb (D & V). split.
  - cbn [set_view dims]. destruct (buf_dec b sC); [congruence|]. auto.
  - intros i q j Hi Hq Hj. unfold va. cbn [set_view val fst]. destruct (buf_dec b sC); [congruence|]. apply V; auto.
Qed.
Lemma call_hok host c m : kss_call_ok host h n num c -> is_set h vs ds n m ->
  hok (kss_cmds host s c) m (fun m' => is_set h vs ds n m' /\ kss_same S c m').
Proof.
  destruct c as [r a|r a b|rs k w a b|r a|r a b]; cbn [kss_call_ok kss_cmds kss_same].
  - intros (Hr & Ha) IS. destruct (in_cell h r _ Hh Hr) as (i & Ei & Hi).
    apply hok_hop. apply hok_run.
    apply (evaluate_wp h vs ds n r i sOv (length a)); auto; try discriminate.
    intros m' IS' D O V T. apply hok_nil. split; auto. rewrite (cpu_eval r i) by auto. f_equal. symmetry.
    apply view_skip; [rewrite D; reflexivity|auto|auto|]. intros j Hj. rewrite T by auto. reflexivity.
  - intros (Hr & Ha & Hb) IS. destruct (in_cell h r _ Hh Hr) as (i & Ei & Hi).
    apply hok_hop. apply hok_hop. apply hok_run.
    apply (derivs_wp h vs ds n r i sOv sOd (length a) (length b)); auto; try discriminate.
    intros m' IS' D O V T V' T'. apply hok_nil. split; auto. rewrite (cpu_derivs r i) by auto. apply f_equal. symmetry. apply f_equal2.
    + apply view_skip; [rewrite D; reflexivity|auto|auto|]. intros j Hj. rewrite T by auto. reflexivity.
    + apply view_skip; [rewrite D; reflexivity|auto|auto|]. intros j Hj. rewrite T' by auto. reflexivity.
  - intros (Hr & Hk & Hw) IS.
    assert (HC : forall i, (i < length rs)%nat -> ntrunc (n:=RNum) (nth i rs 0 / h) = Z.of_nat (Z.to_nat (ntrunc (n:=RNum) (nth i rs 0 / h))) /\
      (Z.to_nat (ntrunc (n:=RNum) (nth i rs 0 / h)%R) < n - 1)%nat).
    { intros i Hi. destruct (in_cell h (nth i rs 0) _ Hh (Hr _ (nth_In _ _ Hi))) as (q & Eq & Hq). rewrite Eq, Nat2Z.id. auto. }
    apply hok_hop. apply hok_hop. apply hok_run.
    apply (many_wp h vs ds n rs (fun i => Z.to_nat (ntrunc (n:=RNum) (nth i rs 0 / h))) k w); auto; try discriminate.
    intros m' IS' D V T. apply hok_nil. split; auto. split.
    + intros i Hi. destruct (HC i Hi) as [E Hc].
      assert (L : forall f, length (row_of f w i) = w) by (intros f; unfold row_of; rewrite map_length, seq_length; auto).
      rewrite (cpu_derivs _ _ _ _ E Hc) by (rewrite L; auto). apply f_equal. symmetry. apply f_equal2.
      * apply row_skip; [auto|intros j Hj; apply V; auto|]. intros j Hj. apply (T i j). auto.
      * apply row_skip; [auto|intros j Hj; apply V; auto|]. intros j Hj. apply (T i j). auto.
    + intros i [Hi _]. unfold row_of. split; apply map_ext; intros j; apply (T i j); auto.
  - intros (-> & Hr & Ha) IS. destruct (in_cell h r _ Hh Hr) as (i & Ei & Hi).
    unfold kss_evaluate_span. apply hok_hop. apply hok_hop.
    eapply hok_op. { apply copy_ok. reflexivity. }
    apply hok_run.
    apply (evaluate_wp h vs ds n r i sTv (length a)); auto; try discriminate.
    intros m' IS' D O V T. eapply hok_op.
    { apply copy_ok. rewrite D. reflexivity. }
    apply hok_nil. split; [apply set_set; [discriminate|auto]|]. rewrite (cpu_eval r i) by auto. f_equal. symmetry.
    apply view_skip; [change (dims m' sOv = [length a]); rewrite D; reflexivity|auto| |].
    + intros j Hj. rewrite <- V by auto. reflexivity.
    + intros j Hj. etransitivity; [|etransitivity; [apply (T j Hj)|reflexivity]]. reflexivity.
  - intros (-> & Hr & Ha & Hb) IS. destruct (in_cell h r _ Hh Hr) as (i & Ei & Hi).
    unfold kss_evaluate_derivs_span. apply hok_hop. apply hok_hop. apply hok_hop. apply hok_hop.
    eapply hok_op. { apply copy_ok. reflexivity. }
    eapply hok_op. { apply copy_ok. reflexivity. }
    apply hok_run.
    apply (derivs_wp h vs ds n r i sTv sTd (length a) (length b)); auto; try discriminate.
    intros m' IS' D O V T V' T'. eapply hok_op.
    { apply copy_ok. rewrite D. reflexivity. }
    eapply hok_op. { apply copy_ok. change (dims m' sOd = dims m' sTd). rewrite D. reflexivity. }
    apply hok_nil. split; [do 2 (apply set_set; [discriminate|]); auto|]. rewrite (cpu_derivs r i) by auto. apply f_equal. symmetry. apply f_equal2.
    + apply view_skip; [change (dims m' sOv = [length a]); rewrite D; reflexivity|auto| |].
      * intros j Hj. rewrite <- V by auto. reflexivity.
      * intros j Hj. etransitivity; [|etransitivity; [apply (T j Hj)|reflexivity]]. reflexivity.
    + apply view_skip; [change (dims m' sOd = [length b]); rewrite D; reflexivity|auto| |].
      * intros j Hj. rewrite <- V' by auto. reflexivity.
      * intros j Hj. etransitivity; [|etransitivity; [apply (T' j Hj)|reflexivity]]. reflexivity.
Qed.
End Set_.
Lemma calls_hok h vs ds n host : 0 < h -> forall l m, (forall c, In c l -> kss_call_ok host h n (length vs) c) -> is_set h vs ds n m ->
  hok (flat_map (kss_cmds host (mkKss (N:=RNum) h n (length vs))) l) m (is_set h vs ds n).
Proof.
  intros Hh. induction l as [|c l IH]; intros m Hl IS; cbn [flat_map]; [exact IS|].
  apply hok_app. eapply hok_conseq; [apply (call_hok h vs ds n Hh host c); auto; apply Hl; left; auto|].
  cbn beta. intros m' [IS' _]. apply IH; auto. intros d Hd. apply Hl. right. auto.
Qed.
Lemma kss_of_ok (h : R) (vs : list (list R)) n : (1 <= length vs)%nat -> rect (N:=RNum) vs n ->
  kss_of (N:=RNum) h vs = Some (mkKss (N:=RNum) h n (length vs)).
Proof. intros Hl Hr. unfold kss_of. destruct (rect_rd (N:=RNum) vs n 0 Hr Hl) as [-> L]. cbn [bind]. rewrite L. reflexivity. Qed.
Lemma lemma_C82 host (h : R) (vs ds : list (list R)) n : 0 < h -> (1 <= n)%nat -> (1 <= length vs)%nat -> length ds = length vs ->
  (forall row, In row vs -> length row = n) -> (forall row, In row ds -> length row = n) ->
  exists S s, make_spline_set (N:=RNum) h vs ds = Some S /\ kss_of (N:=RNum) h vs = Some s /\
  forall m l c, (forall d, In d l -> kss_call_ok host h n (length vs) d) -> kss_call_ok host h n (length vs) c ->
  exists m0 m1, (forall o, hexec (kss_new (N:=RNum) host s vs ds ++ flat_map (kss_cmds host s) l) m o <-> o = Some m0) /\
    (forall o, hexec (kss_cmds host s c) m0 o <-> o = Some m1) /\ kss_same S c m1.
Proof.
  intros Hh Hn Hv Hd Rv Rd. exists (splset (N:=RNum) h vs ds n), (mkKss (N:=RNum) h n (length vs)).
  split; [apply make_spline_set_spec; auto|]. split; [apply kss_of_ok; auto|]. intros m l c Hl Hc.
  destruct (hok_exec (kss_new (N:=RNum) host (mkKss (N:=RNum) h n (length vs)) vs ds ++ flat_map (kss_cmds host (mkKss (N:=RNum) h n (length vs))) l) m
    (is_set h vs ds n)) as (m0 & H0 & IS).
  { apply hok_app. eapply hok_conseq; [apply kss_new_hok; auto|]. cbn beta. intros m' IS. apply calls_hok; auto. }
  destruct (hok_exec _ _ _ (call_hok h vs ds n Hh host c m0 Hc IS)) as (m1 & H1 & _ & S1). exists m0, m1. auto.
Qed.

(** arguments at or beyond the last node *)
Lemma ub_last A n body (k : prog RNum A) m : (1 <= n)%nat -> ub unit (body (n - 1)%nat) m -> ub unit (par_for (N:=RNum) n body) m.
Proof. intros Hn H. destruct n as [|n]; [lia|]. cbn [par_for]. replace (S n - 1)%nat with n in H by lia. apply ub_right. exact H. Qed.
Lemma hexec_none_app (l1 l2 : list (hcmd RNum)) m m1 : (forall o, hexec l1 m o <-> o = Some m1) -> hexec l2 m1 None -> hexec (l1 ++ l2) m None.
Proof. intros H1 H2. apply hexec_app. left. exists m1. split; auto. apply H1. auto. Qed.
Lemma c_at_ub B h vs ds n m i q j (f : R -> prog RNum B) : is_set h vs ds n m -> (n - 1 <= i)%nat ->
  ub B (pbind (c_at (N:=RNum) (Z.of_nat i) q j) f) m.
Proof.
  intros (D & _) Hi. unfold c_at, zidx. destruct (Z.ltb_spec (Z.of_nat i) 0); [lia|]. rewrite Nat2Z.id. cbn [lift pbind get].
  apply ub_get. change (inb (dims m sC) [i; q; j] = false). rewrite D. cbn [inb]. rewrite (proj2 (Nat.ltb_ge i (n - 1))) by auto. reflexivity.
Qed.
Lemma lemma_C82_out host (h : R) (vs ds : list (list R)) n (r : R) (a b : list R) m :
  0 < h -> (1 <= n)%nat -> (1 <= length vs)%nat -> length ds = length vs ->
  (forall row, In row vs -> length row = n) -> (forall row, In row ds -> length row = n) -> h * INR (n - 1) <= r ->
  exists s, kss_of (N:=RNum) h vs = Some s /\
    hexec (kss_new (N:=RNum) host s vs ds ++ kss_cmds host s (SEval r a)) m None /\
    hexec (kss_new (N:=RNum) host s vs ds ++ kss_cmds host s (SDerivs r a b)) m None.
Proof.
  intros Hh Hn Hv Hd Rv Rd Hr. exists (mkKss (N:=RNum) h n (length vs)). split; [apply kss_of_ok; auto|].
  destruct (hok_exec _ _ _ (kss_new_hok host h vs ds n m Hn Hd Rv Rd)) as (m0 & H0 & IS).
  pose proof (trunc_ge h r (n - 1) Hh Hr) as T. change (Rtrunc (r / h)) with (ntrunc (n:=RNum) (r / h)) in T.
  assert (E : ntrunc (n:=RNum) (r / h) = Z.of_nat (Z.to_nat (ntrunc (n:=RNum) (r / h)%R))) by (rewrite Z2Nat.id; lia).
  assert (Hi : (n - 1 <= Z.to_nat (ntrunc (n:=RNum) (r / h)%R))%nat) by lia.
  set (i := Z.to_nat (ntrunc (n:=RNum) (r / h))) in *.
  assert (NE : forall b', b' <> sC -> forall ext v m', is_set h vs ds n m' -> is_set h vs ds n (set_view (N:=RNum) m' b' ext v)) by (intros; apply set_set; auto).
  split.
  - eapply hexec_none_app; [exact H0|]. cbn [kss_cmds]. eapply hexec_op; [reflexivity|].
    eapply hexec_run_ub; [apply steps_refl|]. unfold kss_evaluate. cbn [ks_h ks_num]. change (ndiv (n:=RNum) r h) with (r / h). rewrite E.
    apply (ub_last unit); auto; [exact (Ret tt)|]. apply (c_at_ub unit h vs ds n); auto.
  - eapply hexec_none_app; [exact H0|]. cbn [kss_cmds]. eapply hexec_op; [reflexivity|]. eapply hexec_op; [reflexivity|].
    eapply hexec_run_ub; [apply steps_refl|]. unfold kss_evaluate_derivs. cbn [ks_h ks_num]. change (ndiv (n:=RNum) r h) with (r / h). rewrite E.
    apply (ub_last unit); auto; [exact (Ret tt)|]. apply (c_at_ub unit h vs ds n); auto.
Qed.

(** the constructor from views *)
Lemma steps_last n (body : nat -> prog RNum unit) m p m' : (1 <= n)%nat -> steps unit (body (n - 1)%nat) m p m' -> ub unit p m' ->
  exists p', steps unit (par_for (N:=RNum) n body) m p' m' /\ ub unit p' m'.
Proof.
  intros Hn H U. destruct n as [|n]; [lia|]. cbn [par_for]. replace (S n - 1)%nat with n in H by lia.
  eexists. split; [apply steps_right; exact H|]. apply ub_right. exact U.
Qed.
Lemma functor_ub third num (h : R) i j nodes m : dims m sC = [(nodes - 1)%nat; num; third] -> dims m sV = [num; nodes] -> dims m sD = [num; nodes] ->
  (i < nodes - 1)%nat -> (j < num)%nat -> (num < 4 \/ third <= j)%nat ->
  exists p m', steps unit (kss_functor (N:=RNum) h i j) m p m' /\ ub unit p m'.
Proof.
  intros DC DV DD Hi Hj H.
  assert (AV : forall (m' : mem RNum) k, dims m' = dims m -> (k < nodes)%nat -> alloc m' (sV, [j; k]) = true).
  { intros m' k D Hk. apply (alN m' sV [num; nodes]); [congruence|]. cbn. auto. }
  assert (AD : forall (m' : mem RNum) k, dims m' = dims m -> (k < nodes)%nat -> alloc m' (sD, [j; k]) = true).
  { intros m' k D Hk. apply (alN m' sD [num; nodes]); [congruence|]. cbn. auto. }
  assert (AC : forall (m' : mem RNum) q, dims m' = dims m -> alloc m' (sC, [i; q; j]) = ((q <? num) && (j <? third))%nat).
  { intros m' q D. change (inb (dims m' sC) [i; q; j] = ((q <? num) && (j <? third))%nat). rewrite D, DC. cbn [inb].
    rewrite (proj2 (Nat.ltb_lt i (nodes - 1))) by auto. rewrite andb_true_r. reflexivity. }
  unfold kss_functor, get, put. cbn [pbind].
  (* each access in turn, up to the first store outside *)
  assert (G : forall b idx (k : R -> prog RNum unit) (m' : mem RNum), alloc m' (b, idx) = true ->
     (exists p m'', steps unit (k (va m' (b, idx))) m' p m'' /\ ub unit p m'') -> exists p m'', steps unit (Get (b, idx) k) m' p m'' /\ ub unit p m'').
  { intros b idx k m' A (p & m'' & P & U). exists p, m''. split; auto. eapply steps_step; [apply step_get; exact A|exact P]. }
  assert (P : forall q (v : R) (k : prog RNum unit) (m' : mem RNum), dims m' = dims m ->
     (((q <? num) && (j <? third))%nat = true -> exists p m'', steps unit k (store m' (sC, [i; q; j]) v) p m'' /\ ub unit p m'') ->
     exists p m'', steps unit (Put (sC, [i; q; j]) v k) m' p m'' /\ ub unit p m'').
  { intros q v k m' D K. destruct (((q <? num) && (j <? third))%nat) eqn:E.
    - destruct (K eq_refl) as (p & m'' & S1 & U). exists p, m''. split; auto. eapply steps_step; [apply step_put; rewrite AC; auto|exact S1].
    - exists (Put (sC, [i; q; j]) v k), m'. split; [apply steps_refl|]. apply ub_put. rewrite AC; auto. }
  apply G; [apply AV; auto; lia|]. apply P; auto. intros T0.
  apply G; [apply AD; auto; lia|]. apply P; auto. intros T1.
  apply G; [apply AV; auto; lia|]. apply G; [apply AD; auto; lia|]. apply G; [apply AV; auto; lia|]. apply G; [apply AD; auto; lia|].
  apply P; auto. intros T2.
  apply G; [apply AV; auto; lia|]. apply G; [apply AD; auto; lia|]. apply G; [apply AV; auto; lia|]. apply G; [apply AD; auto; lia|].
  apply P; auto. intros T3. exfalso. apply andb_true_iff in T3. destruct T3 as [Q1 Q2]. apply Nat.ltb_lt in Q1, Q2. lia.
Qed.
Lemma lemma_C82_views third (h : R) nodes num m : (2 <= nodes)%nat -> (1 <= num)%nat -> (num < 4 \/ third < num)%nat ->
  dims m sV = [num; nodes] -> dims m sD = [num; nodes] -> hexec (kss_new_views (N:=RNum) third h nodes num) m None.
Proof.
  intros Hn Hm H DV DD. unfold kss_new_views. eapply hexec_op. { destruct (Nat.eqb_spec nodes 0); [lia|reflexivity]. }
  destruct (functor_ub third num h (nodes - 1 - 1) (num - 1) nodes (realloc sC [(nodes - 1)%nat; num; third] m)) as (p & m' & S1 & U1);
    auto; try lia.
  destruct (steps_last num (fun j => kss_functor (N:=RNum) h (nodes - 1 - 1) j) _ p m' Hm S1 U1) as (p1 & S2 & U2).
  destruct (steps_last (nodes - 1) (fun i => par_for (N:=RNum) num (fun j => kss_functor (N:=RNum) h i j)) _ p1 m' ltac:(lia) S2 U2) as (p2 & S3 & U3).
  eapply hexec_run_ub; eauto.
Qed.
