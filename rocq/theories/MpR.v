(** Polynomials over the reals; history of polynomial objects. *)
From Coq Require Import List Arith ZArith Lia Permutation Bool Reals Lra.
From Verif Require Import Base BaseLemmas Segs Instances BlasModel BlasLemmas RSums ToolsModel MpModel MpSpec MpCtor MpProofs.
Import ListNotations.
Local Open Scope R_scope.

(** ** adjoint of indexed additions *)
Definition dotn (n : nat) (w a : list R) : R := rsum n (fun q => nth q w 0 * nth q a 0).

Lemma rsum_add_at n (a : list R) i v w : (i < length a)%nat -> (i < n)%nat ->
  rsum n (fun q => nth q (add_at (N:=RNum) a i v) 0 * w q) = rsum n (fun q => nth q a 0 * w q) + v * w i.
Proof.
  intros Hi Hn.
  transitivity (rsum n (fun q => nth q a 0 * w q + (if (i =? q)%nat then v * w q else 0))).
  - apply rsum_ext. intros q Hq. rewrite (nth_add_at (N:=RNum)) by auto. destruct (i =? q)%nat; simpl; ring.
  - rewrite rsum_plus. f_equal. rewrite (rsum_single n i); auto.
    + rewrite Nat.eqb_refl. reflexivity.
    + intros q _ Hne. destruct (Nat.eqb_spec i q); [congruence|reflexivity].
Qed.

Lemma rsum_adds n L : forall (a : list R) w, (forall p, In p L -> (fst p < length a)%nat) -> length a = n ->
  rsum n (fun q => nth q (adds (N:=RNum) a L) 0 * w q) = rsum n (fun q => nth q a 0 * w q) + lsumR (map (fun p => snd p * w (fst p)) L).
Proof.
  induction L as [|p L IH]; intros a w H HL; [simpl; lra|].
  rewrite adds_cons. cbn [map]. cbn [lsumR fold_right]. rewrite IH.
  - rewrite rsum_add_at by (try rewrite <- HL; apply H; simpl; auto). change (carrier RNum) with R in *. rewrite Rplus_assoc. reflexivity.
  - intros q Hq. rewrite length_add_at. apply H. simpl; auto.
  - rewrite length_add_at. auto.
Qed.

Section Curve.
Variable p : @mpoly RNum.
Hypothesis W : mp_wf p.
Notation n := (mp_nvars p).
Notation m := (length (mp_edges p)).
Notation nn := (length (mp_nodes p)).
Notation nc := (mp_ncoeffs p).

(** along a differentiable curve the reverse sweep gives the derivative of the value *)
Lemma pgrad_curve (x : R -> list R) (dx : nat -> R) t0 :
  (forall t, length (x t) = n) ->
  (forall q, (q < n)%nat -> derivable_pt_lim (fun t => nth q (x t) 0) t0 (dx q)) ->
  derivable_pt_lim (fun t => pval p (x t)) t0 (rsum n (fun q => nth q (pgrad p (x t0)) 0 * dx q)).
Proof.
  intros HL HD. pose proof (wf_nodes p W) as Hn.
  set (V := fun t => vlist p (x t) m).
  (* tangents *)
  assert (HT : exists T, forall k, (k <= m)%nat ->
    (forall q, (q < n + k)%nat -> derivable_pt_lim (fun t => nth q (V t) 0) t0 (T q)) /\
    (forall i, (i < k)%nat -> T (n + i)%nat = T (fst (ed p i)) * nth (snd (ed p i)) (V t0) 0 + nth (fst (ed p i)) (V t0) 0 * T (snd (ed p i)))).
  { assert (HT : forall k, (k <= m)%nat -> exists T,
     (forall q, (q < n + k)%nat -> derivable_pt_lim (fun t => nth q (V t) 0) t0 (T q)) /\
     (forall i, (i < k)%nat -> T (n + i)%nat = T (fst (ed p i)) * nth (snd (ed p i)) (V t0) 0 + nth (fst (ed p i)) (V t0) 0 * T (snd (ed p i)))).
    { induction k as [|k IH]; intros Hk.
      - exists dx. split; [|intros; lia]. intros q Hq. apply dlim_ext with (f := fun t => nth q (x t) 0).
        + intros t. unfold V. symmetry. apply (vlist_prefix p (x t) 0 m q); [lia|rewrite HL; lia].
        + apply HD; lia.
      - destruct IH as (T & HT1 & HT2); [lia|].
        destruct (ed_ok p W k ltac:(lia)) as (_ & H0 & H1).
        exists (fun q => if (q =? n + k)%nat then T (fst (ed p k)) * nth (snd (ed p k)) (V t0) 0 + nth (fst (ed p k)) (V t0) 0 * T (snd (ed p k)) else T q).
        split.
        + intros q Hq. destruct (Nat.eqb_spec q (n + k)) as [->|Hne]; [|apply HT1; lia].
          apply dlim_ext with (f := fun t => nth (fst (ed p k)) (V t) 0 * nth (snd (ed p k)) (V t) 0).
          * intros t. unfold V. symmetry. apply (vlist_step p W (x t) k m); auto; lia.
          * apply (dlim_mult (fun t => nth (fst (ed p k)) (V t) 0) (fun t => nth (snd (ed p k)) (V t) 0)); [apply (HT1 (fst (ed p k)))|apply (HT1 (snd (ed p k)))]; lia.
        + intros i Hi. destruct (ed_ok p W i ltac:(lia)) as (_ & H0' & H1').
          destruct (Nat.eqb_spec (n + i) (n + k)) as [?|Hnik].
          * assert (i = k) by lia. subst i. destruct (Nat.eqb_spec (fst (ed p k)) (n + k)) as [?|_]; [lia|].
            destruct (Nat.eqb_spec (snd (ed p k)) (n + k)) as [?|_]; [lia|]. reflexivity.
          * destruct (Nat.eqb_spec (fst (ed p i)) (n + k)) as [?|_]; [lia|].
            destruct (Nat.eqb_spec (snd (ed p i)) (n + k)) as [?|_]; [lia|]. apply HT2. lia. }
    destruct (HT m (le_n _)) as (T & H1 & H2). exists T. intros k Hk. split; intros; [apply H1|apply H2]; lia. }
  destruct HT as (T & HT).
  apply dlim_eq with (rsum nn (fun q => nth q nc 0 * T q)).
  2:{ apply dlim_ext with (f := fun t => rsum nn (fun q => nth q nc 0 * nth q (V t) 0)).
      - intros t. unfold pval. reflexivity.
      - apply dlim_rsum. intros q Hq. apply dlim_scal. apply (HT m); lia. }
  (* the sweep *)
  assert (HB : forall k, (k <= m)%nat -> rsum (n + (m - k)) (fun q => nth q (blist p (V t0) k) 0 * T q) = rsum nn (fun q => nth q nc 0 * T q)).
  { induction k as [|k IH]; intros Hk.
    - cbn [blist]. rewrite Nat.sub_0_r, <- Hn. reflexivity.
    - rewrite <- IH by lia. cbn [blist]. unfold bstep. set (i := (m - 1 - k)%nat). set (B := blist p (V t0) k).
      assert (HBl : @length R B = nn) by apply (length_blist p W).
      destruct (ed_ok p W i ltac:(lia)) as (_ & H0 & H1).
      replace (m - S k)%nat with i by lia. replace (m - k)%nat with (S i) by lia.
      match goal with |- ?a = ?b => change (@eq R a b) end.
      change (@nzero RNum) with 0. change (@nmul RNum) with Rmult.
      rewrite rsum_add_at by (rewrite ?(length_add_at (N:=RNum)); change (carrier RNum) with R; lia).
      rewrite rsum_add_at by lia.
      rewrite (nth_add_at (N:=RNum)) by (change (carrier RNum) with R; lia). destruct (Nat.eqb_spec (fst (ed p i)) (n + i)) as [?|_]; [lia|].
      replace (n + S i)%nat with (n + i + 1)%nat by lia. rewrite (rsum_add (n + i) 1). cbn [rsum]. rewrite Nat.add_0_r.
      destruct (HT m (le_n _)) as [_ HTm]. rewrite (HTm i) by lia. change (carrier RNum) with R in *. ring. }
  rewrite <- (HB m) by lia. rewrite Nat.sub_diag, Nat.add_0_r. apply rsum_ext. intros q Hq.
  unfold pgrad. rewrite nth_firstn_lt by auto.
  replace (T q) with (dx q); [reflexivity|].
  apply (dlim_unique (fun t => nth q (x t) 0) t0); [apply HD; auto|].
  apply dlim_ext with (f := fun t => nth q (V t) 0); [|apply (proj1 (HT m (le_n _)) q); lia].
  intros t. apply (vlist_prefix p (x t) 0 m q); [lia|rewrite HL; lia].
Qed.
End Curve.

(** ** constructed polynomials *)
Section Poly.
Variable srt : list (list (list nat)) -> list (list (list nat)).
Hypothesis Hsrt : forall l, Permutation l (srt l).

Lemma mono_perm x a b : Permutation a b -> mono x a = mono x b.
Proof. unfold mono. induction 1; simpl; auto; try lra; congruence. Qed.
Lemma mono_app x a b : mono x (a ++ b) = mono x a * mono x b.
Proof. unfold mono. induction a; simpl; [lra|]. rewrite IHa. lra. Qed.

Lemma graph_wf (N : Num) n monos nodes edges naux (cs nc v a : list N) :
  graph_ok n monos nodes edges naux -> length nc = length nodes ->
  mp_wf (mkMP n cs monos naux nodes edges nc v a).
Proof.
  intros G Hnc. destruct (go_split _ _ _ _ _ G) as (rest & En & HL & _).
  constructor; simpl; auto.
  - rewrite En, app_length, map_length, seq_length. lia.
  - intros i e He. destruct (go_edges _ _ _ _ _ G i e He) as (H0 & H1 & _). auto.
Qed.

(** the value stored at a node is the monomial of the node *)
Lemma vlist_mono n monos nodes edges naux (cs nc v a x : list R) :
  graph_ok n monos nodes edges naux -> length nc = length nodes -> length x = n ->
  forall q, (q < length nodes)%nat ->
  nth q (vlist (mkMP (N:=RNum) n cs monos naux nodes edges nc v a) x (length edges)) 0 = mono x (nth q nodes []).
Proof.
  intros G Hnc Hx. set (p := mkMP (N:=RNum) n cs monos naux nodes edges nc v a).
  pose proof (graph_wf RNum _ _ _ _ _ cs nc v a G Hnc) as W. fold p in W.
  destruct (go_split _ _ _ _ _ G) as (rest & En & HL & _).
  assert (Hnn : length nodes = (n + length edges)%nat) by apply (wf_nodes p W).
  intros q. induction q as [q IH] using lt_wf_ind. intros Hq.
  destruct (Nat.lt_ge_cases q n) as [Hqn|Hqn].
  - rewrite (vlist_prefix p x 0 (length edges)) by (simpl; lia). cbn [vlist].
    rewrite En, app_nth1 by (rewrite map_length, seq_length; lia).
    rewrite (nth_indep _ [] [0%nat]) by (rewrite map_length, seq_length; lia).
    rewrite (map_nth (fun i => [i])), seq_nth by lia. simpl. unfold mono. simpl.
    match goal with |- ?a = ?b => change (@eq R a b) end. rewrite Rmult_1_r. reflexivity.
  - set (k := (q - n)%nat). replace q with (n + k)%nat in * by (unfold k; lia).
    assert (Hk : (k < length edges)%nat) by lia.
    pose proof (vlist_step p W x k (length edges) Hk Hx Hk) as Hs. simpl mp_nvars in Hs. 
    match goal with |- ?l = ?r => change (@eq R l r) end. change (@nzero RNum) with 0 in Hs. rewrite Hs.
    destruct (nth_error edges k) as [e|] eqn:Ee; [|apply nth_error_None in Ee; lia].
    destruct (go_edges _ _ _ _ _ G k e Ee) as (H0 & H1 & HP).
    assert (Hed : ed p k = e) by (unfold ed; simpl; apply nth_error_nth; auto). rewrite Hed.
    change (@nmul RNum) with Rmult. rewrite (IH (fst e)), (IH (snd e)) by lia.
    rewrite <- mono_app. apply mono_perm. exact HP.
Qed.

(** sum over the nodes = sum over the terms with new monomials *)
Lemma lsumR_single {A} (dec : forall x y : A, {x = y} + {x <> y}) l m (f : A -> R) : NoDup l -> In m l ->
  lsumR (map (fun x => if dec m x then f x else 0) l) = f m.
Proof.
  induction 1 as [|x l Hx Hl IH]; simpl; [tauto|]. intros [->|Hm].
  - destruct (dec m m); [|congruence].
    replace (lsumR (map (fun x => if dec m x then f x else 0) l)) with 0; [lra|]. symmetry.
    clear IH Hl. induction l as [|y l IHl]; auto. simpl. destruct (dec m y) as [->|]; [exfalso; apply Hx; simpl; auto|].
    rewrite IHl; [lra|]. intros H; apply Hx; simpl; auto.
  - destruct (dec m x) as [->|]; [contradiction|]. rewrite IH by auto. lra.
Qed.

Lemma sum_nodes_first nodes x : NoDup nodes -> forall ms cs seen, incl ms nodes -> length cs = length ms ->
  lsumR (map (fun v => match first_coeff (N:=RNum) v ms cs with Some c => if in_dec (list_eq_dec Nat.eq_dec) v seen then 0 else c * mono x v | None => 0 end) nodes)
  = let '(cs', ms') := first_terms seen cs ms in poly cs' ms' x.
Proof.
  intros Hn. induction ms as [|m ms IH]; intros [|c cs] seen Hi HL; simpl in *; try lia.
  - unfold poly. simpl. clear. induction nodes as [|v nodes IH]; simpl; auto; rewrite IH; lra.
  - assert (Hm : In m nodes) by (apply Hi; simpl; auto).
    assert (Hi' : incl ms nodes) by (intros z Hz; apply Hi; simpl; auto).
    destruct (in_dec (list_eq_dec Nat.eq_dec) m seen) as [Hs|Hs].
    + rewrite <- (IH cs seen) by (auto; lia). apply lsumR_map_ext. intros v Hv.
      destruct (list_eq_dec Nat.eq_dec m v) as [->|]; auto.
      destruct (in_dec (list_eq_dec Nat.eq_dec) v seen); [|contradiction]. destruct (first_coeff v ms cs); auto.
    + specialize (IH cs (m :: seen) Hi' ltac:(lia)). destruct (first_terms (m :: seen) cs ms) as [cs' ms'].
      unfold poly in *. simpl. rewrite <- IH. clear IH.
      rewrite <- (lsumR_single (list_eq_dec Nat.eq_dec) nodes m (fun v => c * mono x v) Hn Hm).
      rewrite <- lsumR_map_plus. apply lsumR_map_ext. intros v Hv.
      destruct (list_eq_dec Nat.eq_dec m v) as [->|Hne].
      * destruct (in_dec (list_eq_dec Nat.eq_dec) v seen); [contradiction|].
        destruct (in_dec (list_eq_dec Nat.eq_dec) v (v :: seen)) as [_|Hc]; [|exfalso; apply Hc; simpl; auto].
        destruct (first_coeff v ms cs); lra.
      * destruct (first_coeff v ms cs); [|lra].
        destruct (in_dec (list_eq_dec Nat.eq_dec) v seen) as [H1|H1], (in_dec (list_eq_dec Nat.eq_dec) v (m :: seen)) as [H2|H2]; try lra.
        -- exfalso. apply H2. simpl; auto.
        -- destruct H2; [congruence|contradiction].
Qed.

Lemma first_terms_nodup cs ms seen : NoDup ms -> (forall m, In m ms -> ~ In m seen) -> length cs = length ms ->
  first_terms seen cs ms = (cs, ms).
Proof.
  revert cs seen; induction ms as [|m ms IH]; intros [|c cs] seen Hn H HL; simpl in *; try lia; auto.
  inversion Hn; subst. destruct (in_dec (list_eq_dec Nat.eq_dec) m seen) as [Hm|_]; [exfalso; eapply H; eauto|].
  rewrite IH; auto. intros v Hv [<-|Hs]; [contradiction|]. eapply H; eauto.
Qed.

Definition built (N : Num) (n : nat) (cs : list N) (ms : list (list nat)) (p : mpoly) : Prop :=
  make_mpoly srt n cs ms = Some p.

Lemma built_ok (N : Num) n cs ms : monos_ok n ms -> length cs = length ms ->
  exists p, make_mpoly (N:=N) srt n cs ms = Some p /\ mp_wf p /\ mp_nvars p = n /\
    length (mp_nvals p) = length (mp_nodes p) /\ length (mp_nadjs p) = length (mp_nodes p) /\
    mp_coeffs p = cs /\ mp_monos p = ms.
Proof.
  intros Hm HL. destruct (make_mpoly_ok srt Hsrt n ms Hm) as (nodes & edges & naux & G & H).
  destruct (H N cs HL) as (nc & E & Hnc & _). eexists. split; [exact E|].
  split; [eapply graph_wf; eauto|]. simpl. rewrite !repeat_length. auto.
Qed.

Lemma built_pval n cs ms : monos_ok n ms -> length cs = length ms ->
  forall p x, make_mpoly (N:=RNum) srt n cs ms = Some p -> length x = n ->
  pval p x = let '(cs', ms') := first_terms [] cs ms in poly cs' ms' x.
Proof.
  intros Hm HL p x E Hx. destruct (make_mpoly_ok srt Hsrt n ms Hm) as (nodes & edges & naux & G & H).
  destruct (H RNum cs HL) as (nc & E' & Hnc & Hq). rewrite E' in E. injection E as <-.
  unfold pval. cbn [mp_nodes mp_ncoeffs mp_edges]. match goal with |- ?l = ?r => change (@eq R l r) end.
  rewrite <- (sum_nodes_first nodes x); auto; [|apply ss_nodup, (go_ss _ _ _ _ _ G)|apply (go_monos _ _ _ _ _ G)].
  rewrite lsumR_rsum, map_length. apply rsum_ext. intros q Hq'.
  change (@nzero RNum) with 0. rewrite (vlist_mono n ms nodes edges naux cs nc _ _ x G Hnc Hx q Hq').
  specialize (Hq q Hq'). change (@nzero RNum) with 0 in Hq. rewrite Hq. change (@nmul RNum) with Rmult.
  match goal with |- _ = nth q (map ?f nodes) 0 => rewrite (nth_indep (map f nodes) 0 (f [])) by (rewrite map_length; auto);
     rewrite (map_nth f) end.
  destruct (first_coeff (N:=RNum) (nth q nodes []) ms cs); simpl; [reflexivity|lra].
Qed.
End Poly.

(** ** the direct evaluators *)
Section Simple.

Definition delj {A} (j : nat) (m : list A) : list A := firstn j m ++ skipn (S j) m.

Lemma poly_rsum cs ms x : length cs = length ms ->
  poly cs ms x = rsum (length ms) (fun i => nth i cs 0 * mono x (nth i ms [])).
Proof.
  revert cs; induction ms as [|m ms IH]; intros [|c cs] HL; try (simpl in HL; lia); [reflexivity|].
  cbn [length]. rewrite rsum_shift. cbn [nth]. rewrite <- IH by (simpl in HL; lia). reflexivity.
Qed.

Lemma mono_curve (x : R -> list R) (dx : nat -> R) t0 m :
  (forall q, In q m -> derivable_pt_lim (fun t => nth q (x t) 0) t0 (dx q)) ->
  derivable_pt_lim (fun t => mono (x t) m) t0
    (rsum (length m) (fun j => mono (x t0) (delj j m) * dx (nth j m 0%nat))).
Proof.
  induction m as [|a m IH]; intros HD.
  - apply (dlim_const 1).
  - cbn [length]. rewrite rsum_shift.
    apply dlim_ext with (f := fun t => nth a (x t) 0 * mono (x t) m); [reflexivity|].
    eapply dlim_eq; [|apply (dlim_mult (fun t => nth a (x t) 0)); [apply HD; simpl; auto|apply IH; intros; apply HD; simpl; auto]].
    change (delj 0 (a :: m)) with m. cbn [nth].
    rewrite <- rsum_scal_l. rewrite (Rmult_comm (dx a)). f_equal. apply rsum_ext. intros j Hj.
    change (delj (S j) (a :: m)) with (a :: delj j m). change (mono (x t0) (a :: delj j m)) with (nth a (x t0) 0 * mono (x t0) (delj j m)). ring.
Qed.

Lemma poly_curve (x : R -> list R) (dx : nat -> R) t0 n cs ms : monos_ok n ms -> length cs = length ms ->
  (forall q, (q < n)%nat -> derivable_pt_lim (fun t => nth q (x t) 0) t0 (dx q)) ->
  derivable_pt_lim (fun t => poly cs ms (x t)) t0
    (rsum (length ms) (fun i => rsum (length (nth i ms [])) (fun j =>
       nth i cs 0 * mono (x t0) (delj j (nth i ms [])) * dx (nth j (nth i ms []) 0%nat)))).
Proof.
  intros Hm HL HD.
  apply dlim_ext with (f := fun t => rsum (length ms) (fun i => nth i cs 0 * mono (x t) (nth i ms []))).
  { intros t. symmetry. apply poly_rsum; auto. }
  apply dlim_rsum. intros i Hi.
  eapply dlim_eq; [|apply dlim_scal, (mono_curve x dx)].
  - rewrite <- rsum_scal_l. apply rsum_ext. intros. ring.
  - intros q Hq. apply HD. unfold monos_ok in Hm. rewrite Forall_forall in Hm.
    destruct (Hm (nth i ms [])) as [_ HF]; [apply nth_In; auto|]. rewrite Forall_forall in HF. auto.
Qed.

Lemma monos_ok_nth n ms i : monos_ok n ms -> (i < length ms)%nat ->
  nth i ms [] <> [] /\ forall j, (j < length (nth i ms []))%nat -> (nth j (nth i ms []) 0 < n)%nat.
Proof.
  intros Hm Hi. unfold monos_ok in Hm. rewrite Forall_forall in Hm.
  destruct (Hm (nth i ms [])) as [H0 HF]; [apply nth_In; auto|]. split; auto.
  intros j Hj. rewrite Forall_forall in HF. apply HF. apply nth_In. auto.
Qed.

Lemma mono_snoc x a q : mono x (a ++ [q]) = mono x a * nth q x 0.
Proof. rewrite mono_app. unfold mono at 2. simpl. ring. Qed.

Lemma simple_loop_ok n cs ms (x : list R) : monos_ok n ms -> length cs = length ms -> length x = n ->
  for_ (length cs) (fun i f =>
    m <- rd ms i ;;
    q0 <- rd m 0 ;;
    x0 <- rd x q0 ;;
    monomial <- for_range 1 (length m) (fun j monomial =>
        q <- rd m j ;; xq <- rd x q ;; Some (nmul (n:=RNum) monomial xq)) x0 ;;
    c <- rd cs i ;;
    Some (nadd (n:=RNum) f (nmul (n:=RNum) c monomial))) (nzero (N:=RNum)) = Some (poly cs ms x).
Proof.
  intros Hm HL Hx. rewrite (poly_rsum cs ms x HL), HL. rewrite <- nsum_rsum.
  apply for_nsum. intros i f Hi. destruct (monos_ok_nth n ms i Hm Hi) as [Hne Hlt].
  rewrite (rd_some ms i []) by auto. cbn [bind]. destruct (nth i ms []) as [|q0 r] eqn:Er; [congruence|].
  assert (H0 : (q0 < n)%nat) by (apply (Hlt 0%nat); simpl; lia).
  change (rd (q0 :: r) 0) with (Some q0). cbn [bind].
  rewrite (rd_some x q0 0) by lia. cbn [bind].
  rewrite (for_range_trace (fun k => mono x (firstn (S k) (q0 :: r)))) with (s1 := mono x (q0 :: r)).
  - cbn [bind]. rewrite (rd_some cs i 0) by lia. cbn [bind]. reflexivity.
  - unfold mono. simpl. match goal with |- ?a = ?b => change (@eq R a b) end. ring.
  - f_equal. symmetry. simpl. rewrite Nat.sub_0_r. rewrite firstn_all. reflexivity.
  - intros k Hk. cbn [length] in Hk. rewrite (rd_some (q0 :: r) (1 + k) 0%nat) by (simpl; lia). cbn [bind].
    assert (Hq : (nth (1 + k) (q0 :: r) 0 < n)%nat) by (apply Hlt; simpl; lia).
    rewrite (rd_some x _ 0) by lia. cbn [bind]. f_equal.
    rewrite (firstn_S_nth (q0 :: r) (S k) (nth (1 + k) (q0 :: r) 0%nat)) by (apply nth_error_nth'; simpl; lia).
    rewrite mono_snoc. reflexivity.
Qed.

Lemma evaluate_simple_ok (p : @mpoly RNum) n (x : list R) :
  monos_ok n (mp_monos p) -> length (mp_coeffs p) = length (mp_monos p) -> length x = n ->
  mp_evaluate_simple p x = Some (poly (mp_coeffs p) (mp_monos p) x).
Proof. intros Hm HL Hx. apply (simple_loop_ok n); auto. Qed.

Lemma inner_prod_ok n m j (x : list R) : (j < length m)%nat -> (forall k, (k < length m)%nat -> (nth k m 0 < n)%nat) -> length x = n ->
  for_ (length m) (fun k d =>
        if (k =? j)%nat then Some d else q <- rd m k ;; xq <- rd x q ;; Some (nmul (n:=RNum) d xq)) (none (N:=RNum))
  = Some (mono x (delj j m)).
Proof.
  intros Hj Hlt Hx.
  apply (for_trace (fun k => mono x (firstn k (firstn j m) ++ skipn (S j) (firstn k m)))).
  - unfold mono. simpl. reflexivity.
  - unfold delj. rewrite (firstn_all m). rewrite (firstn_all2 (n := length m) (firstn j m)) by (rewrite firstn_length; lia). reflexivity.
  - intros k Hk. rewrite (firstn_S_nth m k (nth k m 0%nat)) by (apply nth_error_nth'; auto).
    destruct (Nat.eqb_spec k j) as [->|Hne].
    + f_equal. f_equal. rewrite !firstn_firstn. replace (Nat.min j j) with j by lia. replace (Nat.min (S j) j) with j by lia.
      f_equal. rewrite !skipn_all2; auto; rewrite ?app_length, firstn_length; simpl; lia.
    + rewrite (rd_some m k 0%nat) by auto. cbn [bind]. rewrite (rd_some x _ 0) by (rewrite Hx; apply Hlt; auto). cbn [bind]. f_equal.
      change (@nmul RNum) with Rmult. rewrite <- mono_snoc. f_equal.
      rewrite !firstn_firstn. destruct (Nat.lt_ge_cases k j) as [Hkj|Hkj].
      * replace (Nat.min k j) with k by lia. replace (Nat.min (S k) j) with (S k) by lia.
        rewrite (firstn_S_nth m k (nth k m 0%nat)) by (apply nth_error_nth'; auto).
        rewrite !skipn_all2 by (rewrite ?app_length, firstn_length; simpl; lia). rewrite !app_nil_r. reflexivity.
      * replace (Nat.min k j) with j by lia. replace (Nat.min (S k) j) with j by lia. rewrite <- app_assoc. f_equal.
        rewrite skipn_app. rewrite firstn_length. replace (S j - Nat.min k (length m))%nat with 0%nat by lia. reflexivity.
Qed.

Definition simple_adds (cs : list R) (ms : list (list nat)) (x : list R) : list (nat * R) :=
  flat_map (fun i => flat_map (fun j => [(nth j (nth i ms []) 0%nat, nth i cs 0 * mono x (delj j (nth i ms [])))])
    (seq 0 (length (nth i ms [])))) (seq 0 (length ms)).

Lemma evaluate_gradient_simple_ok (p : @mpoly RNum) n (x : list R) :
  mp_nvars p = n -> monos_ok n (mp_monos p) -> length (mp_coeffs p) = length (mp_monos p) -> length x = n ->
  mp_evaluate_gradient_simple p x = Some (poly (mp_coeffs p) (mp_monos p) x,
     adds (N:=RNum) (repeat 0 n) (simple_adds (mp_coeffs p) (mp_monos p) x)).
Proof.
  intros Hn Hm HL Hx. unfold mp_evaluate_gradient_simple. rewrite (simple_loop_ok n) by auto. cbn [bind].
  set (cs := mp_coeffs p) in *. set (ms := mp_monos p) in *. rewrite Hn.
  rewrite (sadd_all n) with (L := simple_adds cs ms x).
  - reflexivity.
  - rewrite HL. apply sadd_for. intros i Hi. destruct (monos_ok_nth n ms i Hm Hi) as [Hne Hlt].
    eapply sadd_ext. { intros a. rewrite (rd_some ms i []) by auto. cbn [bind]. reflexivity. }
    apply sadd_for. intros j Hj.
    eapply sadd_ext. { intros a. rewrite (inner_prod_ok n) by auto. cbn [bind]. rewrite (rd_some cs i 0) by lia. cbn [bind].
      rewrite (rd_some (nth i ms []) j 0%nat) by auto. cbn [bind]. reflexivity. }
    apply sadd_addto; auto. 
  - apply repeat_length.
Qed.

Lemma simple_adds_sum cs ms x w : 
  lsumR (map (fun p => snd p * w (fst p)) (simple_adds cs ms x)) =
  rsum (length ms) (fun i => rsum (length (nth i ms [])) (fun j =>
       nth i cs 0 * mono x (delj j (nth i ms [])) * w (nth j (nth i ms []) 0%nat))).
Proof.
  unfold simple_adds. rewrite map_flat_map, lsumR_flat_map. change (map (fun x0 => _) (seq 0 (length ms))) with
    (tab (length ms) (fun i => lsumR (map (fun p => snd p * w (fst p)) (flat_map (fun j => [(nth j (nth i ms []) 0%nat, nth i cs 0 * mono x (delj j (nth i ms [])))]) (seq 0 (length (nth i ms []))))))).
  rewrite lsumR_tab. apply rsum_ext. intros i Hi. rewrite map_flat_map, lsumR_flat_map.
  change (map (fun x0 => _) (seq 0 (length (nth i ms [])))) with
    (tab (length (nth i ms [])) (fun j => lsumR (map (fun p => snd p * w (fst p)) [(nth j (nth i ms []) 0%nat, nth i cs 0 * mono x (delj j (nth i ms [])))]))).
  rewrite lsumR_tab. apply rsum_ext. intros j Hj. simpl. ring.
Qed.
End Simple.
