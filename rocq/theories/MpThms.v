(** The statements about polynomials (C15-C20) assembled. *)
From Coq Require Import List Arith ZArith Lia Permutation Bool Reals Lra.
From Verif Require Import Base BaseLemmas Segs Instances BlasModel BlasLemmas RSums ToolsModel MpModel MpSpec MpCtor MpProofs MpR.
Import ListNotations.
Local Open Scope R_scope.

Section Thms.
Variable srt : list (list (list nat)) -> list (list (list nat)).
Hypothesis Hsrt : forall l, Permutation l (srt l).

Lemma lemma_C20 n (cs : list R) ms (x : list R) : monos_ok n ms -> length cs = length ms -> length x = n ->
  exists p p' p'' g, make_mpoly (N:=RNum) srt n cs ms = Some p /\
    mp_evaluate p x = Some (p', let '(cs', ms') := first_terms [] cs ms in poly cs' ms' x) /\
    mp_evaluate_gradient p x = Some (p'', (let '(cs', ms') := first_terms [] cs ms in poly cs' ms' x, g)) /\
    mp_evaluate_simple p x = Some (poly cs ms x).
Proof.
  intros Hm HL Hx. destruct (built_ok srt Hsrt RNum n cs ms Hm HL) as (p & E & W & Hn & Hv & Ha & Hc & Hms).
  pose proof (built_pval srt Hsrt n cs ms Hm HL p x E Hx) as HP.
  rewrite <- Hn in Hx.
  pose proof (evaluate_ok p W x Hx ltac:(lia)) as E1.
  pose proof (evaluate_gradient_ok p W x Hx ltac:(lia) ltac:(lia)) as E2.
  exists p. do 3 eexists. split; [exact E|]. rewrite E1, E2, HP. split; [reflexivity|]. split; [reflexivity|].
  rewrite (evaluate_simple_ok p n x); rewrite ?Hc, ?Hms; auto. rewrite <- Hn. exact Hx.
Qed.

Lemma lemma_C15 n (cs : list R) ms (x : list R) : monos_ok n ms -> NoDup ms -> length cs = length ms -> length x = n ->
  exists p p', make_mpoly (N:=RNum) srt n cs ms = Some p /\
    mp_evaluate p x = Some (p', poly cs ms x) /\ mp_evaluate_simple p x = Some (poly cs ms x).
Proof.
  intros Hm Hd HL Hx. destruct (lemma_C20 n cs ms x Hm HL Hx) as (p & p' & p'' & g & E & E1 & _ & E2).
  rewrite first_terms_nodup in E1 by auto. exists p, p'. auto.
Qed.

Lemma pgrad_partials n (cs : list R) ms (x : list R) p : monos_ok n ms -> NoDup ms -> length cs = length ms -> length x = n ->
  make_mpoly (N:=RNum) srt n cs ms = Some p -> mp_wf p -> mp_nvars p = n ->
  forall k, (k < n)%nat -> derivable_pt_lim (fun s => poly cs ms (upd x k s)) (nth k x 0) (nth k (pgrad p x) 0).
Proof.
  intros Hm Hd HL Hx E W Hn k Hk.
  apply dlim_ext with (f := fun s => pval p (upd x k s)).
  { intros s. rewrite (built_pval srt Hsrt n cs ms Hm HL p (upd x k s) E) by (rewrite length_upd; auto).
    rewrite first_terms_nodup by auto. reflexivity. }
  assert (Hupd : upd x k (nth k x 0) = x).
  { apply list_eq_nth with 0; [apply length_upd|]. intros i Hi. rewrite length_upd in Hi. rewrite nth_upd by lia.
    destruct (Nat.eqb_spec k i); subst; auto. }
  eapply dlim_eq; [|apply (pgrad_curve p W (fun s => upd x k s) (fun q => if (k =? q)%nat then 1 else 0) (nth k x 0))].
  - rewrite Hupd, Hn. rewrite (rsum_single n k); auto; [rewrite Nat.eqb_refl; ring|].
    intros i _ Hne. destruct (Nat.eqb_spec k i); [congruence|ring].
  - intros t. rewrite length_upd. lia.
  - intros q Hq. destruct (Nat.eqb_spec k q) as [->|Hne].
    + apply dlim_ext with (f := fun t => t); [|apply dlim_id]. intros t. rewrite nth_upd by lia. rewrite Nat.eqb_refl. reflexivity.
    + apply dlim_ext with (f := fun t => nth q x 0); [|apply dlim_const]. intros t. rewrite nth_upd by lia.
      destruct (Nat.eqb_spec k q); [congruence|reflexivity].
Qed.

Lemma lemma_C16 n (cs : list R) ms (x : list R) : monos_ok n ms -> NoDup ms -> length cs = length ms -> length x = n ->
  exists p p' g, make_mpoly (N:=RNum) srt n cs ms = Some p /\
    mp_evaluate_gradient p x = Some (p', (poly cs ms x, g)) /\
    mp_evaluate_gradient_simple p x = Some (poly cs ms x, g) /\
    length g = n /\
    forall k, (k < n)%nat -> derivable_pt_lim (fun s => poly cs ms (upd x k s)) (nth k x 0) (nth k g 0).
Proof.
  intros Hm Hd HL Hx. destruct (built_ok srt Hsrt RNum n cs ms Hm HL) as (p & E & W & Hn & Hv & Ha & Hc & Hms).
  pose proof (built_pval srt Hsrt n cs ms Hm HL p x E Hx) as HP. rewrite first_terms_nodup in HP by auto.
  pose proof (pgrad_partials n cs ms x p Hm Hd HL Hx E W Hn) as HD.
  assert (Hx' : length x = mp_nvars p) by congruence.
  pose proof (evaluate_gradient_ok p W x Hx' ltac:(lia) ltac:(lia)) as E2. rewrite HP in E2.
  exists p. eexists. exists (pgrad p x). split; [exact E|]. split; [exact E2|].
  assert (HLg : length (pgrad p x) = n) by (rewrite (length_pgrad p W); auto).
  split; [|split; auto].
  rewrite (evaluate_gradient_simple_ok p n x Hn) by (rewrite ?Hc, ?Hms; auto). rewrite Hc, Hms. do 2 f_equal.
  apply list_eq_nth with 0; [rewrite (length_adds (N:=RNum)), repeat_length; symmetry; exact HLg|].
  intros k Hk. rewrite (length_adds (N:=RNum)), repeat_length in Hk.
  apply (dlim_unique (fun s => poly cs ms (upd x k s)) (nth k x 0)); [|apply HD; auto].
  assert (Hupd : upd x k (nth k x 0) = x).
  { apply list_eq_nth with 0; [apply length_upd|]. intros i Hi. rewrite length_upd in Hi. rewrite nth_upd by lia.
    destruct (Nat.eqb_spec k i); subst; auto. }
  eapply dlim_eq; [|apply (poly_curve (fun s => upd x k s) (fun q => if (k =? q)%nat then 1 else 0) (nth k x 0) n); auto].
  - rewrite Hupd. rewrite <- simple_adds_sum with (w := fun q => if (k =? q)%nat then 1 else 0).
    pose proof (rsum_adds n (simple_adds cs ms x) (repeat 0 n) (fun q => if (k =? q)%nat then 1 else 0)) as HA.
    rewrite (rsum_single n k) in HA; auto.
    + rewrite Nat.eqb_refl, Rmult_1_r in HA. symmetry. etransitivity; [apply HA|].
      * intros q Hq. rewrite repeat_length. unfold simple_adds in Hq. apply in_flat_map in Hq as (i & Hi & Hq).
        apply in_flat_map in Hq as (j & Hj & [<-|[]]). apply in_seq in Hi, Hj. simpl.
        destruct (monos_ok_nth n ms i Hm ltac:(lia)) as [_ Hlt]. apply Hlt. lia.
      * apply repeat_length.
      * rewrite rsum_0; [ring|]. intros i Hi. rewrite nth_repeat. ring.
    + intros i _ Hne. destruct (Nat.eqb_spec k i); [congruence|ring].
  - intros q Hq. destruct (Nat.eqb_spec k q) as [->|Hne].
    + apply dlim_ext with (f := fun t => t); [|apply dlim_id]. intros t. rewrite nth_upd by lia. rewrite Nat.eqb_refl. reflexivity.
    + apply dlim_ext with (f := fun t => nth q x 0); [|apply dlim_const]. intros t. rewrite nth_upd by lia.
      destruct (Nat.eqb_spec k q); [congruence|reflexivity].
Qed.

Lemma block_concat {A} n (l : list (list A)) j x : (forall r, In r l -> length r = n) -> nth_error l j = Some x ->
  firstn n (skipn (j * n) (concat l)) = x.
Proof.
  revert j; induction l as [|r l IH]; intros [|j] H Hj; simpl in *; try discriminate.
  - injection Hj as ->. rewrite <- (H x) by auto. rewrite firstn_app, Nat.sub_diag, firstn_all, app_nil_r. reflexivity.
  - rewrite <- (H r) at 2 by auto. rewrite skipn_app, skipn_all2 by (rewrite H; auto; lia).
    simpl. rewrite H by auto. replace (n + j * n - n)%nat with (j * n)%nat by lia. apply IH; auto.
Qed.

Lemma lemma_C17 (N : Num) n cs ms : monos_ok n ms -> length cs = length ms ->
  forall (p : mpoly) (X : list (list N)) j x,
  make_mpoly srt n cs ms = Some p -> (forall r, In r X -> length r = n) -> nth_error X j = Some x ->
  exists p1 p2 v g vs gs,
    mp_evaluate_gradient p x = Some (p1, (v, g)) /\
    mp_evaluate_batch p (concat X) (length X) = Some (p2, (vs, gs)) /\
    length vs = length X /\ length gs = (length X * n)%nat /\
    nth_error vs j = Some v /\ firstn n (skipn (j * n) gs) = g.
Proof.
  intros Hm HL p X j x E HX Hj. destruct (built_ok srt Hsrt N n cs ms Hm HL) as (p' & E' & W & Hn & Hv & Ha & Hc & Hms).
  rewrite E' in E. injection E as ->.
  assert (Hx : length x = mp_nvars p) by (rewrite Hn; apply HX; eapply nth_error_In; eauto).
  destruct (evaluate_batch_ok p W X) as (v & a & _ & _ & E2); [intros; rewrite Hn; auto|].
  rewrite (evaluate_gradient_ok p W x Hx) by lia.
  assert (HG : forall r, In r (map (pgrad p) X) -> length r = n).
  { intros r Hr. apply in_map_iff in Hr as (z & <- & _). rewrite (length_pgrad p W); auto. }
  do 6 eexists. split; [reflexivity|]. split; [exact E2|]. split; [apply map_length|]. split.
  { rewrite (length_concat_const _ n) by auto. rewrite map_length. reflexivity. }
  split; [apply map_nth_error; auto|]. apply block_concat; auto. apply map_nth_error; auto.
Qed.

(** what a call returns, as a function of the immutable members *)
Lemma run_ok (N : Num) (p0 : @mpoly N) n : mp_wf p0 -> mp_nvars p0 = n ->
  forall c, mp_call_ok n c -> exists r, forall v a,
    (length (mp_nodes p0) <= length v)%nat -> (length (mp_nodes p0) <= length a)%nat ->
    exists v' a', run_mp_call (set_vals p0 v a) c = Some (set_vals p0 v' a', r) /\
      (nonempty_batch c -> (length (mp_nodes p0) <= length v')%nat /\ (length (mp_nodes p0) <= length a')%nat).
Proof.
  intros W0 Hn c Hc.
  assert (Ws : forall v a, mp_wf (set_vals p0 v a)) by (intros v a; destruct W0; constructor; auto).
  destruct c as [x|x|X]; simpl in Hc.
  - exists ([pval p0 x], []). intros v a Hv Ha. cbn [run_mp_call].
    rewrite (evaluate_ok (set_vals p0 v a) (Ws v a)) by (simpl; auto; lia). cbn [bind].
    do 2 eexists. split; [reflexivity|]. intros _. simpl. rewrite app_length, length_vlist, skipn_length, (wf_nodes p0 W0) in *.
    simpl in *. lia.
  - exists ([pval p0 x], pgrad p0 x). intros v a Hv Ha. cbn [run_mp_call].
    rewrite (evaluate_gradient_ok (set_vals p0 v a) (Ws v a)) by (simpl; auto; lia). cbn [bind].
    do 2 eexists. split; [reflexivity|]. intros _. simpl. rewrite !app_length, length_vlist, (length_blist _ (Ws v a)), !skipn_length.
    pose proof (wf_nodes p0 W0). simpl in *. lia.
  - exists (map (pval p0) X, concat (map (pgrad p0) X)). intros v a Hv Ha. cbn [run_mp_call].
    destruct (evaluate_batch_ok (set_vals p0 v a) (Ws v a) X) as (v' & a' & Hv' & Ha' & E); [simpl; rewrite Hn; auto|].
    rewrite E. exists v', a'. split; [reflexivity|]. simpl in Hv', Ha'. destruct X; [intros []|]. intros _. simpl in *. nia.
Qed.

Lemma lemma_C18 (N : Num) n cs ms : monos_ok n ms -> length cs = length ms ->
  forall (hist : list (@mp_call N)) c, List.Forall (mp_call_ok n) hist -> List.Forall nonempty_batch hist -> mp_call_ok n c ->
  exists p0 p1 r p2 p3, make_mpoly srt n cs ms = Some p0 /\ run_mp_calls p0 hist = Some p1 /\
    run_mp_call p1 c = Some (p2, r) /\ run_mp_call p0 c = Some (p3, r).
Proof.
  intros Hm HL hist c Hh Hne Hc. destruct (built_ok srt Hsrt N n cs ms Hm HL) as (p & E & W & Hn & Hv & Ha & _).
  assert (Hr : forall v a, (length (mp_nodes p) <= length v)%nat -> (length (mp_nodes p) <= length a)%nat ->
     exists v' a', run_mp_calls (set_vals p v a) hist = Some (set_vals p v' a') /\
       (length (mp_nodes p) <= length v')%nat /\ (length (mp_nodes p) <= length a')%nat).
  { induction hist as [|h hist IH]; intros v a Hv' Ha'; [exists v, a; auto|].
    inversion Hh; subst. inversion Hne; subst. destruct (run_ok N p (mp_nvars p) W eq_refl h) as (r & Hr); auto.
    destruct (Hr v a Hv' Ha') as (v' & a' & E' & Hb). cbn [run_mp_calls]. rewrite E'. cbn [bind].
    destruct Hb as [Hb1 Hb2]; auto. }
  assert (Hp : p = set_vals p (mp_nvals p) (mp_nadjs p)) by (destruct p; reflexivity).
  destruct (Hr (mp_nvals p) (mp_nadjs p)) as (v & a & Eh & Hv' & Ha'); try lia. rewrite <- Hp in Eh.
  destruct (run_ok N p n W Hn c Hc) as (r & Hrc).
  destruct (Hrc v a Hv' Ha') as (v2 & a2 & E2 & _).
  destruct (Hrc (mp_nvals p) (mp_nadjs p)) as (v3 & a3 & E3 & _); try lia. rewrite <- Hp in E3.
  exists p, (set_vals p v a), r. do 2 eexists. split; [exact E|]. split; [exact Eh|]. split; [exact E2|exact E3].
Qed.

Lemma lemma_C19 n ms : monos_ok n ms ->
  exists nodes edges aux,
    (forall (N : Num) (cs : list N), length cs = length ms -> exists p, make_mpoly srt n cs ms = Some p /\
       mp_nodes p = nodes /\ mp_edges p = edges /\ mp_naux p = length aux) /\
    NoDup nodes /\ length nodes = (n + length edges)%nat /\
    (forall i, (i < n)%nat -> nth_error nodes i = Some [i]) /\ incl ms nodes /\
    (forall i a b, nth_error edges i = Some (a, b) -> (a < n + i)%nat /\ (b < n + i)%nat /\
       exists u v w, nth_error nodes a = Some u /\ nth_error nodes b = Some v /\ nth_error nodes (n + i) = Some w /\
         Permutation (u ++ v) w) /\
    NoDup aux /\ (forall v, In v aux <-> In v nodes /\ ~ In v ms /\ ~ (exists i, (i < n)%nat /\ v = [i])).
Proof.
  intros Hm. destruct (make_mpoly_ok srt Hsrt n ms Hm) as (nodes & edges & naux & G & H).
  destruct (go_split _ _ _ _ _ G) as (rest & En & HL & Hrest).
  exists nodes, edges, (filter (fun x => negb (length x =? 1)%nat && negb (if in_dec (list_eq_dec Nat.eq_dec) x ms then true else false)) nodes).
  assert (Hnn : length nodes = (n + length edges)%nat) by (rewrite En, app_length, map_length, seq_length; lia).
  assert (Hdup : NoDup nodes) by apply ss_nodup, (go_ss _ _ _ _ _ G).
  split.
  { intros N cs HLc. destruct (H N cs HLc) as (nc & E & _). eexists. split; [exact E|]. simpl. rewrite (go_naux _ _ _ _ _ G). auto. }
  split; auto. split; auto. split.
  { intros i Hi. rewrite En, nth_error_app1 by (rewrite map_length, seq_length; auto).
    rewrite nth_error_map. rewrite (nth_error_nth' _ 0%nat) by (rewrite seq_length; auto). rewrite seq_nth by auto. reflexivity. }
  split; [apply (go_monos _ _ _ _ _ G)|]. split.
  { intros i a b He. assert (Hi : (i < length edges)%nat) by (apply nth_error_Some; congruence).
    destruct (go_edges _ _ _ _ _ G i _ He) as (Ha & Hb & HP). simpl in *. split; auto. split; auto.
    exists (nth a nodes []), (nth b nodes []), (nth (n + i) nodes []).
    repeat (split; [apply nth_error_nth'; lia|]). exact HP. }
  split; [apply NoDup_filter; auto|].
  intros v. rewrite filter_In, andb_true_iff, !negb_true_iff. split.
  - intros (Hv & H1 & H2). split; auto. split.
    + intros Hi. destruct (in_dec (list_eq_dec Nat.eq_dec) v ms); [discriminate|contradiction].
    + intros (i & _ & ->). simpl in H1. discriminate.
  - intros (Hv & H1 & H2). split; auto. split.
    + apply Nat.eqb_neq. intros H3. apply H2. destruct v as [|i [|]]; try discriminate. exists i. split; auto.
      pose proof (go_okn _ _ _ _ _ G) as Hok. rewrite Forall_forall in Hok. destruct (Hok _ Hv) as [_ HF]. inversion HF; auto.
    + destruct (in_dec (list_eq_dec Nat.eq_dec) v ms); [contradiction|reflexivity].
Qed.
End Thms.
