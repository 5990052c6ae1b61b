(** Evaluation of polynomials: what the passes compute, for every scalar arithmetic. *)
From Coq Require Import List Arith ZArith Lia Permutation Bool.
From Verif Require Import Base BaseLemmas Segs BlasModel BlasLemmas ToolsModel MpModel.
Import ListNotations.

Lemma idx_inj b q j q' j' : j < b -> j' < b -> q * b + j = q' * b + j' -> q = q' /\ j = j'.
Proof.
  intros Hj Hj' H.
  assert (q = q').
  { destruct (Nat.lt_trichotomy q q') as [Hq|[Hq|Hq]]; auto; exfalso; nia. }
  subst. split; auto. lia.
Qed.

Section Gen.
Context {N : Num}.

(** a loop overwriting one distinct cell per iteration *)
Lemma for_cells (ix : nat -> nat) (g : nat -> N) b body (L : list N) :
  (forall j, j < b -> ix j < length L) ->
  (forall j j', j < b -> j' < b -> ix j = ix j' -> j = j') ->
  (forall k M, k < b -> length M = length L ->
     (forall i, (forall j, j < k -> i <> ix j) -> nth i M nzero = nth i L nzero) ->
     body k M = Some (upd M (ix k) (g k))) ->
  exists L', for_ b body L = Some L' /\ length L' = length L /\
    (forall j, j < b -> nth (ix j) L' nzero = g j) /\
    (forall i, (forall j, j < b -> i <> ix j) -> nth i L' nzero = nth i L nzero).
Proof.
  intros Hb Hinj Hbody.
  destruct (for_inv (fun k M => length M = length L /\ (forall j, j < k -> nth (ix j) M nzero = g j) /\
     (forall i, (forall j, j < k -> i <> ix j) -> nth i M nzero = nth i L nzero)) b body L) as (L' & E & H); eauto.
  - split; auto. split; auto. intros j Hj; lia.
  - intros k M Hk (HL & H1 & H2). rewrite Hbody by auto. eexists. split; [reflexivity|].
    split; [rewrite length_upd; auto|]. split.
    + intros j Hj. rewrite nth_upd by (rewrite HL; auto). destruct (Nat.eqb_spec (ix k) (ix j)) as [e|e].
      * apply Hinj in e; try lia. subst; auto.
      * apply H1. destruct (Nat.eq_dec j k); subst; try lia; congruence.
    + intros i Hi. rewrite nth_upd by (rewrite HL; auto). destruct (Nat.eqb_spec (ix k) i) as [e|e].
      * exfalso. apply (Hi k); auto.
      * apply H2. intros j Hj. apply Hi. lia.
Qed.

Variable p : @mpoly N.
Notation n := (mp_nvars p).
Notation E := (mp_edges p).
Notation m := (length (mp_edges p)).
Notation nn := (length (mp_nodes p)).
Notation nc := (mp_ncoeffs p).

Record mp_wf : Prop := {
  wf_nodes : nn = n + m;
  wf_nc : length nc = nn;
  wf_edge : forall i e, nth_error E i = Some e -> fst e < n + i /\ snd e < n + i
}.
Hypothesis W : mp_wf.

Definition ed (i : nat) : nat * nat := nth i E (0, 0).
Lemma ed_ok i : i < m -> rd E i = Some (ed i) /\ fst (ed i) < n + i /\ snd (ed i) < n + i.
Proof.
  intros H. unfold ed. split; [apply rd_some; auto|].
  apply (wf_edge W). apply nth_error_nth'. auto.
Qed.

Fixpoint vlist (x : list N) (k : nat) : list N :=
  match k with
  | O => x
  | S k => let v := vlist x k in v ++ [nmul (nth (fst (ed k)) v nzero) (nth (snd (ed k)) v nzero)]
  end.
Lemma length_vlist x k : length (vlist x k) = length x + k.
Proof. induction k; simpl; auto. rewrite app_length, IHk. simpl. lia. Qed.
Lemma vlist_prefix x k k' q : k <= k' -> q < length x + k -> nth q (vlist x k') nzero = nth q (vlist x k) nzero.
Proof.
  induction 1 as [|k' Hk IH]; intros Hq; auto. simpl. rewrite app_nth1; auto. rewrite length_vlist. lia.
Qed.
Lemma vlist_step x k k' : k < k' -> length x = n -> k < m ->
  nth (n + k) (vlist x k') nzero = nmul (nth (fst (ed k)) (vlist x k') nzero) (nth (snd (ed k)) (vlist x k') nzero).
Proof.
  intros Hk HL Hm. destruct (ed_ok k Hm) as (_ & H0 & H1).
  rewrite (vlist_prefix x (S k) k') by lia. simpl. rewrite app_nth2 by (rewrite length_vlist; lia).
  rewrite length_vlist, HL, Nat.sub_diag. cbn [nth].
  rewrite <- (vlist_prefix x k k' (fst (ed k))), <- (vlist_prefix x k k' (snd (ed k))) by lia. reflexivity.
Qed.

Definition bstep (V : list N) (i : nat) (adj : list N) : list N :=
  let a := add_at adj (fst (ed i)) (nmul (nth (n + i) adj nzero) (nth (snd (ed i)) V nzero)) in
  add_at a (snd (ed i)) (nmul (nth (n + i) a nzero) (nth (fst (ed i)) V nzero)).
Fixpoint blist (V : list N) (k : nat) : list N :=
  match k with O => nc | S k => bstep V (m - 1 - k) (blist V k) end.
Lemma length_blist V k : length (blist V k) = nn.
Proof.
  induction k; simpl; [apply (wf_nc W)|]. unfold bstep. rewrite !length_add_at. auto.
Qed.

Definition pval (x : list N) : N := nsum nn (fun q => nmul (nth q nc nzero) (nth q (vlist x m) nzero)).
Definition pgrad (x : list N) : list N := firstn n (blist (vlist x m) m).

Lemma length_pgrad x : length (pgrad x) = n.
Proof. unfold pgrad. rewrite firstn_length, length_blist. pose proof (wf_nodes W). lia. Qed.

Lemma skipn_cons_nth {A} (l : list A) k d : k < length l -> skipn k l = nth k l d :: skipn (S k) l.
Proof. revert k; induction l as [|y l IH]; intros [|k] H; simpl in *; try lia; auto. apply IH. lia. Qed.

Lemma init_forward_ok x vals : length x = n -> n <= length vals ->
  init_forward p x vals = Some (x ++ skipn n vals).
Proof.
  intros HL Hv. unfold init_forward.
  apply (for_trace (fun k => firstn k x ++ skipn k vals)); auto.
  - rewrite <- HL, firstn_all. reflexivity.
  - intros k Hk. rewrite (rd_some x k nzero) by lia. cbn [bind].
    rewrite wr_some by (rewrite app_length, firstn_length, skipn_length; lia). f_equal.
    rewrite (skipn_cons_nth vals k nzero) by lia.
    rewrite upd_app_mid by (rewrite firstn_length; lia).
    rewrite (firstn_S_nth x k (nth k x nzero)) by (apply nth_error_nth'; lia). rewrite <- app_assoc. reflexivity.
Qed.

Lemma forward_pass_ok x vals : length x = n -> nn <= length vals ->
  forward_pass p (x ++ skipn n vals) = Some (vlist x m ++ skipn nn vals).
Proof.
  intros HL Hv. pose proof (wf_nodes W) as Hn. unfold forward_pass.
  apply (for_trace (fun k => vlist x k ++ skipn (n + k) vals)).
  - simpl. rewrite Nat.add_0_r. reflexivity.
  - rewrite Hn. reflexivity.
  - intros k Hk. destruct (ed_ok k Hk) as (-> & H0 & H1). destruct (ed k) as [i0 i1] eqn:Ee. simpl in H0, H1. cbn [bind].
    rewrite (rd_some _ i0 nzero) by (rewrite app_length, length_vlist; lia).
    rewrite (rd_some _ i1 nzero) by (rewrite app_length, length_vlist; lia). cbn [bind].
    rewrite wr_some by (rewrite app_length, length_vlist, skipn_length; lia). f_equal.
    rewrite !app_nth1 by (rewrite length_vlist; lia).
    rewrite (skipn_cons_nth vals (n + k) nzero) by lia.
    rewrite upd_app_mid by (rewrite length_vlist; lia). cbn [vlist]. rewrite Ee. cbn [fst snd]. rewrite <- app_assoc.
    replace (n + S k) with (S (n + k)) by lia. reflexivity.
Qed.

Lemma ddot_nc x vals : length x = n ->
  ddot (length nc) nc (vlist x m ++ skipn nn vals) = Some (pval x).
Proof.
  intros HL. pose proof (wf_nodes W) as Hn. rewrite (ddot_ok _ _ _ nzero); [|lia|rewrite app_length, length_vlist, (wf_nc W); lia].
  f_equal. unfold pval. rewrite (wf_nc W). apply nsum_ext. intros q Hq. rewrite app_nth1 by (rewrite length_vlist; lia). reflexivity.
Qed.

Lemma evaluate_ok x : length x = n -> nn <= length (mp_nvals p) ->
  mp_evaluate p x = Some (set_vals p (vlist x m ++ skipn nn (mp_nvals p)) (mp_nadjs p), pval x).
Proof.
  intros HL Hv. pose proof (wf_nodes W) as Hn. unfold mp_evaluate.
  rewrite init_forward_ok by lia. cbn [bind]. rewrite forward_pass_ok by auto. cbn [bind].
  rewrite ddot_nc by auto. reflexivity.
Qed.

Lemma add_at_app_l (a b : list N) i v : i < length a -> add_at (a ++ b) i v = add_at a i v ++ b.
Proof. intros H. exact (add_at_mid [] a b i v H). Qed.

Lemma init_backward_ok adjs : nn <= length adjs -> init_backward p adjs = Some (nc ++ skipn nn adjs).
Proof.
  intros H. unfold init_backward. destruct (copy_to_swr nc 0) as [_ Hs].
  rewrite <- (firstn_skipn nn adjs) at 1.
  specialize (Hs [] (firstn nn adjs) (skipn nn adjs)). simpl in Hs. apply Hs; auto.
  rewrite firstn_length, (wf_nc W). lia.
Qed.

Lemma backward_pass_ok V tail adjs : length V = nn -> 
  backward_pass p (V ++ tail) (nc ++ adjs) = Some (blist V m ++ adjs).
Proof.
  intros HV. pose proof (wf_nodes W) as Hn. unfold backward_pass, for_down.
  apply (for_trace (fun k => blist V k ++ adjs)); auto.
  intros k Hk. pose proof (length_blist V k) as HB.
  destruct (ed_ok (m - 1 - k) ltac:(lia)) as (-> & H0 & H1). cbn [blist]. unfold bstep.
  set (i := m - 1 - k) in *. destruct (ed i) as [i0 i1]. cbn [fst snd bind] in *.
  rewrite (rd_some _ (n + i) nzero) by (rewrite app_length; lia). cbn [bind].
  rewrite (rd_some _ i1 nzero) by (rewrite app_length; lia). cbn [bind].
  rewrite !app_nth1 by lia. rewrite addto_some by (rewrite app_length; lia). cbn [bind].
  rewrite add_at_app_l by lia.
  rewrite (rd_some _ (n + i) nzero) by (rewrite app_length, length_add_at; lia). cbn [bind].
  rewrite (rd_some _ i0 nzero) by (rewrite app_length; lia). cbn [bind].
  rewrite !app_nth1 by (try rewrite length_add_at; lia). rewrite addto_some by (rewrite app_length, length_add_at; lia).
  rewrite add_at_app_l by (rewrite length_add_at; lia). reflexivity.
Qed.

Lemma extract_gradient_ok adj tail : nn <= length adj -> extract_gradient p (adj ++ tail) = Some (firstn n adj).
Proof.
  intros H. pose proof (wf_nodes W) as Hn. unfold extract_gradient.
  apply (for_trace (fun k => firstn k adj ++ repeat nzero (n - k))).
  - rewrite Nat.sub_0_r. reflexivity.
  - rewrite Nat.sub_diag, app_nil_r. reflexivity.
  - intros k Hk. rewrite (rd_some _ k nzero) by (rewrite app_length; lia). cbn [bind].
    rewrite wr_some by (rewrite app_length, firstn_length, repeat_length; lia). f_equal.
    replace (n - k) with (S (n - S k)) by lia. cbn [repeat].
    rewrite upd_app_mid by (rewrite firstn_length; lia). rewrite app_nth1 by lia.
    rewrite (firstn_S_nth adj k (nth k adj nzero)) by (apply nth_error_nth'; lia). rewrite <- app_assoc. reflexivity.
Qed.

Lemma evaluate_gradient_ok x : length x = n -> nn <= length (mp_nvals p) -> nn <= length (mp_nadjs p) ->
  mp_evaluate_gradient p x =
    Some (set_vals p (vlist x m ++ skipn nn (mp_nvals p)) (blist (vlist x m) m ++ skipn nn (mp_nadjs p)), (pval x, pgrad x)).
Proof.
  intros HL Hv Ha. pose proof (wf_nodes W) as Hn. unfold mp_evaluate_gradient.
  rewrite init_forward_ok by lia. cbn [bind]. rewrite forward_pass_ok by auto. cbn [bind].
  rewrite ddot_nc by auto. cbn [bind]. rewrite init_backward_ok by auto. cbn [bind].
  rewrite backward_pass_ok by (rewrite length_vlist; lia). cbn [bind].
  rewrite extract_gradient_ok by (rewrite length_blist; lia). reflexivity.
Qed.

(** ** batches *)
(** the first [K] columns-of-[b] of [L] hold, for row [j], the list [A j] *)
Definition cols (b K : nat) (L : list N) (A : nat -> list N) : Prop :=
  length L = b * nn /\ forall q j, q < K -> j < b -> nth (q * b + j) L nzero = nth q (A j) nzero.

Lemma idx_b b q j : q < nn -> j < b -> q * b + j < b * nn.
Proof. intros. nia. Qed.

Lemma nth_firstn_lt (A : Type) (l : list A) k q d : q < k -> nth q (firstn k l) d = nth q l d.
Proof. revert k q; induction l as [|x l IH]; intros [|k] [|q] H; simpl; auto; try lia. apply IH; lia. Qed.

Section Batch.
Variable X : list (list N).
Hypothesis HX : forall r, In r X -> length r = n.
Notation b := (length X).
Notation row j := (nth j X []).

Lemma row_len j : j < b -> length (row j) = n.
Proof. intros H. apply HX. apply nth_In. auto. Qed.

(** one inner loop over the rows, rewriting node [q0] *)
Lemma for_rows q0 (g : nat -> N) body L :
  length L = b * nn -> q0 < nn ->
  (forall k M, k < b -> length M = b * nn ->
     (forall q j, q <> q0 -> j < b -> nth (q * b + j) M nzero = nth (q * b + j) L nzero) ->
     nth (q0 * b + k) M nzero = nth (q0 * b + k) L nzero ->
     body k M = Some (upd M (q0 * b + k) (g k))) ->
  exists L', for_ b body L = Some L' /\ length L' = b * nn /\
    (forall j, j < b -> nth (q0 * b + j) L' nzero = g j) /\
    (forall q j, q <> q0 -> j < b -> nth (q * b + j) L' nzero = nth (q * b + j) L nzero).
Proof.
  intros HL Hq Hbody.
  destruct (for_cells (fun j => q0 * b + j) g b body L) as (L' & E' & H1 & H2 & H3).
  - intros j Hj. rewrite HL. apply idx_b; auto.
  - intros; lia.
  - intros k M Hk HM H. apply Hbody; auto; try lia.
    + intros q j Hne Hj. apply H. intros j' Hj' Heq. apply idx_inj in Heq; lia.
    + apply H. intros j' Hj' Heq. lia.
  - exists L'. split; auto. split; [lia|]. split; auto. intros q j Hne Hj. apply H3. intros j' Hj' Heq. apply idx_inj in Heq; lia.
Qed.

Lemma batched_init_forward_ok vals :
  exists L, batched_init_forward p (concat X) b vals = Some L /\ cols b n L (fun j => row j).
Proof.
  pose proof (wf_nodes W) as Hn. unfold batched_init_forward.
  apply (for_inv (fun k L => cols b k L (fun j => row j))).
  - split; [apply length_resize|]. intros; lia.
  - intros k L Hk [HL HC].
    destruct (for_rows k (fun j => nth k (row j) nzero) (fun j vals => xi <- rd (concat X) (j * n + k) ;; wr vals (k * b + j) xi) L)
      as (L' & -> & H1 & H2 & H3); auto; [lia| |].
    + intros j M Hj HM _ _. rewrite (rd_concat_const X n j k nzero) by auto. cbn [bind]. apply wr_some. rewrite HM. apply idx_b; lia.
    + eexists. split; [reflexivity|]. split; auto. intros q j Hq Hj. destruct (Nat.eq_dec q k) as [->|Hne]; auto.
      rewrite H3 by auto. apply HC; lia.
Qed.

Lemma batched_forward_pass_ok L0 : cols b n L0 (fun j => row j) ->
  exists L, batched_forward_pass p b L0 = Some L /\ cols b nn L (fun j => vlist (row j) m).
Proof.
  intros H0. pose proof (wf_nodes W) as Hn. unfold batched_forward_pass.
  match goal with |- exists L, ?x = _ /\ _ => cut (exists L, x = Some L /\ cols b (n + m) L (fun j => vlist (row j) m)) end.
  { intros (L & H1 & H2 & H3). exists L. split; auto. split; auto. intros; apply H3; lia. }
  apply (for_inv (fun k L => cols b (n + k) L (fun j => vlist (row j) k))).
  - rewrite Nat.add_0_r. exact H0.
  - intros k L Hk [HL HC]. destruct (ed_ok k Hk) as (Er & Hi0 & Hi1). rewrite Er. destruct (ed k) as [i0 i1] eqn:Ee. cbn [bind fst snd] in *.
    destruct (for_rows (n + k) (fun j => nmul (nth i0 (vlist (row j) k) nzero) (nth i1 (vlist (row j) k) nzero))
       (fun j vals => v0 <- rd vals (i0 * b + j) ;; v1 <- rd vals (i1 * b + j) ;; wr vals ((n + k) * b + j) (nmul v0 v1)) L)
      as (L' & E' & H1 & H2 & H3); auto; [lia| |].
    + intros j M Hj HM Hother _. 
      rewrite (rd_some M (i0 * b + j) nzero) by (rewrite HM; apply idx_b; lia).
      rewrite (rd_some M (i1 * b + j) nzero) by (rewrite HM; apply idx_b; lia). cbn [bind].
      rewrite !Hother, !HC by lia. apply wr_some. rewrite HM. apply idx_b; lia.
    + rewrite E'. eexists. split; [reflexivity|]. split; auto. intros q j Hq Hj. cbn [vlist]. rewrite Ee. cbn [fst snd].
      pose proof (row_len j Hj) as HR.
      destruct (Nat.eq_dec q (n + k)) as [->|Hne].
      * rewrite H2 by auto. rewrite app_nth2 by (rewrite length_vlist; lia). rewrite length_vlist, HR, Nat.sub_diag. reflexivity.
      * rewrite H3 by auto. rewrite app_nth1 by (rewrite length_vlist; lia). apply HC; lia.
Qed.

Lemma batched_value_ok L : cols b nn L (fun j => vlist (row j) m) ->
  for_ nn (fun i f =>
      c <- rd nc i ;;
      for_ b (fun j f => v <- rd L (i * b + j) ;; addto f j (nmul c v)) f) (repeat nzero b) = Some (map pval X).
Proof.
  intros [HL HC]. pose proof (wf_nodes W) as Hn.
  apply (for_trace (fun k => tab b (fun j => nsum k (fun q => nmul (nth q nc nzero) (nth q (vlist (row j) m) nzero))))).
  - apply list_eq_nth with nzero; rewrite repeat_length; [rewrite length_tab; auto|]. intros i Hi. rewrite nth_repeat, nth_tab; auto.
  - apply list_eq_nth with (pval []); rewrite map_length; [rewrite length_tab; auto|]. intros i Hi.
    rewrite nth_tab by auto. rewrite (map_nth pval X [] i). reflexivity.
  - intros k Hk. rewrite (rd_some nc k nzero) by (rewrite (wf_nc W); lia). cbn [bind].
    destruct (for_cells (fun j => j) (fun j => nsum (S k) (fun q => nmul (nth q nc nzero) (nth q (vlist (row j) m) nzero))) b
      (fun j f => v <- rd L (k * b + j) ;; addto f j (nmul (nth k nc nzero) v))
      (tab b (fun j => nsum k (fun q => nmul (nth q nc nzero) (nth q (vlist (row j) m) nzero))))) as (f' & -> & H1 & H2 & _).
    + intros j Hj. rewrite length_tab. auto.
    + auto.
    + intros j M Hj HM H. rewrite length_tab in HM. rewrite (rd_some L _ nzero) by (rewrite HL; apply idx_b; auto). cbn [bind].
      unfold addto. rewrite (rd_some M j nzero) by lia. cbn [bind]. rewrite wr_some by lia. do 2 f_equal.
      rewrite H by lia. rewrite nth_tab, HC by auto. reflexivity.
    + f_equal. rewrite length_tab in H1. apply list_eq_nth with nzero; [rewrite length_tab; auto|]. intros i Hi.
      rewrite H2, nth_tab by lia. reflexivity.
Qed.

Lemma batched_init_backward_ok adjs :
  exists L, batched_init_backward p b adjs = Some L /\ cols b nn L (fun _ => nc).
Proof.
  unfold batched_init_backward. rewrite (wf_nc W).
  apply (for_inv (fun k L => cols b k L (fun _ => nc))).
  - split; [apply length_resize|]. intros; lia.
  - intros k L Hk [HL HC].
    destruct (for_rows k (fun j => nth k nc nzero) (fun j adjs => c <- rd nc k ;; wr adjs (k * b + j) c) L)
      as (L' & -> & H1 & H2 & H3); auto.
    + intros j M Hj HM _ _. rewrite (rd_some nc k nzero) by (rewrite (wf_nc W); auto). cbn [bind]. apply wr_some. rewrite HM. apply idx_b; lia.
    + eexists. split; [reflexivity|]. split; auto. intros q j Hq Hj. destruct (Nat.eq_dec q k) as [->|Hne]; auto.
      rewrite H3 by auto. apply HC; lia.
Qed.

(** one [a[i0][j] += a[n+i][j]*v[i1][j]] loop *)
Lemma batched_add_ok A V L VL i i0 i1 : cols b nn L A -> cols b nn VL V -> i < m -> i0 < n + i -> i1 < n + i ->
  (forall j, j < b -> length (A j) = nn) ->
  exists L', for_ b (fun j adjs =>
      a <- rd adjs ((n + i) * b + j) ;;
      v1 <- rd VL (i1 * b + j) ;;
      addto adjs (i0 * b + j) (nmul a v1)) L = Some L' /\
    cols b nn L' (fun j => add_at (A j) i0 (nmul (nth (n + i) (A j) nzero) (nth i1 (V j) nzero))).
Proof.
  intros [HL HC] [HVL HVC] Hi H0 H1 HA. pose proof (wf_nodes W) as Hn.
  destruct (for_rows i0 (fun j => nadd (nth i0 (A j) nzero) (nmul (nth (n + i) (A j) nzero) (nth i1 (V j) nzero)))
     (fun j adjs => a <- rd adjs ((n + i) * b + j) ;; v1 <- rd VL (i1 * b + j) ;; addto adjs (i0 * b + j) (nmul a v1)) L)
     as (L' & -> & E1 & E2 & E3); auto; [lia| |].
  - intros j M Hj HM Hother Hself.
    rewrite (rd_some M ((n + i) * b + j) nzero) by (rewrite HM; apply idx_b; lia). cbn [bind].
    rewrite (rd_some VL (i1 * b + j) nzero) by (rewrite HVL; apply idx_b; lia). cbn [bind].
    unfold addto. rewrite (rd_some M (i0 * b + j) nzero) by (rewrite HM; apply idx_b; lia). cbn [bind].
    rewrite wr_some by (rewrite HM; apply idx_b; lia). rewrite Hself, Hother, !HC, HVC by lia. reflexivity.
  - eexists. split; [reflexivity|]. split; auto. intros q j Hq Hj.
    rewrite nth_add_at by (rewrite HA by auto; lia). destruct (Nat.eqb_spec i0 q) as [->|Hne].
    + rewrite E2 by auto. reflexivity.
    + rewrite E3 by auto. apply HC; auto.
Qed.

Lemma batched_backward_pass_ok L0 VL V : cols b nn VL V -> cols b nn L0 (fun _ => nc) ->
  exists L, batched_backward_pass p b VL L0 = Some L /\ cols b nn L (fun j => blist (V j) m).
Proof.
  intros HV H0. pose proof (wf_nodes W) as Hn. unfold batched_backward_pass, for_down.
  apply (for_inv (fun k L => cols b nn L (fun j => blist (V j) k))); auto.
  intros k L Hk HC. destruct (ed_ok (m - 1 - k) ltac:(lia)) as (-> & Hi0 & Hi1). cbn [blist]. unfold bstep.
  set (i := m - 1 - k) in *. destruct (ed i) as [i0 i1]. cbn [fst snd bind] in *.
  destruct (batched_add_ok _ _ L VL i i0 i1 HC HV) as (L1 & -> & HC1); auto; [lia|intros; apply length_blist|]. cbn [bind].
  apply (batched_add_ok _ _ L1 VL i i1 i0 HC1 HV); auto; [lia|]. intros. rewrite length_add_at. apply length_blist.
Qed.

Lemma batched_extract_ok L A : cols b nn L A -> (forall j, j < b -> length (A j) = nn) ->
  batched_extract_gradient p b L = Some (concat (map (fun j => firstn n (A j)) (seq 0 b))).
Proof.
  intros [HL HC] HA. pose proof (wf_nodes W) as Hn. unfold batched_extract_gradient.
  destruct (for_inv (fun k g => length g = n * b /\ forall j q, j < b -> q < k -> nth (j * n + q) g nzero = nth q (A j) nzero) n
   (fun i g => for_ b (fun j g => a <- rd L (i * b + j) ;; wr g (j * n + i) a) g) (repeat nzero (n * b))) as (g & -> & Hg & HG).
  - split; [apply repeat_length|]. intros; lia.
  - intros k g Hk [Hg HG].
    destruct (for_cells (fun j => j * n + k) (fun j => nth k (A j) nzero) b (fun j g => a <- rd L (k * b + j) ;; wr g (j * n + k) a) g)
     as (g' & -> & H1 & H2 & H3).
    + intros j Hj. rewrite Hg. nia.
    + intros j j' _ _ H. apply idx_inj in H; lia.
    + intros j M Hj HM _. rewrite (rd_some L _ nzero) by (rewrite HL; apply idx_b; lia). cbn [bind].
      rewrite wr_some by (rewrite HM, Hg; nia). rewrite HC by lia. reflexivity.
    + eexists. split; [reflexivity|]. split; [lia|]. intros j q Hj Hq. destruct (Nat.eq_dec q k) as [->|]; auto.
      rewrite H3; [apply HG; lia|]. intros j' Hj' H. apply idx_inj in H; lia.
  - f_equal.
    assert (HCL : forall r, In r (map (fun j => firstn n (A j)) (seq 0 b)) -> length r = n).
    { intros r Hr. apply in_map_iff in Hr as (j & <- & Hj). apply in_seq in Hj. rewrite firstn_length, HA; lia. }
    apply list_eq_nth with nzero.
    + rewrite (length_concat_const _ n) by auto. rewrite map_length, seq_length. lia.
    + intros i Hi. rewrite Hg in Hi. assert (Hn0 : n <> 0) by nia.
      rewrite (Nat.div_mod i n Hn0), (Nat.mul_comm n). set (j := i / n). set (q := i mod n).
      assert (q < n) by (apply Nat.mod_upper_bound; auto).
      assert (j < b) by (apply Nat.div_lt_upper_bound; auto; lia).
      rewrite HG by auto. symmetry. eapply rd_nth.
      rewrite (rd_concat_const _ n j q nzero) by (auto; rewrite map_length, seq_length; auto).
      f_equal. rewrite (nth_indep _ [] (firstn n (A 0))) by (rewrite map_length, seq_length; auto).
      rewrite (map_nth (fun j => firstn n (A j))), seq_nth by auto. simpl.
      apply nth_firstn_lt; auto.
Qed.

Lemma evaluate_batch_ok :
  exists v a, length v = b * nn /\ length a = b * nn /\
    mp_evaluate_batch p (concat X) b = Some (set_vals p v a, (map pval X, concat (map pgrad X))).
Proof.
  unfold mp_evaluate_batch.
  destruct (batched_init_forward_ok (mp_nvals p)) as (L1 & -> & C1). cbn [bind].
  destruct (batched_forward_pass_ok L1 C1) as (L2 & -> & C2). cbn [bind].
  rewrite batched_value_ok by auto. cbn [bind].
  destruct (batched_init_backward_ok (mp_nadjs p)) as (L3 & -> & C3). cbn [bind].
  destruct (batched_backward_pass_ok L3 L2 _ C2 C3) as (L4 & -> & C4). cbn [bind].
  rewrite (batched_extract_ok L4 _ C4) by (intros; apply length_blist). cbn [bind].
  exists L2, L4. split; [apply C2|]. split; [apply C4|]. do 4 f_equal.
  change (map (fun j => pgrad (row j)) (seq 0 b) = map pgrad X). rewrite <- (map_map (fun j => row j) pgrad (seq 0 b)). f_equal.
  clear. induction X as [|r Y IH]; auto. simpl. f_equal. rewrite <- seq_shift, map_map. exact IH.
Qed.
End Batch.
End Gen.
