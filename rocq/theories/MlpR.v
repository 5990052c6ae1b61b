(** The perceptron over the reals: value and Jacobian; history and batch lemmas. *)
From Coq Require Import List Arith ZArith Reals Lia Lra.
From Coquelicot Require Import Coquelicot.
From Verif Require Import Base BaseLemmas Segs Instances BlasLemmas RSums MlpModel MlpProofs MlpSpec.
Import ListNotations.

(** ** generic consequences *)
Section Gen.
Local Open Scope nat_scope.
Context {N : Num}.
Variables (d0 : nat) (Ws : list (list (list N))) (scale : N).
Hypothesis Hd0 : 1 <= d0.
Hypothesis HWs : 1 <= length Ws.
Hypothesis Hch : layers_ok d0 Ws.

Lemma layers_chain : chain d0 Ws.
Proof. clear -Hch. revert d0 Hch. induction Ws as [|W r IH]; intros d H; [exact I|]. simpl in *. intuition. Qed.

Definition res_of (c : mlp_call (N:=N)) : list N * list N :=
  match c with
  | CallEval x => (out_of Ws (act_e scale) x, [])
  | CallGrad x => (out_of Ws (act_g scale) x, concat (Dk d0 Ws scale (length Ws - 1) x))
  | CallBatch X => (flat_map (out_of Ws (act_e scale)) X, [])
  | CallGradBatch X => (flat_map (out_of Ws (act_g scale)) X,
                        flat_map (fun x => concat (Dk d0 Ws scale (length Ws - 1) x)) X)
  end.

Lemma run_call_ok m c : wf_mlp d0 Ws scale m -> call_ok d0 c ->
  exists m', run_call m c = Some (m', res_of c) /\ wf_mlp d0 Ws scale m'.
Proof.
  intros Hm Hc. pose proof layers_chain as HC. destruct c as [x|x|X|X]; cbn [run_call res_of call_ok] in *.
  - destruct (evaluate_ok d0 Ws scale Hd0 HWs HC m x Hm Hc) as (m' & -> & H). cbn [bind]. eauto.
  - destruct (evaluate_gradient_ok d0 Ws scale Hd0 HWs HC m x Hm Hc) as (m' & -> & H). eauto.
  - destruct (evaluate_batch_ok d0 Ws scale Hd0 HWs HC m X Hm Hc) as (m' & -> & H). cbn [bind]. eauto.
  - destruct (evaluate_gradient_batch_ok d0 Ws scale Hd0 HWs HC m X Hm Hc) as (m' & -> & H). eauto.
Qed.

Lemma run_calls_ok m cs : wf_mlp d0 Ws scale m -> List.Forall (call_ok d0) cs ->
  exists m', run_calls m cs = Some m' /\ wf_mlp d0 Ws scale m'.
Proof.
  intros Hm Hc. revert m Hm. induction Hc as [|c cs Hc Hcs IH]; intros m Hm; cbn [run_calls].
  - eauto.
  - destruct (run_call_ok m c Hm Hc) as (m' & -> & Hm'). cbn [bind]. auto.
Qed.

Lemma fresh_ok : exists m, make_mlp (net_shape d0 Ws) (net_weights Ws) scale = Some m /\ wf_mlp d0 Ws scale m.
Proof. apply make_mlp_wf; auto. Qed.

Lemma lemma_C24 (hist : list mlp_call) (c : mlp_call) :
  List.Forall (call_ok d0) hist -> call_ok d0 c ->
  exists m0 m1 r m2 m3, make_mlp (net_shape d0 Ws) (net_weights Ws) scale = Some m0 /\
    run_calls m0 hist = Some m1 /\
    run_call m1 c = Some (m2, r) /\ run_call m0 c = Some (m3, r).
Proof.
  intros Hh Hc. destruct fresh_ok as (m0 & E0 & W0).
  destruct (run_calls_ok m0 hist W0 Hh) as (m1 & E1 & W1).
  destruct (run_call_ok m1 c W1 Hc) as (m2 & E2 & _).
  destruct (run_call_ok m0 c W0 Hc) as (m3 & E3 & _).
  exists m0, m1, (res_of c), m2, m3. auto.
Qed.

Lemma length_out act x : length (out_of Ws act x) = nth (length Ws) (net_shape d0 Ws) 0.
Proof.
  unfold out_of. rewrite length_mv. rewrite (sh_W d0 Ws Hd0 HWs layers_chain) by lia.
  unfold sh, shp, net_shape. f_equal. lia.
Qed.

Lemma length_jac x : length x = d0 ->
  length (concat (Dk d0 Ws scale (length Ws - 1) x)) = nth (length Ws) (net_shape d0 Ws) 0 * d0.
Proof.
  intros Hx. rewrite (length_concat_const _ d0).
  - rewrite (length_Dk d0 Ws scale Hd0 HWs layers_chain). reflexivity.
  - pose proof (rows_Dk d0 Ws scale Hd0 HWs layers_chain (length Ws - 1) x ltac:(lia)) as H.
    intros r Hr. rewrite (H r Hr). unfold sh. replace (length Ws - 1 - (length Ws - 1)) with 0 by lia. reflexivity.
Qed.

Lemma firstn_skipn_flat_map {A B} (f : A -> list B) l c i x :
  (forall y, In y l -> length (f y) = c) -> nth_error l i = Some x ->
  firstn c (skipn (i * c) (flat_map f l)) = f x.
Proof.
  revert i; induction l as [|y l IH]; intros [|i] H Hx; simpl in Hx; try discriminate.
  - injection Hx as ->. simpl. rewrite <- (H x) by (simpl; auto).
    rewrite firstn_app, Nat.sub_diag, firstn_all. simpl. apply app_nil_r.
  - simpl. rewrite <- (H y) at 2 by (simpl; auto). rewrite skipn_app.
    rewrite skipn_all2 by lia. simpl. replace (length (f y) + i * c - length (f y)) with (i * c) by lia.
    apply IH; auto. intros; apply H; simpl; auto.
Qed.

Lemma lemma_C23 (m : mlp) (X : list (list N)) i x :
  make_mlp (net_shape d0 Ws) (net_weights Ws) scale = Some m ->
  (forall r, In r X -> length r = d0) -> nth_error X i = Some x ->
  let o := nth (length Ws) (net_shape d0 Ws) 0 in
  exists m1 m2 m3 m4 v vs g gs w ws,
    mlp_evaluate m x = Some (m1, v) /\
    mlp_evaluate_batch m (concat X) (length X) = Some (m2, vs) /\
    length vs = length X * o /\ firstn o (skipn (i * o) vs) = v /\
    mlp_evaluate_gradient m x = Some (m3, (w, g)) /\
    mlp_evaluate_gradient_batch m (concat X) (length X) = Some (m4, (ws, gs)) /\
    length ws = length X * o /\ firstn o (skipn (i * o) ws) = w /\
    length gs = length X * (o * d0) /\ firstn (o * d0) (skipn (i * (o * d0)) gs) = g.
Proof.
  intros Em HX Hx o. destruct fresh_ok as (m' & E & W). rewrite Em in E. injection E as <-.
  pose proof layers_chain as HC.
  assert (Hlx : length x = d0) by (apply HX; eapply nth_error_In; eauto).
  destruct (evaluate_ok d0 Ws scale Hd0 HWs HC m x W Hlx) as (m1 & E1 & _).
  destruct (evaluate_batch_ok d0 Ws scale Hd0 HWs HC m X W HX) as (m2 & E2 & _).
  destruct (evaluate_gradient_ok d0 Ws scale Hd0 HWs HC m x W Hlx) as (m3 & E3 & _).
  destruct (evaluate_gradient_batch_ok d0 Ws scale Hd0 HWs HC m X W HX) as (m4 & E4 & _).
  do 10 eexists. split; [exact E1|]. split; [exact E2|].
  split; [apply length_flat_map_const; intros; apply length_out|].
  split; [apply firstn_skipn_flat_map; auto; intros; apply length_out|].
  split; [exact E3|]. split; [exact E4|].
  split; [apply length_flat_map_const; intros; apply length_out|].
  split; [apply firstn_skipn_flat_map; auto; intros; apply length_out|].
  split; [apply length_flat_map_const; intros; apply length_jac; auto|].
  apply firstn_skipn_flat_map with (f := fun x => concat (Dk d0 Ws scale (length Ws - 1) x)); auto.
  intros; apply length_jac; auto.
Qed.
End Gen.

(** ** the reals *)
Local Open Scope R_scope.

Lemma dotR_rowdot u v : length v = length u -> dotR u v = rowdot (N:=RNum) u v.
Proof.
  unfold rowdot. rewrite nsum_rsum. unfold dotR. revert v; induction u as [|a u IH]; intros [|b v] H; simpl in H; try lia.
  - reflexivity.
  - cbn [combine map fold_right fst snd length]. rewrite rsum_shift. rewrite IH by lia. reflexivity.
Qed.

Lemma mv_dotR W d x : (forall row, In row W -> length row = d) -> length x = d ->
  mv (N:=RNum) W x = map (fun row => dotR row x) W.
Proof.
  intros H Hx. unfold mv. apply map_ext_in. intros row Hr. symmetry. apply dotR_rowdot. pose proof (H row Hr). change (carrier RNum) with R in *. lia.
Qed.

Lemma act_e_R c x : act_e (N:=RNum) c x = silu c x.
Proof. unfold act_e, silu. rewrite RNum_one. reflexivity. Qed.

Lemma act_g_R c x : act_g (N:=RNum) c x = silu c x.
Proof.
  unfold act_g, sg, silu. rewrite RNum_one. cbn [nmul ndiv nadd nopp nexp RNum].
  pose proof (exp_pos (-x)). match goal with |- ?a = ?b => change (@eq R a b) end. field. lra.
Qed.

Lemma silu_derive c x : derivable_pt_lim (silu c) x (dact (N:=RNum) c x).
Proof.
  apply is_derive_Reals. unfold silu, dact, sg. rewrite RNum_one.
  cbn [nmul ndiv nadd nsub nopp nexp RNum]. pose proof (exp_pos (-x)).
  auto_derive; [lra|]. field. lra.
Qed.

(** unfolding the forward pass from the other end *)
Lemma fwd_cons (W : list (list R)) Ws act l x :
  fwd (N:=RNum) (W :: Ws) act (S l) x = fwd (N:=RNum) Ws act l (map act (mv (N:=RNum) W x)).
Proof.
  induction l as [|l IH]; [reflexivity|].
  change (fwd (N:=RNum) (W :: Ws) act (S (S l)) x) with
    (map act (mv (N:=RNum) (Wl (N:=RNum) (W::Ws) (S l)) (fwd (N:=RNum) (W::Ws) act (S l) x))).
  rewrite IH. reflexivity.
Qed.

Lemma out_network c (act : R -> R) : (forall x, act x = silu c x) -> forall Ws d x,
  Ws <> [] -> layers_ok d Ws -> length x = d -> out_of (N:=RNum) Ws act x = network c Ws x.
Proof.
  intros Ha Ws. induction Ws as [|W Ws IH]; intros d x Hne Hok Hx; [congruence|].
  destruct Hok as (H1 & H2 & H3). destruct Ws as [|W' Ws'].
  - unfold out_of. simpl. apply mv_dotR with (d := d); auto.
  - unfold out_of. simpl length. simpl Nat.sub.
    rewrite fwd_cons. change (Wl (N:=RNum) (W :: W' :: Ws') (S (length Ws'))) with (Wl (N:=RNum) (W' :: Ws') (length Ws')).
    assert (Hl : length (map act (mv (N:=RNum) W x)) = length W) by (rewrite map_length; apply length_mv).
    pose proof (IH (length W) (map act (mv (N:=RNum) W x)) ltac:(congruence) H3 Hl) as E.
    unfold out_of in E. simpl length in E. simpl Nat.sub in E. rewrite Nat.sub_0_r in E. cbn [carrier RNum] in *. rewrite E.
    change (network c (W :: W' :: Ws') x) with
      (network c (W' :: Ws') (map (silu c) (map (fun row => dotR row x) W))).
    f_equal. rewrite <- (mv_dotR W d x H2 Hx). apply map_ext. exact Ha.
Qed.

Lemma nth_map_d {A B} (f : A -> B) l i d d' : (i < length l)%nat -> nth i (map f l) d' = f (nth i l d).
Proof. intros H. rewrite nth_indep with (d' := f d) by (rewrite map_length; auto). apply map_nth. Qed.

Section Jac.
Variables (d0 : nat) (Ws : list (list (list R))) (c : R).
Hypothesis Hd0 : (1 <= d0)%nat.
Hypothesis HWs : (1 <= length Ws)%nat.
Hypothesis Hch : layers_ok d0 Ws.
Variables (X : R -> list R) (X' : list R) (t : R).
Hypothesis HX : forall s, length (X s) = d0.
Hypothesis HdX : forall k, (k < d0)%nat -> derivable_pt_lim (fun s => nth k (X s) 0) t (nth k X' 0).

Let L := length Ws.
Let shq := sh (N:=RNum) d0 Ws.
Let W := Wl (N:=RNum) Ws.
Let acts := actl (N:=RNum) Ws c (X t).

Definition rd2 (V : list (list R)) i p := nth p (nth i V []) 0.

Ltac rl := unfold L in *; change (carrier RNum) with R in *; lia.

Fixpoint tan (l : nat) : nat -> R :=
  match l with
  | O => fun k => nth k X' 0
  | S l' => fun i => nth i (acts l') 0 * rsum (shq l') (fun p => rd2 (W l') i p * tan l' p)
  end.

Lemma nth_mv (V : list (list R)) d x i : (forall row, In row V -> length row = d) -> (i < length V)%nat ->
  nth i (mv (N:=RNum) V x) 0 = rsum d (fun p => rd2 V i p * nth p x 0).
Proof.
  intros HV Hi. unfold mv.
  rewrite nth_indep with (d' := rowdot (N:=RNum) [] x) by (rewrite map_length; exact Hi).
  rewrite map_nth with (f := fun row => rowdot (N:=RNum) row x).
  unfold rowdot. rewrite nsum_rsum. change (carrier RNum) with R. rewrite (HV (nth i V [])) by (apply nth_In; auto).
  rewrite RNum_zero. reflexivity.
Qed.

Lemma nth_map_lt (f : R -> R) l i : (i < length l)%nat -> nth i (map f l) 0 = f (nth i l 0).
Proof.
  intros H. rewrite nth_indep with (d' := f 0) by (rewrite map_length; auto). apply map_nth.
Qed.

Let HC := layers_chain d0 Ws Hch.

Lemma tan_ok act : (forall x, act x = silu c x) -> forall l, (l < L)%nat -> forall i, (i < shq l)%nat ->
  derivable_pt_lim (fun s => nth i (fwd (N:=RNum) Ws act l (X s)) 0) t (tan l i).
Proof.
  intros Ha l. induction l as [|l IH]; intros Hl i Hi.
  - apply HdX. exact Hi.
  - cbn [fwd tan]. fold W.
    assert (Hrow : forall row, In row (W l) -> length row = shq l) by (apply (sh_rows d0 Ws Hd0 HWs HC); rl).
    assert (HlW : length (W l) = shq (S l)) by (apply (sh_W d0 Ws Hd0 HWs HC); rl).
    apply dlim_ext with (f := fun s => silu c (rsum (shq l) (fun p => rd2 (W l) i p * nth p (fwd (N:=RNum) Ws act l (X s)) 0))).
    { intros s. rewrite nth_map_lt by (rewrite length_mv; rl).
      rewrite (nth_mv _ (shq l)) by (auto; rl). symmetry. apply Ha. }
    unfold acts, actl. rewrite nth_map_lt by (rewrite length_mv; fold W; rl). fold W.
    rewrite (nth_mv _ (shq l)) by (auto; rl).
    assert (Eact : forall l, fwd (N:=RNum) Ws (act_g (N:=RNum) c) l (X t) = fwd (N:=RNum) Ws act l (X t)).
    { clear -Ha. induction l as [|l IHl]; auto. cbn [fwd]. rewrite IHl. apply map_ext.
      intros a. rewrite act_g_R. symmetry; apply Ha. }
    rewrite Eact.
    apply (dlim_comp (fun s => rsum (shq l) (fun p => rd2 (W l) i p * nth p (fwd (N:=RNum) Ws act l (X s)) 0)) (silu c)).
    + apply (dlim_rsum (shq l) (fun s p => rd2 (W l) i p * nth p (fwd (N:=RNum) Ws act l (X s)) 0)).
      intros p Hp. apply dlim_scal. apply IH; [rl|auto].
    + apply silu_derive.
Qed.

Lemma nth_vm (V : list (list R)) n row j : (j < n)%nat ->
  nth j (vm (N:=RNum) V n row) 0 = rsum (length V) (fun p => nth p row 0 * rd2 V p j).
Proof. intros Hj. unfold vm. rewrite nth_tab by auto. rewrite nsum_rsum, RNum_zero. reflexivity. Qed.

Lemma D_tan o k : (o < shq L)%nat -> (k <= L - 1)%nat ->
  rsum (shq (L-1-k)) (fun j => rd2 (Dk (N:=RNum) d0 Ws c k (X t)) o j * tan (L-1-k) j) =
  rsum (shq (L-1)) (fun j => rd2 (W (L-1)) o j * tan (L-1) j).
Proof.
  intros Ho. induction k as [|k IH]; intros Hk.
  - simpl Dk. replace (L-1-0)%nat with (L-1)%nat by rl. reflexivity.
  - rewrite <- IH by rl. set (l := (L-2-k)%nat).
    replace (L-1-S k)%nat with l by rl. replace (L-1-k)%nat with (S l) by rl.
    cbn [tan Dk]. fold L l. unfold rd2 at 1.
    pose proof (length_Dk d0 Ws c Hd0 HWs HC k (X t)) as HLD. fold L in HLD. change (sh (N:=RNum) d0 Ws L) with (shq L) in HLD.
    cbn [carrier RNum] in *.
    set (row := nth o (Dk (N:=RNum) d0 Ws c k (X t)) []) in *.
    assert (Hrl : length row = shq (S l)).
    { unfold shq, row. replace (S l) with (L-1-k)%nat by rl. apply rows_nth.
      - apply (rows_Dk d0 Ws c Hd0 HWs HC). fold L; rl.
      - change (carrier RNum) with R. rewrite HLD. exact Ho. }
    assert (HlW : length (W l) = shq (S l)) by (apply (sh_W d0 Ws Hd0 HWs HC); rl).
    match goal with |- rsum ?n (fun j => nth j (nth o ?M []) 0 * _) = _ =>
      replace (nth o M []) with (vm (N:=RNum) (W l) (shq l) (scal (N:=RNum) (acts l) row)) end.
    2:{ symmetry. rewrite nth_map_d with (d := []); [reflexivity|]. change (carrier RNum) with R in *. rewrite HLD. exact Ho. }
    rewrite (rsum_ext _ _ (fun j => rsum (shq (S l)) (fun p => nth p row 0 * nth p (acts l) 0 * rd2 (W l) p j * tan l j))).
    2:{ intros j Hj. rewrite nth_vm by exact Hj. cbn [carrier RNum] in *. rewrite HlW.
        rewrite <- rsum_scal_r. apply rsum_ext. intros p Hp. unfold scal. rewrite nth_tab by (rl).
        rewrite RNum_zero. reflexivity. }
    rewrite rsum_swap. apply rsum_ext. intros p Hp. fold (rd2 (Dk (N:=RNum) d0 Ws c k (X t)) o p).
    unfold rd2 at 2. fold row.
    rewrite (rsum_ext _ _ (fun j => nth p row 0 * nth p (acts l) 0 * (rd2 (W l) p j * tan l j))) by (intros; ring).
    rewrite rsum_scal_l. rewrite Rmult_assoc. reflexivity.
Qed.

Lemma jac_curve act o : (forall x, act x = silu c x) -> (o < shq L)%nat ->
  derivable_pt_lim (fun s => nth o (out_of (N:=RNum) Ws act (X s)) 0) t
    (rsum d0 (fun k => nth (o * d0 + k) (concat (Dk (N:=RNum) d0 Ws c (L-1) (X t))) 0 * nth k X' 0)).
Proof.
  intros Ha Ho.
  assert (HL : (L - 1 < L)%nat) by (rl).
  assert (Hrow : forall row, In row (W (L-1)) -> length row = shq (L-1)) by (apply (sh_rows d0 Ws Hd0 HWs HC); exact HL).
  assert (HlW : length (W (L-1)) = shq L).
  { pose proof (sh_W d0 Ws Hd0 HWs HC (L-1) HL) as E. replace (S (L-1)) with L in E by rl. exact E. }
  apply dlim_eq with (l := rsum (shq (L-1)) (fun j => rd2 (W (L-1)) o j * tan (L-1) j)).
  - rewrite <- (D_tan o (L-1)) by (auto; rl). replace (L-1-(L-1))%nat with 0%nat by rl.
    change (shq 0) with d0. apply rsum_ext. intros k Hk. cbn [tan]. f_equal.
    symmetry. unfold rd2. apply rd_nth. apply rd_concat_const; auto.
    + intros r Hr. pose proof (rows_Dk d0 Ws c Hd0 HWs HC (L-1) (X t) ltac:(rl) r Hr) as E2.
      unfold L in E2. rewrite Nat.sub_diag in E2. exact E2.
    + pose proof (length_Dk d0 Ws c Hd0 HWs HC (L-1) (X t)) as HLD. change (carrier RNum) with R in *. rewrite HLD. exact Ho.
  - apply dlim_ext with (f := fun s => rsum (shq (L-1)) (fun j => rd2 (W (L-1)) o j * nth j (fwd (N:=RNum) Ws act (L-1) (X s)) 0)).
    { intros s. unfold out_of. fold L W. symmetry. apply nth_mv; auto. cbn [carrier RNum] in *. rl. }
    apply (dlim_rsum (shq (L-1)) (fun s j => rd2 (W (L-1)) o j * nth j (fwd (N:=RNum) Ws act (L-1) (X s)) 0)).
    intros j Hj. apply dlim_scal. apply tan_ok; auto.
Qed.
End Jac.

Lemma lemma_C21 (d0 : nat) (Ws : list (list (list R))) (c : R) (x : list R) :
  (1 <= d0)%nat -> (1 <= length Ws)%nat -> layers_ok d0 Ws -> length x = d0 ->
  exists m m1 m2 g, make_mlp (N:=RNum) (net_shape d0 Ws) (net_weights Ws) c = Some m /\
    mlp_evaluate (N:=RNum) m x = Some (m1, network c Ws x) /\
    mlp_evaluate_gradient (N:=RNum) m x = Some (m2, (network c Ws x, g)).
Proof.
  intros H1 H2 H3 Hx. destruct (fresh_ok (N:=RNum) d0 Ws c H1 H2) as (m & E & Wf).
  pose proof (layers_chain (N:=RNum) d0 Ws H3) as HC.
  destruct (evaluate_ok (N:=RNum) d0 Ws c H1 H2 HC m x Wf Hx) as (m1 & E1 & _).
  destruct (evaluate_gradient_ok (N:=RNum) d0 Ws c H1 H2 HC m x Wf Hx) as (m3 & E3 & _).
  rewrite (out_network c (act_e (N:=RNum) c)) with (d := d0) in E1; auto.
  2:{ destruct Ws; simpl in H2; [lia|congruence]. }
  rewrite (out_network c (act_g (N:=RNum) c)) with (d := d0) in E3; auto.
  2:{ apply act_g_R. } 2:{ destruct Ws; simpl in H2; [lia|congruence]. }
  exists m, m1, m3. eexists. split; [exact E|]. split; [exact E1|exact E3].
Qed.

Definition mlp_value (o : option (mlp (N:=RNum) * list R)) : list R :=
  match o with Some (_, v) => v | None => [] end.

(** along an arbitrary differentiable input curve *)
Lemma lemma_C22_curve (d0 : nat) (Ws : list (list (list R))) (c : R) (X : R -> list R) (X' : list R) (t : R) :
  (1 <= d0)%nat -> (1 <= length Ws)%nat -> layers_ok d0 Ws ->
  (forall s, length (X s) = d0) ->
  (forall k, (k < d0)%nat -> derivable_pt_lim (fun s => nth k (X s) 0) t (nth k X' 0)) ->
  exists m m' v J, make_mlp (N:=RNum) (net_shape d0 Ws) (net_weights Ws) c = Some m /\
    mlp_evaluate_gradient (N:=RNum) m (X t) = Some (m', (v, J)) /\
    length v = nth (length Ws) (net_shape d0 Ws) 0%nat /\ length J = (length v * d0)%nat /\
    forall o, (o < length v)%nat ->
      derivable_pt_lim (fun s => nth o (mlp_value (mlp_evaluate (N:=RNum) m (X s))) 0) t
        (rsum d0 (fun k => nth (o * d0 + k) J 0 * nth k X' 0)).
Proof.
  intros H1 H2 H3 HX HdX. destruct (fresh_ok (N:=RNum) d0 Ws c H1 H2) as (m & E & Wf).
  pose proof (layers_chain (N:=RNum) d0 Ws H3) as HC.
  destruct (evaluate_gradient_ok (N:=RNum) d0 Ws c H1 H2 HC m (X t) Wf (HX t)) as (m3 & E3 & _).
  exists m, m3. do 2 eexists. split; [exact E|]. split; [exact E3|].
  rewrite (length_out (N:=RNum) d0 Ws H1 H2 H3). split; [reflexivity|].
  split; [apply (length_jac (N:=RNum) d0 Ws c H1 H2 H3); auto|].
  intros o Ho.
  apply dlim_ext with (f := fun s => nth o (out_of (N:=RNum) Ws (act_e (N:=RNum) c) (X s)) 0).
  - intros s. destruct (evaluate_ok (N:=RNum) d0 Ws c H1 H2 HC m (X s) Wf (HX s)) as (m1 & E1 & _).
    rewrite E1. reflexivity.
  - apply (jac_curve d0 Ws c H1 H2 H3 X X' t); auto.
Qed.

Lemma nth_upd_curve x k i (t : R) : (k < length x)%nat ->
  derivable_pt_lim (fun s => nth i (upd x k s) 0) t (if Nat.eqb k i then 1 else 0).
Proof.
  intros Hk. apply dlim_ext with (f := fun s => if Nat.eqb k i then s else nth i x 0).
  - intros s. rewrite nth_upd by auto. reflexivity.
  - destruct (Nat.eqb k i); [apply dlim_id|apply dlim_const].
Qed.

Lemma upd_same {A} (x : list A) k d : upd x k (nth k x d) = x.
Proof.
  revert k; induction x as [|a x IH]; intros [|k]; simpl; auto. rewrite IH. reflexivity.
Qed.

Lemma lemma_C22 (d0 : nat) (Ws : list (list (list R))) (c : R) (x : list R) :
  (1 <= d0)%nat -> (1 <= length Ws)%nat -> layers_ok d0 Ws -> length x = d0 ->
  exists m m' v J, make_mlp (N:=RNum) (net_shape d0 Ws) (net_weights Ws) c = Some m /\
    mlp_evaluate_gradient (N:=RNum) m x = Some (m', (v, J)) /\
    length v = nth (length Ws) (net_shape d0 Ws) 0%nat /\ length J = (length v * d0)%nat /\
    forall o k, (o < length v)%nat -> (k < d0)%nat ->
      derivable_pt_lim (fun s => nth o (mlp_value (mlp_evaluate (N:=RNum) m (upd x k s))) 0) (nth k x 0)
        (nth (o * d0 + k) J 0).
Proof.
  intros H1 H2 H3 Hx.
  destruct (lemma_C22_curve d0 Ws c (fun _ => x) (repeat 0 d0) 0 H1 H2 H3) as (m & m' & v & J & Em & Eg & Hv & HJ & _).
  { auto. }
  { intros k Hk. rewrite nth_repeat. apply dlim_const. }
  exists m, m', v, J. repeat (split; auto). intros o k Ho Hk.
  destruct (lemma_C22_curve d0 Ws c (fun s => upd x k s) (tab d0 (fun i => if Nat.eqb k i then 1 else 0)) (nth k x 0) H1 H2 H3)
    as (m2 & m2' & v2 & J2 & Em2 & Eg2 & Hv2 & HJ2 & HD).
  { intros s. rewrite length_upd. auto. }
  { intros i Hi. rewrite nth_tab by auto. apply nth_upd_curve. lia. }
  rewrite Em in Em2. injection Em2 as <-. rewrite upd_same in Eg2. rewrite Eg in Eg2. injection Eg2 as <- <- <-.
  specialize (HD o Ho). eapply dlim_eq; [|exact HD].
  rewrite (rsum_single d0 k); auto.
  - rewrite nth_tab by auto. rewrite Nat.eqb_refl. ring.
  - intros i Hi Hne. rewrite nth_tab by auto. destruct (Nat.eqb_spec k i); [congruence|ring].
Qed.

Lemma lemma_C22_net (d0 : nat) (Ws : list (list (list R))) (c : R) (x : list R) :
  (1 <= d0)%nat -> (1 <= length Ws)%nat -> layers_ok d0 Ws -> length x = d0 ->
  exists m m' v J, make_mlp (N:=RNum) (net_shape d0 Ws) (net_weights Ws) c = Some m /\
    mlp_evaluate_gradient (N:=RNum) m x = Some (m', (v, J)) /\
    length v = nth (length Ws) (net_shape d0 Ws) 0%nat /\ length J = (length v * d0)%nat /\
    forall o k, (o < length v)%nat -> (k < d0)%nat ->
      derivable_pt_lim (fun s => nth o (network c Ws (upd x k s)) 0) (nth k x 0)
        (nth (o * d0 + k) J 0).
Proof.
  intros H1 H2 H3 Hx. destruct (lemma_C22 d0 Ws c x H1 H2 H3 Hx) as (m & m' & v & J & Em & Eg & Hv & HJ & HD).
  exists m, m', v, J. repeat (split; auto). intros o k Ho Hk.
  eapply dlim_ext; [|exact (HD o k Ho Hk)]. intros s. cbv beta.
  destruct (lemma_C21 d0 Ws c (upd x k s) H1 H2 H3) as (mm & m1 & m2 & g & Em' & Ev & _).
  { rewrite length_upd. exact Hx. }
  rewrite Em in Em'. injection Em' as <-. rewrite Ev. reflexivity.
Qed.
