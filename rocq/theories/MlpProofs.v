(** Refinement of the perceptron model to pure functions, for every [Num]. *)
From Coq Require Import List Arith ZArith Lia Bool.
From Verif Require Import Base BaseLemmas Segs BlasModel BlasLemmas MlpModel.
Import ListNotations.

(** ** list-of-buffers helpers *)
Lemma rd_bufs {A} (vs : list (list A)) q : q < length vs -> rd vs q = Some (nth q vs []).
Proof. apply rd_some. Qed.

Section Gen.
Context {N : Num}.

Definition rowdot (row x : list N) : N :=
  nsum (length row) (fun p => nmul (nth p row nzero) (nth p x nzero)).
Definition mv (W : list (list N)) (x : list N) : list N := map (fun row => rowdot row x) W.
Definition vm (W : list (list N)) (n : nat) (row : list N) : list N :=
  tab n (fun j => nsum (length W) (fun p => nmul (nth p row nzero) (nth j (nth p W []) nzero))).

Definition rows (W : list (list N)) (c : nat) : Prop := forall r, In r W -> length r = c.

Lemma rows_nth W c i : rows W c -> i < length W -> length (nth i W []) = c.
Proof. intros H Hi. apply H. apply nth_In; auto. Qed.

Lemma length_mv W x : length (mv W x) = length W.
Proof. apply map_length. Qed.

Lemma mv_tab W x c : rows W c ->
  mv W x = tab (length W) (fun i => nsum c (fun p => nmul (nth p (nth i W []) nzero) (nth p x nzero))).
Proof.
  intros H. unfold mv. rewrite <- (map_seq_nth (fun row => rowdot row x) W []).
  unfold tab. apply map_ext_in. intros i Hi. apply in_seq in Hi. unfold rowdot.
  rewrite (rows_nth W c i H) by lia. reflexivity.
Qed.

Lemma gemv_ok W c x y : rows W c -> 1 <= c -> length x = c -> length y = length W ->
  dgemv_n false (length W) c (concat W) c x 0 y 0 = Some (mv W x).
Proof.
  intros HW Hc Hx Hy. rewrite (mv_tab W x c HW).
  apply (swr_all (length W) (fun y => dgemv_n false (length W) c (concat W) c x 0 y 0)); auto.
  apply dgemv_n_swr; auto.
  - intros i p Hi Hp. apply rd_concat_const; auto.
  - intros p Hp. apply rd_some. lia.
Qed.

Lemma gemm_nt_ok W c X y : rows W c -> 1 <= c -> 1 <= length W -> rows X c ->
  length y = length X * length W ->
  dgemm_nt (length X) (length W) c (concat X) 0 c (concat W) 0 c y 0 (length W) = Some (flat_map (mv W) X).
Proof.
  intros HW Hc Hw HX Hy.
  rewrite <- (flat_map_seq_nth (mv W) X []).
  rewrite (flat_map_ext_in _ (fun i => tab (length W) (fun j => nsum c (fun p =>
      nmul (nth p (nth j W []) nzero) (nth p (nth i X []) nzero))))).
  2:{ intros i _. apply mv_tab; auto. }
  apply (swr_all (length X * length W) (fun y => dgemm_nt (length X) (length W) c (concat X) 0 c (concat W) 0 c y 0 (length W))
          _ y); auto.
  apply (dgemm_nt_swr (length X) (length W) c (concat X) 0 c (concat W) 0 c 0
     (fun i p => nth p (nth i X []) nzero) (fun j p => nth p (nth j W []) nzero)); auto.
  - intros i p Hi Hp. cbn [plus]. apply rd_concat_const; auto.
  - intros i p Hi Hp. cbn [plus]. apply rd_concat_const; auto.
Qed.

Lemma gemm_nn_ok W n D y : rows W n -> 1 <= n -> 1 <= length W -> rows D (length W) ->
  length y = length D * n ->
  dgemm_nn (length D) n (length W) (concat D) 0 (length W) (concat W) 0 n y 0 n = Some (flat_map (vm W n) D).
Proof.
  intros HW Hn Hw HD Hy.
  rewrite <- (flat_map_seq_nth (vm W n) D []). unfold vm.
  apply (swr_all (length D * n) (fun y => dgemm_nn (length D) n (length W) (concat D) 0 (length W) (concat W) 0 n y 0 n)
          _ y); auto.
  apply (dgemm_nn_swr (length D) n (length W) (concat D) 0 (length W) (concat W) 0 n 0
     (fun i p => nth p (nth i D []) nzero) (fun p j => nth j (nth p W []) nzero)); auto.
  - intros i p Hi Hp. cbn [plus]. apply rd_concat_const; auto.
  - intros i p Hi Hp. cbn [plus]. apply rd_concat_const; auto.
Qed.

Lemma inplace_map (act : N -> N) (y : list N) n : n = length y ->
  for_ n (fun i y => x <- rd y i ;; wr y i (act x)) y = Some (map act y).
Proof.
  intros ->.
  pose proof (for_elementwise_seg nzero (fun _ => act) (fun i y => x <- rd y i ;; wr y i (act x))
     (length y) [] y [] eq_refl) as H. cbn [app length] in H. rewrite !app_nil_r in H.
  rewrite H.
  - f_equal. unfold tab. rewrite (map_seq_nth act y nzero). reflexivity.
  - intros j a x Hj Hr. cbn [plus] in Hr. rewrite Hr. reflexivity.
Qed.

Lemma inplace_map2 (f g : N -> N) (y a : list N) n : n = length y -> length a = length y ->
  for_ n (fun i st => let '(y, a) := st in
      x <- rd y i ;; y <- wr y i (f x) ;; a <- wr a i (g x) ;; Some (y, a)) (y, a)
  = Some (map f y, map g y).
Proof.
  intros -> Ha.
  apply (for_trace (fun k => (tab (length y) (fun i => if i <? k then f (nth i y nzero) else nth i y nzero),
                              tab (length y) (fun i => if i <? k then g (nth i y nzero) else nth i a nzero)))).
  - f_equal; [apply tab_nth|]. rewrite (tab_nth a nzero), Ha at 1. reflexivity.
  - rewrite <- (map_seq_nth f y nzero), <- (map_seq_nth g y nzero). unfold tab.
    f_equal; apply map_ext_in; intros i Hi; apply in_seq in Hi;
      (destruct (Nat.ltb_spec i (length y)); [reflexivity|lia]).
  - intros k Hk. rewrite rd_tab by auto. cbn [bind]. rewrite Nat.ltb_irrefl.
    rewrite !wr_some by (rewrite length_tab; auto). cbn [bind]. do 2 f_equal.
    + apply list_eq_nth with (d := nzero); rewrite length_upd, !length_tab; auto. intros i Hi.
      rewrite nth_upd, !nth_tab by (rewrite ?length_tab; auto).
      destruct (Nat.eqb_spec k i) as [->|]; [destruct (Nat.ltb_spec i (S i)); [reflexivity|lia]|].
      destruct (Nat.ltb_spec i k), (Nat.ltb_spec i (S k)); auto; lia.
    + apply list_eq_nth with (d := nzero); rewrite length_upd, !length_tab; auto. intros i Hi.
      rewrite nth_upd, !nth_tab by (rewrite ?length_tab; auto).
      destruct (Nat.eqb_spec k i) as [->|]; [destruct (Nat.ltb_spec i (S i)); [reflexivity|lia]|].
      destruct (Nat.ltb_spec i k), (Nat.ltb_spec i (S k)); auto; lia.
Qed.

(** ** well-formed networks: matrices [Ws] (lists of rows), first input dimension [d0] *)
Fixpoint chain (d : nat) (Ws : list (list (list N))) : Prop :=
  match Ws with
  | [] => True
  | W :: r => 1 <= length W /\ rows W d /\ chain (length W) r
  end.

Variables (d0 : nat) (Ws : list (list (list N))) (scale : N).
Hypothesis Hd0 : 1 <= d0.
Hypothesis HWs : 1 <= length Ws.
Hypothesis Hch : chain d0 Ws.

Let L := length Ws.
Definition shp : list nat := d0 :: map (@length _) Ws.
Definition sh (l : nat) : nat := nth l shp 0.
Definition Wl (l : nat) : list (list N) := nth l Ws [].
Definition wts : list (list N) := map (@concat _) Ws.

Lemma chain_nth d Vs l : 1 <= d -> chain d Vs -> l < length Vs ->
  1 <= nth l (d :: map (@length _) Vs) 0 /\
  length (nth l Vs []) = nth (S l) (d :: map (@length _) Vs) 0 /\
  1 <= length (nth l Vs []) /\
  rows (nth l Vs []) (nth l (d :: map (@length _) Vs) 0).
Proof.
  revert d l; induction Vs as [|W r IH]; intros d l Hd Hc Hl; [simpl in Hl; lia|].
  destruct Hc as (H1 & H2 & H3). destruct l as [|l]; [simpl; auto|].
  specialize (IH (length W) l H1 H3 ltac:(simpl in Hl; lia)). exact IH.
Qed.

Lemma sh_W l : l < L -> length (Wl l) = sh (S l).
Proof. intros H. apply (chain_nth d0 Ws l Hd0 Hch H). Qed.
Lemma sh_rows l : l < L -> rows (Wl l) (sh l).
Proof. intros H. apply (chain_nth d0 Ws l Hd0 Hch H). Qed.
Lemma sh_pos l : l <= L -> 1 <= sh l.
Proof.
  intros H. destruct (Nat.eq_dec l 0) as [->|E].
  - unfold sh, shp; simpl; auto.
  - destruct l as [|l]; [lia|]. rewrite <- sh_W by lia. apply (chain_nth d0 Ws l Hd0 Hch). unfold L in H; lia.
Qed.
Lemma length_shp : length shp = S L.
Proof. unfold shp, L. simpl. rewrite map_length. reflexivity. Qed.
Lemma rd_shp l : l <= L -> rd shp l = Some (sh l).
Proof. intros H. apply rd_some. rewrite length_shp. lia. Qed.
Lemma rd_wts l : l < L -> rd wts l = Some (concat (Wl l)).
Proof.
  intros H. unfold rd, wts, Wl. rewrite nth_error_map.
  rewrite (nth_error_nth' Ws []) by auto. reflexivity.
Qed.
Lemma length_wts : length wts = L.
Proof. apply map_length. Qed.
Lemma len_W l : l < L -> length (concat (Wl l)) = sh (S l) * sh l.
Proof. intros H. rewrite (length_concat_const _ (sh l)) by (apply sh_rows; auto). rewrite sh_W; auto. Qed.

(** ** forward pass *)
Section Fwd.
Variable act : N -> N.
Fixpoint fwd (l : nat) (x : list N) : list N :=
  match l with
  | O => x
  | S l' => map act (mv (Wl l') (fwd l' x))
  end.

Lemma length_fwd l x : length x = d0 -> l <= L -> length (fwd l x) = sh l.
Proof.
  intros Hx Hl. destruct l as [|l]; simpl; auto.
  rewrite map_length, length_mv. apply sh_W. lia.
Qed.

Definition out_of (x : list N) : list N := mv (Wl (L-1)) (fwd (L-1) x).
End Fwd.

Definition act_e (x : N) : N := (scale * x / (none + nexp (- x)))%num.
Definition sg (x : N) : N := (none / (none + nexp (- x)))%num.
Definition act_g (x : N) : N := (scale * x * sg x)%num.
Definition dact (x : N) : N := (scale * sg x + scale * x * sg x * (none - sg x))%num.

Definition wf_mlp (m : mlp) : Prop :=
  ml_shape m = shp /\ ml_weights m = wts /\ ml_scale m = scale /\
  length (ml_values m) = S L /\ length (ml_derivs m) = S L /\ length (ml_acts m) = S L.

Lemma make_mlp_wf : exists m, make_mlp shp wts scale = Some m /\ wf_mlp m.
Proof.
  unfold make_mlp. rewrite length_shp.
  match goal with |- context [for_ (S L) ?bd ?s] =>
    assert (H : exists st, for_ (S L) bd s = Some st /\
      (fun k (st : list (list N) * list (list N) * list (list N)) =>
         let '(a, b, c) := st in length a = k /\ length b = k /\ length c = k) (S L) st) end.
  { apply (for_inv (fun k (st : list (list N) * list (list N) * list (list N)) =>
         let '(a, b, c) := st in length a = k /\ length b = k /\ length c = k)); auto.
    intros k [[a b] c] Hk (H1 & H2 & H3). rewrite !rd_shp by lia. cbn [bind].
    eexists. split; [reflexivity|]. cbn. rewrite !app_length. simpl. lia. }
  destruct H as ([[a b] c] & -> & H1 & H2 & H3). cbn [bind].
  eexists. split; [reflexivity|]. repeat split; auto.
Qed.

Lemma resize_loop b (f : nat -> nat) (vs0 : list (list N)) : length vs0 = S L ->
  (forall s, f s = b * s) ->
  exists vs, for_ (S L) (fun i vs => s <- rd shp i ;; v <- rd vs i ;; wr vs i (resize nzero v (f s))) vs0 = Some vs /\
    length vs = S L /\ forall q, q <= L -> length (nth q vs []) = b * sh q.
Proof.
  intros Hl Hf.
  match goal with |- exists vs, for_ ?n ?body vs0 = _ /\ _ =>
    destruct (for_inv (fun k vs => length vs = S L /\ forall q, q < k -> length (nth q vs []) = b * sh q) n body vs0)
      as (vs & E & H1 & H2) end.
  - split; auto. intros; lia.
  - intros k vs Hk [H1 H2]. rewrite rd_shp by lia. cbn [bind].
    rewrite rd_bufs by lia. cbn [bind]. rewrite wr_some by lia.
    eexists. split; [reflexivity|]. rewrite length_upd. split; auto.
    intros q Hq. rewrite nth_upd by lia. destruct (Nat.eqb_spec k q) as [->|Hne].
    + rewrite length_resize. apply Hf.
    + apply H2. lia.
  - exists vs. split; auto. split; auto. intros q Hq. apply H2. lia.
Qed.

(** state of the buffers after [k] layers: [H q] for q <= k, right sizes *)
Definition vinv (b : nat) (H : nat -> list N) (k : nat) (vs : list (list N)) : Prop :=
  length vs = S L /\ (forall q, q <= L -> length (nth q vs []) = b * sh q) /\
  (forall q, q <= k -> nth q vs [] = H q).

Lemma vinv_upd b H k vs : vinv b H k vs -> S k <= L -> length (H (S k)) = b * sh (S k) ->
  vinv b H (S k) (upd vs (S k) (H (S k))).
Proof.
  intros (H1 & H2 & H3) Hk Hl. split; [rewrite length_upd; auto|]. split.
  - intros q Hq. rewrite nth_upd by lia. destruct (Nat.eqb_spec (S k) q) as [<-|]; auto.
  - intros q Hq. rewrite nth_upd by lia. destruct (Nat.eqb_spec (S k) q) as [<-|]; auto. apply H3. lia.
Qed.

Lemma copy_input b H vs input : length vs = S L -> (forall q, q <= L -> length (nth q vs []) = b * sh q) ->
  length input = b * d0 -> H 0 = input ->
  exists vs', (v0 <- rd vs 0 ;; v0 <- copy_to input v0 0 ;; wr vs 0 v0) = Some vs' /\ vinv b H 0 vs'.
Proof.
  intros H1 H2 Hi E. rewrite rd_bufs by lia. cbn [bind].
  assert (HC : copy_to input (nth 0 vs []) 0 = Some input).
  { apply (swr_all (length input) (fun d => copy_to input d 0)); [apply copy_to_swr|].
    rewrite H2 by lia. rewrite Hi. reflexivity. }
  rewrite HC. cbn [bind]. rewrite wr_some by lia. eexists. split; [reflexivity|].
  split; [rewrite length_upd; auto|]. split.
  - intros q Hq. rewrite nth_upd by lia. destruct (Nat.eqb_spec 0 q) as [<-|]; auto.
  - intros q Hq. replace q with 0 by lia. rewrite nth_upd by lia. simpl. auto.
Qed.

Lemma fwd_step l x (act : N -> N) : fwd act (S l) x = map act (mv (Wl l) (fwd act l x)).
Proof. reflexivity. Qed.

Lemma evaluate_ok m x : wf_mlp m -> length x = d0 ->
  exists m', mlp_evaluate m x = Some (m', out_of act_e x) /\ wf_mlp m'.
Proof.
  intros (Es & Ew & Ec & Hv & Hd & Ha) Hx. unfold mlp_evaluate. rewrite Es, Ew, Ec, length_shp, length_wts.
  replace (2 <=? S L) with true by (symmetry; apply Nat.leb_le; unfold L; lia).
  destruct (resize_loop 1 (fun s => s) (ml_values m) Hv) as (vs & -> & Hl & Hlen); [intros; lia|]. cbn [bind].
  destruct (copy_input 1 (fun q => fwd act_e q x) vs x Hl Hlen) as (vs1 & E1 & I1); auto; [lia|].
  destruct (rd vs 0) as [v0|]; [|discriminate E1]. cbn [bind] in *.
  destruct (copy_to x v0 0) as [v0'|]; [|discriminate E1]. cbn [bind] in *. rewrite E1. cbn [bind].
  replace (S L - 2) with (L - 1) by lia.
  match goal with |- context [for_ (L-1) ?body vs1] =>
    destruct (for_inv (vinv 1 (fun q => fwd act_e q x)) (L-1) body vs1 I1) as (vs2 & -> & I2) end.
  { intros k vs2 Hk I. pose proof I as (I1' & I2' & I3').
    replace (k + 1) with (S k) by lia. rewrite !rd_shp, rd_wts by lia. cbn [bind].
    rewrite !rd_bufs by lia. cbn [bind].
    rewrite <- sh_W by lia. rewrite I3' by lia.
    rewrite gemv_ok.
    - cbn [bind]. rewrite (inplace_map act_e) by (rewrite length_mv; auto). cbn [bind].
      rewrite wr_some by lia. eexists. split; [reflexivity|].
      apply (vinv_upd 1 (fun q => fwd act_e q x)); auto; [lia|].
      rewrite length_fwd by (auto; lia). lia.
    - apply sh_rows; lia.
    - apply sh_pos; lia.
    - apply length_fwd; auto; lia.
    - rewrite I2' by lia. rewrite sh_W by lia. lia. }
  cbn [bind]. destruct I2 as (J1 & J2 & J3).
  replace (S L - 1) with L by lia. rewrite !rd_shp, rd_wts by (unfold L in *; lia). cbn [bind].
  rewrite J1. replace (S L - 2) with (L - 1) by lia. replace (S L - 1) with L by lia.
  rewrite !rd_bufs by lia. cbn [bind].
  replace (sh L) with (length (Wl (L-1))) by (rewrite sh_W by (unfold L in *; lia); f_equal; unfold L in *; lia).
  rewrite J3 by lia. rewrite gemv_ok.
  - cbn [bind]. rewrite wr_some by lia. cbn [bind].
    rewrite length_upd, J1. replace (S L - 1) with L by lia. rewrite rd_bufs by (rewrite length_upd; lia).
    rewrite nth_upd by lia. rewrite Nat.eqb_refl. cbn [bind].
    eexists. split; [reflexivity|]. repeat split; auto. cbn. rewrite length_upd. lia.
  - apply sh_rows; unfold L in *; lia.
  - apply sh_pos; lia.
  - apply length_fwd; auto; lia.
  - rewrite J2 by lia. rewrite sh_W by (unfold L in *; lia). replace (S (L-1)) with L by (unfold L in *; lia). lia.
Qed.

Lemma length_fwdB act l X : rows X d0 -> l <= L -> length (flat_map (fwd act l) X) = length X * sh l.
Proof. intros HX Hl. apply length_flat_map_const. intros x Hx. apply length_fwd; auto. Qed.

Lemma evaluate_batch_ok m X : wf_mlp m -> rows X d0 ->
  exists m', mlp_evaluate_batch m (concat X) (length X) = Some (m', flat_map (out_of act_e) X) /\ wf_mlp m'.
Proof.
  intros (Es & Ew & Ec & Hv & Hd & Ha) HX. unfold mlp_evaluate_batch. rewrite Es, Ew, Ec, length_shp, length_wts.
  replace (2 <=? S L) with true by (symmetry; apply Nat.leb_le; unfold L; lia).
  destruct (resize_loop (length X) (fun s => length X * s) (ml_values m) Hv) as (vs & -> & Hl & Hlen); [intros; lia|].
  cbn [bind].
  destruct (copy_input (length X) (fun q => concat (map (fwd act_e q) X)) vs (concat X) Hl Hlen) as (vs1 & E1 & I1).
  { apply length_concat_const; auto. }
  { simpl. rewrite map_id. reflexivity. }
  destruct (rd vs 0) as [v0|]; [|discriminate E1]. cbn [bind] in *.
  destruct (copy_to (concat X) v0 0) as [v0'|]; [|discriminate E1]. cbn [bind] in *. rewrite E1. cbn [bind].
  replace (S L - 2) with (L - 1) by lia.
  assert (HR : forall q, q <= L -> rows (map (fwd act_e q) X) (sh q)).
  { intros q Hq r Hr. apply in_map_iff in Hr as (x & <- & Hx). apply length_fwd; auto. }
  match goal with |- context [for_ (L-1) ?body vs1] =>
    destruct (for_inv (vinv (length X) (fun q => concat (map (fwd act_e q) X))) (L-1) body vs1 I1) as (vs2 & -> & I2) end.
  { intros k vs2 Hk I. pose proof I as (I1' & I2' & I3').
    replace (k + 1) with (S k) by lia. rewrite !rd_shp, rd_wts by lia. cbn [bind].
    rewrite !rd_bufs by lia. cbn [bind].
    rewrite <- sh_W by lia. rewrite I3' by lia.
    pose proof (gemm_nt_ok (Wl k) (sh k) (map (fwd act_e k) X) (nth (S k) vs2 [])) as G.
    rewrite map_length in G. rewrite G.
    - cbn [bind]. rewrite (inplace_map act_e) by auto. cbn [bind].
      rewrite wr_some by lia. eexists. split; [reflexivity|].
      rewrite flat_map_map, map_flat_map.
      rewrite <- (concat_map_flat_map (fun x => map act_e (mv (Wl k) (fwd act_e k x)))).
      change (fun x => map act_e (mv (Wl k) (fwd act_e k x))) with (fwd act_e (S k)).
      apply (vinv_upd (length X) (fun q => concat (map (fwd act_e q) X))); auto; [lia|].
      rewrite (length_concat_const _ (sh (S k))) by (apply HR; lia). rewrite map_length. reflexivity.
    - apply sh_rows; lia.
    - apply sh_pos; lia.
    - rewrite sh_W by lia. apply sh_pos; lia.
    - apply HR; lia.
    - rewrite I2' by lia. rewrite sh_W by lia. lia. }
  cbn [bind]. destruct I2 as (J1 & J2 & J3).
  replace (S L - 1) with L by lia. rewrite !rd_shp, rd_wts by (unfold L in *; lia). cbn [bind].
  rewrite J1. replace (S L - 2) with (L - 1) by lia. replace (S L - 1) with L by lia.
  rewrite !rd_bufs by lia. cbn [bind].
  replace (sh L) with (length (Wl (L-1))) by (rewrite sh_W by (unfold L in *; lia); f_equal; unfold L in *; lia).
  rewrite J3 by lia.
  pose proof (gemm_nt_ok (Wl (L-1)) (sh (L-1)) (map (fwd act_e (L-1)) X) (nth L vs2 [])) as G.
  rewrite map_length in G. rewrite G.
  - cbn [bind]. rewrite wr_some by lia. cbn [bind].
    rewrite length_upd, J1. replace (S L - 1) with L by lia. rewrite rd_bufs by (rewrite length_upd; lia).
    rewrite nth_upd by lia. rewrite Nat.eqb_refl. cbn [bind].
    eexists. split; [rewrite flat_map_map; reflexivity|]. repeat split; auto. cbn. rewrite length_upd. lia.
  - apply sh_rows; unfold L in *; lia.
  - apply sh_pos; lia.
  - rewrite sh_W by (unfold L in *; lia). apply sh_pos; unfold L in *; lia.
  - apply HR; lia.
  - rewrite J2 by lia. rewrite sh_W by (unfold L in *; lia). replace (S (L-1)) with L by (unfold L in *; lia). lia.
Qed.


(** ** backward pass *)
Definition actl (x : list N) (l : nat) : list N := map dact (mv (Wl l) (fwd act_g l x)).
Definition scal (a row : list N) : list N := tab (length row) (fun j => nmul (nth j row nzero) (nth j a nzero)).

Fixpoint Dk (k : nat) (x : list N) : list (list N) :=
  match k with
  | O => Wl (L-1)
  | S k' => map (fun row => vm (Wl (L-2-k')) (sh (L-2-k')) (scal (actl x (L-2-k')) row)) (Dk k' x)
  end.

Lemma length_Dk k x : length (Dk k x) = sh L.
Proof.
  induction k as [|k IH]; simpl.
  - rewrite sh_W by (unfold L in *; lia). f_equal. unfold L in *; lia.
  - rewrite map_length. auto.
Qed.

Lemma rows_Dk k x : k <= L - 1 -> rows (Dk k x) (sh (L-1-k)).
Proof.
  intros Hk. destruct k as [|k]; simpl.
  - replace (L - 1 - 0) with (L-1) by lia. apply sh_rows. unfold L in *; lia.
  - intros r Hr. apply in_map_iff in Hr as (y & <- & _). unfold vm. rewrite length_tab. f_equal. lia.
Qed.

Lemma length_actl x l : l < L -> length (actl x l) = sh (S l).
Proof. intros H. unfold actl. rewrite map_length, length_mv. apply sh_W; auto. Qed.

Definition resized (b : nat) (vs : list (list N)) : Prop :=
  length vs = S L /\ forall q, q <= L -> length (nth q vs []) = b * sh q.

Lemma upd_len (vs : list (list N)) k v b q : length vs = S L -> k <= L -> length v = b * sh k ->
  (k <> q -> length (nth q vs []) = b * sh q) -> length (nth q (upd vs k v) []) = b * sh q.
Proof.
  intros H1 Hk Hv H. rewrite nth_upd by lia. destruct (Nat.eqb_spec k q) as [<-|]; auto.
Qed.

Lemma resize3_loop b f g (vs0 na0 ds0 : list (list N)) :
  length vs0 = S L -> length na0 = S L -> length ds0 = S L ->
  (forall s, f s = b * s) -> (forall s, g (sh L) s = b * sh L * s) ->
  exists vs na ds, for_ (S L) (fun i st => let '(vs, na, ds) := st in
      s <- rd shp i ;; last <- rd shp (S L - 1) ;;
      v <- rd vs i ;; vs <- wr vs i (resize nzero v (f s)) ;;
      v <- rd na i ;; na <- wr na i (resize nzero v (f s)) ;;
      v <- rd ds i ;; ds <- wr ds i (resize nzero v (g last s)) ;;
      Some (vs, na, ds)) (vs0, na0, ds0) = Some (vs, na, ds) /\
    resized b vs /\ resized b na /\ resized (b * sh L) ds.
Proof.
  intros H1 H2 H3 Hf Hg.
  match goal with |- exists vs na ds, for_ ?n ?body ?s0 = _ /\ _ =>
    destruct (for_inv (fun k st => let '(vs, na, ds) := st in
       length vs = S L /\ length na = S L /\ length ds = S L /\
       (forall q, q < k -> length (nth q vs []) = b * sh q) /\
       (forall q, q < k -> length (nth q na []) = b * sh q) /\
       (forall q, q < k -> length (nth q ds []) = b * sh L * sh q)) n body s0)
      as ([[vs na] ds] & E & I1 & I2 & I3 & I4 & I5 & I6) end.
  - repeat split; auto; intros; lia.
  - intros k [[vs na] ds] Hk (I1 & I2 & I3 & I4 & I5 & I6).
    rewrite !rd_shp by lia. cbn [bind]. replace (S L - 1) with L by lia.
    rewrite !rd_bufs by lia. cbn [bind]. rewrite !wr_some by lia. cbn [bind].
    eexists. split; [reflexivity|]. cbn. rewrite !length_upd. repeat split; auto.
    + intros q Hq. apply upd_len; auto; [lia|rewrite length_resize; auto|]. intros; apply I4; lia.
    + intros q Hq. apply upd_len; auto; [lia|rewrite length_resize; auto|]. intros; apply I5; lia.
    + intros q Hq. apply upd_len; auto; [lia|rewrite length_resize; auto|]. intros; apply I6; lia.
  - exists vs, na, ds. split; [exact E|]. repeat split; auto; intros q Hq.
    + apply I4; lia. + apply I5; lia. + apply I6; lia.
Qed.

(** activation-derivative buffers after [k] layers *)
Definition ainv (b : nat) (A : nat -> list N) (k : nat) (na : list (list N)) : Prop :=
  resized b na /\ forall q, 1 <= q <= k -> nth q na [] = A q.

Lemma ainv_upd b A k na : ainv b A k na -> S k <= L -> length (A (S k)) = b * sh (S k) ->
  ainv b A (S k) (upd na (S k) (A (S k))).
Proof.
  intros ((H1 & H2) & H3) Hk Hl. split; [split; [rewrite length_upd; auto|]|].
  - intros q Hq. apply upd_len; auto.
  - intros q Hq. rewrite nth_upd by lia. destruct (Nat.eqb_spec (S k) q) as [<-|]; auto. apply H3. lia.
Qed.

(** derivative buffers: [ds[L-1-k]] holds the rows [D k], the buffers below have their size *)
Definition dinv (b : nat) (D : nat -> list (list N)) (k : nat) (ds : list (list N)) : Prop :=
  length ds = S L /\ nth (L-1-k) ds [] = concat (D k) /\
  forall q, q < L-1-k -> length (nth q ds []) = b * sh L * sh q.

Lemma scale_rows (a : list N) (D : list (list N)) c n : n = length D -> rows D c -> length a = c ->
  for_ n (fun i d1 => for_ c (fun j d1 =>
            d <- rd d1 (i*c+j) ;; aj <- rd a j ;; wr d1 (i*c+j) (nmul d aj)) d1) (concat D)
  = Some (concat (map (scal a) D)).
Proof.
  intros -> HD Ha.
  match goal with |- for_ ?n ?b _ = _ => 
    assert (H : sseg 0 (for_ n b) (flat_map (fun i => nth i D []) (seq 0 (length D)))
                  (flat_map (fun i => scal a (nth i D [])) (seq 0 (length D)))) end.
  { apply sseg_for_const with (sz := c).
    - intros i Hi. apply rows_nth; auto.
    - intros i Hi. pose proof (rows_nth D c i HD Hi) as Hc.
      rewrite (tab_nth (nth i D []) nzero) at 1. unfold scal. rewrite Hc.
      apply (sseg_tab (0 + i * c) c (fun j x => nmul x (nth j a nzero))).
      intros j l x Hj Hr. cbn [plus] in *. rewrite Hr. cbn [bind].
      rewrite (rd_some a j nzero) by lia. reflexivity. }
  rewrite <- concat_seq_nth in H. rewrite (flat_map_seq_nth (scal a) D []) in H.
  rewrite concat_map_flat_map. apply sseg_all. exact H.
Qed.

Lemma rows_scal a D c : rows D c -> rows (map (scal a) D) c.
Proof.
  intros H r Hr. apply in_map_iff in Hr as (y & <- & Hy). unfold scal. rewrite length_tab. auto.
Qed.

Lemma evaluate_gradient_ok m x : wf_mlp m -> length x = d0 ->
  exists m', mlp_evaluate_gradient m x = Some (m', (out_of act_g x, concat (Dk (L-1) x))) /\ wf_mlp m'.
Proof.
  intros (Es & Ew & Ec & Hv & Hd & Ha) Hx. unfold mlp_evaluate_gradient.
  rewrite Es, Ew, Ec, length_shp, length_wts.
  replace (2 <=? S L) with true by (symmetry; apply Nat.leb_le; unfold L; lia).
  destruct (resize3_loop 1 (fun s => s) (fun last s => last * s) _ _ _ Hv Ha Hd)
    as (vs & na & ds & -> & [Hvl Hvs] & Hna & [Hdl Hds]); [intros; lia|intros; lia|]. cbn [bind].
  destruct (copy_input 1 (fun q => fwd act_g q x) vs x Hvl Hvs) as (vs1 & E1 & I1); auto; [lia|].
  destruct (rd vs 0) as [v0|]; [|discriminate E1]. cbn [bind] in *.
  destruct (copy_to x v0 0) as [v0'|]; [|discriminate E1]. cbn [bind] in *. rewrite E1. cbn [bind].
  replace (S L - 2) with (L - 1) by lia.
  match goal with |- context [for_ (L-1) ?body (vs1, na)] =>
    destruct (for_inv (fun k st => vinv 1 (fun q => fwd act_g q x) k (fst st) /\
        ainv 1 (fun q => actl x (q-1)) k (snd st)) (L-1) body (vs1, na)) as ([vs2 na2] & -> & I2 & A2) end.
  { split; auto. split; auto. intros; lia. }
  { intros k [vs2 na2] Hk [I A]. pose proof I as (I1' & I2' & I3'). pose proof A as ((A1' & A2') & A3').
    cbn [fst snd] in *.
    replace (k + 1) with (S k) by lia. rewrite !rd_shp, rd_wts by lia. cbn [bind].
    rewrite !rd_bufs by lia. cbn [bind].
    rewrite <- sh_W by lia. rewrite I3' by lia.
    rewrite gemv_ok.
    - cbn [bind]. rewrite (inplace_map2 act_g dact).
      2:{ rewrite length_mv; auto. }
      2:{ rewrite length_mv, A2' by lia. rewrite sh_W by lia. lia. }
      cbn [bind].
      rewrite !wr_some by lia. cbn [bind]. eexists. split; [reflexivity|]. cbn [fst snd]. split.
      + apply (vinv_upd 1 (fun q => fwd act_g q x)); auto; [lia|].
        rewrite length_fwd by (auto; lia). lia.
      + change (map dact (mv (Wl k) (fwd act_g k x))) with (actl x k).
        replace (actl x k) with ((fun q => actl x (q-1)) (S k)) by (cbv beta; f_equal; lia).
        apply (ainv_upd 1 (fun q => actl x (q-1))); auto; [lia|].
        rewrite length_actl by lia. replace (S (S k - 1)) with (S k) by lia. lia.
    - apply sh_rows; lia.
    - apply sh_pos; lia.
    - apply length_fwd; auto; lia.
    - rewrite I2' by lia. rewrite sh_W by lia. lia. }
  cbn [bind fst snd] in *. destruct I2 as (J1 & J2 & J3). destruct A2 as ((B1 & B2) & B3).
  replace (S L - 1) with L by lia. rewrite !rd_shp, rd_wts by (unfold L in *; lia). cbn [bind].
  rewrite J1. replace (S L - 2) with (L - 1) by lia. replace (S L - 1) with L by lia.
  rewrite !rd_bufs by lia. cbn [bind].
  replace (dgemv_n (N:=N) false (sh L)) with (dgemv_n (N:=N) false (length (Wl (L-1))))
    by (rewrite sh_W by (unfold L in *; lia); do 2 f_equal; unfold L in *; lia).
  rewrite J3 by lia. rewrite gemv_ok.
  2:{ apply sh_rows; unfold L in *; lia. }
  2:{ apply sh_pos; lia. }
  2:{ apply length_fwd; auto; lia. }
  2:{ rewrite J2 by lia. rewrite sh_W by (unfold L in *; lia). replace (S (L-1)) with L by (unfold L in *; lia). lia. }
  cbn [bind]. rewrite wr_some by lia. cbn [bind].
  rewrite Hdl. replace (S L - 2) with (L-1) by lia. rewrite (wr_some ds) by lia. cbn [bind].
  unfold for_down.
  match goal with |- context [for_ (L-1) ?body ?s] =>
    destruct (for_inv (dinv 1 (fun k => Dk k x)) (L-1) body s) as (ds2 & -> & D1 & D2 & D3) end.
  { split; [rewrite length_upd; auto|]. rewrite Nat.sub_0_r. split.
    - rewrite nth_upd by lia. rewrite Nat.eqb_refl. reflexivity.
    - intros q Hq. rewrite nth_upd by lia. destruct (Nat.eqb_spec (L-1) q); [lia|].
      rewrite Hds by lia. lia. }
  { intros k ds2 Hk (D1 & D2 & D3).
    replace (L - 1 - 1 - k) with (L - 2 - k) by lia. set (l := L - 2 - k).
    replace (l + 1) with (L - 1 - k) by lia.
    rewrite !rd_shp by lia. cbn [bind]. rewrite !rd_bufs by lia. cbn [bind].
    rewrite B3 by lia. rewrite D2. replace (L - 1 - k - 1) with l by lia.
    rewrite scale_rows.
    2:{ symmetry; apply length_Dk. }
    2:{ apply rows_Dk; lia. }
    2:{ rewrite length_actl by lia. f_equal. lia. }
    cbn [bind]. rewrite wr_some by lia. cbn [bind]. rewrite rd_wts by lia. cbn [bind].
    rewrite rd_bufs by (rewrite length_upd; lia). cbn [bind].
    rewrite nth_upd by lia. destruct (Nat.eqb_spec (L-1-k) l); [lia|].
    replace (sh L) with (length (map (scal (actl x l)) (Dk k x))) by (rewrite map_length; apply length_Dk).
    replace (sh (L-1-k)) with (length (Wl l)) by (rewrite sh_W by lia; f_equal; lia).
    rewrite gemm_nn_ok.
    - cbn [bind]. rewrite wr_some by (rewrite length_upd; lia). eexists. split; [reflexivity|].
      split; [rewrite !length_upd; auto|]. replace (L - 1 - S k) with l by lia. split.
      + rewrite nth_upd by (rewrite length_upd; lia). rewrite Nat.eqb_refl.
        rewrite flat_map_map. simpl. rewrite concat_map_flat_map. reflexivity.
      + intros q Hq. rewrite nth_upd by (rewrite length_upd; lia). destruct (Nat.eqb_spec l q); [lia|].
        rewrite nth_upd by lia. destruct (Nat.eqb_spec (L-1-k) q); [lia|]. apply D3. lia.
    - apply sh_rows; lia.
    - apply sh_pos; lia.
    - rewrite sh_W by lia. apply sh_pos; lia.
    - apply rows_scal. rewrite sh_W by lia. replace (S l) with (L-1-k) by lia. apply rows_Dk. lia.
    - rewrite D3 by lia. rewrite map_length, length_Dk. lia. }
  cbn [bind]. rewrite length_upd, J1. replace (S L - 1) with L by lia.
  rewrite !rd_bufs by (rewrite ?length_upd; lia). cbn [bind].
  rewrite nth_upd by lia. rewrite Nat.eqb_refl.
  replace (L - 1 - (L - 1)) with 0 in D2 by lia. rewrite D2.
  eexists. split; [reflexivity|]. repeat split; auto. cbn. rewrite length_upd. lia.
Qed.

(** batched backward pass: [D k] is the concatenation over the rows of the batch *)
Lemma rows_flat_map {A} (f : A -> list (list N)) (l : list A) c :
  (forall x, In x l -> rows (f x) c) -> rows (flat_map f l) c.
Proof. intros H r Hr. apply in_flat_map in Hr as (x & Hx & Hr). exact (H x Hx r Hr). Qed.

Lemma scale_rows_batch (a : list N -> list N) (D : list N -> list (list N)) (X : list (list N)) c last :
  (forall x, In x X -> length (D x) = last) -> (forall x, In x X -> rows (D x) c) ->
  (forall x, In x X -> length (a x) = c) ->
  for_ (length X) (fun i d1 => for_ last (fun j d1 => for_ c (fun p d1 =>
            d <- rd d1 (i*last*c+j*c+p) ;; aj <- rd (flat_map a X) (i*c+p) ;; wr d1 (i*last*c+j*c+p) (nmul d aj)) d1) d1)
      (flat_map (fun x => concat (D x)) X)
  = Some (flat_map (fun x => concat (map (scal (a x)) (D x))) X).
Proof.
  intros HL HD Ha.
  match goal with |- for_ ?n ?b _ = _ => 
    assert (H : sseg 0 (for_ n b) (flat_map (fun i => concat (D (nth i X []))) (seq 0 (length X)))
                  (flat_map (fun i => concat (map (scal (a (nth i X []))) (D (nth i X [])))) (seq 0 (length X)))) end.
  { apply sseg_for_const with (sz := last * c).
    - intros i Hi. assert (Hin : In (nth i X []) X) by (apply nth_In; auto).
      rewrite (length_concat_const _ c) by (apply HD; auto). rewrite HL by auto. reflexivity.
    - intros i Hi. assert (Hin : In (nth i X []) X) by (apply nth_In; auto).
      set (x := nth i X []) in *. cbn [plus].
      rewrite (concat_seq_nth (D x)), concat_map_flat_map.
      rewrite <- (flat_map_seq_nth (scal (a x)) (D x) []). rewrite HL by auto.
      apply sseg_for_const with (sz := c).
      + intros j Hj. apply rows_nth; [apply HD; auto|rewrite HL; auto].
      + intros j Hj. pose proof (rows_nth (D x) c j (HD x Hin) ltac:(rewrite HL; auto)) as Hc.
        rewrite (tab_nth (nth j (D x) []) nzero) at 1. unfold scal. rewrite Hc.
        apply (sseg_tab _ c (fun p v => nmul v (nth p (a x) nzero))).
        intros p l v Hp Hr. replace (i * last * c + j * c + p) with (i * (last * c) + j * c + p) by lia.
        rewrite Hr. cbn [bind].
        assert (Hra : rd (flat_map a X) (i * c + p) = Some (nth p (a x) nzero)).
        { unfold rd. rewrite nth_error_flat_map_const with (c := c) (x := x); auto.
          - apply nth_error_nth'. rewrite Ha; auto.
          - apply nth_error_nth'; auto. }
        rewrite Hra. reflexivity. }
  rewrite (flat_map_seq_nth (fun x => concat (D x)) X []) in H.
  rewrite (flat_map_seq_nth (fun x => concat (map (scal (a x)) (D x))) X []) in H.
  apply sseg_all. exact H.
Qed.

Lemma repeat_weights (w : list N) b d : length d = b * length w ->
  for_ b (fun i dl => copy_to w dl (i * length w)) d = Some (flat_map (fun _ => w) (seq 0 b)).
Proof.
  intros Hd. apply (swr_all (b * length w)); auto.
  apply swr_for_const with (sz := length w); auto. intros i Hi. apply copy_to_swr.
Qed.

Lemma evaluate_gradient_batch_ok m X : wf_mlp m -> rows X d0 ->
  exists m', mlp_evaluate_gradient_batch m (concat X) (length X) =
    Some (m', (flat_map (out_of act_g) X, flat_map (fun x => concat (Dk (L-1) x)) X)) /\ wf_mlp m'.
Proof.
  intros (Es & Ew & Ec & Hv & Hd & Ha) HX. unfold mlp_evaluate_gradient_batch.
  rewrite Es, Ew, Ec, length_shp, length_wts.
  replace (2 <=? S L) with true by (symmetry; apply Nat.leb_le; unfold L; lia).
  destruct (resize3_loop (length X) (fun s => length X * s) (fun last s => length X * last * s) _ _ _ Hv Ha Hd)
    as (vs & na & ds & -> & [Hvl Hvs] & Hna & [Hdl Hds]); [intros; lia|intros; lia|]. cbn [bind].
  destruct (copy_input (length X) (fun q => concat (map (fwd act_g q) X)) vs (concat X) Hvl Hvs) as (vs1 & E1 & I1).
  { apply length_concat_const; auto. }
  { simpl. rewrite map_id. reflexivity. }
  destruct (rd vs 0) as [v0|]; [|discriminate E1]. cbn [bind] in *.
  destruct (copy_to (concat X) v0 0) as [v0'|]; [|discriminate E1]. cbn [bind] in *. rewrite E1. cbn [bind].
  replace (S L - 2) with (L - 1) by lia.
  assert (HR : forall q, q <= L -> rows (map (fwd act_g q) X) (sh q)).
  { intros q Hq r Hr. apply in_map_iff in Hr as (x & <- & Hx). apply length_fwd; auto. }
  match goal with |- context [for_ (L-1) ?body (vs1, na)] =>
    destruct (for_inv (fun k st => vinv (length X) (fun q => concat (map (fwd act_g q) X)) k (fst st) /\
        ainv (length X) (fun q => flat_map (fun x => actl x (q-1)) X) k (snd st)) (L-1) body (vs1, na))
      as ([vs2 na2] & -> & I2 & A2) end.
  { split; auto. split; auto. intros; lia. }
  { intros k [vs2 na2] Hk [I A]. pose proof I as (I1' & I2' & I3'). pose proof A as ((A1' & A2') & A3').
    cbn [fst snd] in *.
    replace (k + 1) with (S k) by lia. rewrite !rd_shp, rd_wts by lia. cbn [bind].
    rewrite !rd_bufs by lia. cbn [bind].
    rewrite <- sh_W by lia. rewrite I3' by lia.
    pose proof (gemm_nt_ok (Wl k) (sh k) (map (fwd act_g k) X) (nth (S k) vs2 [])) as G.
    rewrite map_length in G. rewrite G.
    - cbn [bind].
      assert (HLen : length (flat_map (mv (Wl k)) (map (fwd act_g k) X)) = length X * sh (S k)).
      { rewrite length_flat_map_const with (c := sh (S k)); [rewrite map_length; auto|].
        intros y _. rewrite length_mv, sh_W by lia. auto. }
      rewrite (inplace_map2 act_g dact); auto.
      2:{ rewrite A2' by lia. rewrite HLen. lia. }
      cbn [bind].
      rewrite !wr_some by lia. cbn [bind]. eexists. split; [reflexivity|]. cbn [fst snd].
      rewrite flat_map_map, !map_flat_map. split.
      + rewrite <- (concat_map_flat_map (fun x => map act_g (mv (Wl k) (fwd act_g k x)))).
        change (fun x => map act_g (mv (Wl k) (fwd act_g k x))) with (fwd act_g (S k)).
        apply (vinv_upd (length X) (fun q => concat (map (fwd act_g q) X))); auto; [lia|].
        rewrite (length_concat_const _ (sh (S k))) by (apply HR; lia). rewrite map_length. reflexivity.
      + assert (EA : flat_map (fun x => map dact (mv (Wl k) (fwd act_g k x))) X =
                     (fun q => flat_map (fun x => actl x (q-1)) X) (S k)).
        { apply flat_map_ext_in. intros x _. unfold actl. replace (S k - 1) with k by lia. reflexivity. }
        rewrite EA. apply (ainv_upd (length X) (fun q => flat_map (fun x => actl x (q-1)) X)); auto; [lia|].
        apply length_flat_map_const. intros x _. rewrite length_actl by lia. f_equal. lia.
    - apply sh_rows; lia.
    - apply sh_pos; lia.
    - rewrite sh_W by lia. apply sh_pos; lia.
    - apply HR; lia.
    - rewrite I2' by lia. rewrite sh_W by lia. lia. }
  cbn [bind fst snd] in *. destruct I2 as (J1 & J2 & J3). destruct A2 as ((B1 & B2) & B3).
  replace (S L - 1) with L by lia. rewrite !rd_shp, rd_wts by (unfold L in *; lia). cbn [bind].
  rewrite J1. replace (S L - 2) with (L - 1) by lia. replace (S L - 1) with L by lia.
  rewrite !rd_bufs by lia. cbn [bind].
  assert (EL : sh L = length (Wl (L-1))) by (rewrite sh_W by (unfold L in *; lia); f_equal; unfold L in *; lia).
  rewrite J3 by lia.
  pose proof (gemm_nt_ok (Wl (L-1)) (sh (L-1)) (map (fwd act_g (L-1)) X) (nth L vs2 [])) as G.
  rewrite map_length in G. rewrite <- EL in G. rewrite G; clear G.
  2:{ apply sh_rows; unfold L in *; lia. }
  2:{ apply sh_pos; lia. }
  2:{ apply sh_pos; lia. }
  2:{ apply HR; lia. }
  2:{ rewrite J2 by lia. lia. }
  cbn [bind]. rewrite wr_some by lia. cbn [bind].
  rewrite Hdl. replace (S L - 2) with (L-1) by lia. cbn [bind].
  rewrite repeat_weights.
  2:{ rewrite Hds by lia. rewrite len_W by (unfold L in *; lia). replace (S (L-1)) with L by (unfold L in *; lia). lia. }
  cbn [bind]. rewrite (wr_some ds) by lia. cbn [bind].
  unfold for_down.
  match goal with |- context [for_ (L-1) ?body ?s] =>
    destruct (for_inv (dinv (length X) (fun k => flat_map (fun x => Dk k x) X)) (L-1) body s) as (ds2 & -> & D1 & D2 & D3) end.
  { split; [rewrite length_upd; auto|]. rewrite Nat.sub_0_r. split.
    - rewrite nth_upd by lia. rewrite Nat.eqb_refl. rewrite concat_flat_map. simpl.
      rewrite <- (flat_map_seq_nth (fun _ => concat (Wl (L-1))) X []). reflexivity.
    - intros q Hq. rewrite nth_upd by lia. destruct (Nat.eqb_spec (L-1) q); [lia|].
      rewrite Hds by lia. lia. }
  { intros k ds2 Hk (D1 & D2 & D3).
    replace (L - 1 - 1 - k) with (L - 2 - k) by lia. set (l := L - 2 - k).
    replace (l + 1) with (L - 1 - k) by lia.
    rewrite !rd_shp by lia. cbn [bind]. rewrite !rd_bufs by lia. cbn [bind].
    rewrite B3 by lia. rewrite D2. replace (L - 1 - k - 1) with l by lia.
    rewrite concat_flat_map.
    rewrite (scale_rows_batch (fun x => actl x l) (Dk k)).
    2:{ intros; apply length_Dk. }
    2:{ intros; apply rows_Dk; lia. }
    2:{ intros; rewrite length_actl by lia. f_equal. lia. }
    cbn [bind]. rewrite wr_some by lia. cbn [bind]. rewrite rd_wts by lia. cbn [bind].
    rewrite rd_bufs by (rewrite length_upd; lia). cbn [bind].
    rewrite nth_upd by lia. destruct (Nat.eqb_spec (L-1-k) l); [lia|].
    rewrite <- concat_flat_map.
    assert (HLD : length (flat_map (fun x => map (scal (actl x l)) (Dk k x)) X) = length X * sh L).
    { apply length_flat_map_const. intros x _. rewrite map_length. apply length_Dk. }
    rewrite <- HLD.
    replace (sh (L-1-k)) with (length (Wl l)) by (rewrite sh_W by lia; f_equal; lia).
    rewrite gemm_nn_ok.
    - cbn [bind]. rewrite wr_some by (rewrite length_upd; lia). eexists. split; [reflexivity|].
      split; [rewrite !length_upd; auto|]. replace (L - 1 - S k) with l by lia. split.
      + rewrite nth_upd by (rewrite length_upd; lia). rewrite Nat.eqb_refl.
        rewrite flat_map_flat_map, concat_flat_map. apply flat_map_ext_in. intros x _.
        rewrite flat_map_map. simpl. rewrite concat_map_flat_map. reflexivity.
      + intros q Hq. rewrite nth_upd by (rewrite length_upd; lia). destruct (Nat.eqb_spec l q); [lia|].
        rewrite nth_upd by lia. destruct (Nat.eqb_spec (L-1-k) q); [lia|]. apply D3. lia.
    - apply sh_rows; lia.
    - apply sh_pos; lia.
    - rewrite sh_W by lia. apply sh_pos; lia.
    - apply rows_flat_map. intros x _. apply rows_scal. rewrite sh_W by lia.
      replace (S l) with (L-1-k) by lia. apply rows_Dk. lia.
    - rewrite D3 by lia. rewrite HLD. lia. }
  cbn [bind]. rewrite length_upd, J1. replace (S L - 1) with L by lia.
  rewrite !rd_bufs by (rewrite ?length_upd; lia). cbn [bind].
  rewrite nth_upd by lia. rewrite Nat.eqb_refl.
  replace (L - 1 - (L - 1)) with 0 in D2 by lia. rewrite D2.
  rewrite flat_map_map, concat_flat_map.
  eexists. split; [reflexivity|]. repeat split; auto. cbn. rewrite length_upd. lia.
Qed.

End Gen.
