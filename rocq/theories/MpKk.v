(** The Kokkos class of multivariate polynomials computes what the CPU class computes.  Used in proofs only. *)
From Coq Require Import List Arith ZArith Bool Lia Reals Lra Permutation FunctionalExtensionality.
From Verif Require Import Base BaseLemmas Segs Instances BlasModel BlasLemmas RSums ToolsModel MpModel MpSpec MpCtor MpProofs MpR.
From Verif Require Import KkSem KkSound KkWp KkWp2 KkModel KkHost KkTac KkSpec MpKkModel MpKkSpec.
Import ListNotations.
Local Open Scope R_scope.

(** ** kernels whose iterations store one cell of one view each *)
Definition own1 (b : buf) (c : cell) : option nat :=
  if buf_dec b (fst c) then match snd c with [i] => Some i | _ => None end else None.
Lemma own1_eq b i : own1 b (b, [i]) = Some i.
Proof. unfold own1. cbn. destruct (buf_dec b b); congruence. Qed.
Lemma own1_ne b c : fst c <> b -> own1 b c = None.
Proof. unfold own1. destruct (buf_dec b (fst c)); congruence. Qed.
Lemma own1_inv b c i : own1 b c = Some i -> c = (b, [i]).
Proof.
  unfold own1. destruct c as [b' idx]. cbn [fst snd]. destruct (buf_dec b b') as [<-|]; [|discriminate].
  destruct idx as [|x [|? ?]]; try discriminate. congruence.
Qed.
Lemma kd_top_read own i c : own c = None -> can_read (kd top own none_ i c) = true.
Proof. unfold kd, top, none_. intros ->. reflexivity. Qed.
Lemma wp_fill1 b n body (f : nat -> R) (m : rmem) (Q : unit -> rmem -> Prop) :
  (forall i pi, (i < n)%nat -> (forall c, fst c <> b -> can_read (pi c) = true) -> pi (b, [i]) = POwn ->
     wp pi (body i) m (fun _ m' => m' = store m (b, [i]) (f i))) ->
  (forall m', dims m' = dims m -> (forall i, (i < n)%nat -> va m' (b, [i]) = f i) ->
     (forall c, fst c <> b -> va m' c = va m c) ->
     (forall i, (n <= i)%nat -> va m' (b, [i]) = va m (b, [i])) -> Q tt m') ->
  wp top (par_for (N:=RNum) n body) m Q.
Proof.
  intros HB HQ. apply (wp_pfor top (own1 b) none_ (fun c v => match snd c with [i] => v = f i | _ => True end) nadd_).
  - intros i Hi. eapply wp_conseq; [apply (HB i)|]; auto.
    + intros c Hc. apply kd_top_read. apply own1_ne. auto.
    + apply kd_own_ok; auto. apply own1_eq.
    + cbn beta. intros _ m' ->. apply kpost_own. intros c _ O. apply own1_inv in O. subst c. cbn [snd]. apply va_store_eq.
  - intros m' (D & P1 & P2 & _ & P4). apply HQ; auto.
    + intros i Hi. apply (P1 (b, [i]) i); auto. apply own1_eq.
    + intros c Hc. apply P4. unfold idle, top. split; auto. apply own1_ne. auto.
    + intros i Hi. apply (P2 (b, [i]) i); auto. apply own1_eq.
Qed.
Lemma al1 (m : rmem) b k i : dims m b = [k] -> (i < k)%nat -> alloc m (b, [i]) = true.
Proof.
  intros D H. assert (I : inb (dims m b) [i] = true) by (rewrite D; apply inP_inb; cbn; auto).
  unfold alloc. cbn [fst snd]. destruct b; auto.
Qed.

(** ** the graph *)
Section Graph.
Variable p : @mpoly RNum.
Variable q : mpkk RNum.
Notation n := (mp_nvars p).
Notation E := (mp_edges p).
Notation M := (length (mp_edges p)).
Notation nn := (length (mp_nodes p)).
Hypothesis W : mp_wf p.
Hypothesis Qn : q_nvars q = n.
Hypothesis Qe : q_edges q = E.
Hypothesis Qc : q_ncoeffs q = mp_ncoeffs p.

Definition mok (m : rmem) : Prop := dims m qVals = [nn] /\ dims m qAdjs = [nn] /\ dims m qF = [].
Lemma mok_dims m m' : dims m' = dims m -> mok m -> mok m'.
Proof. unfold mok. intros ->. auto. Qed.

Lemma init_forward_wp x m : length x = n -> mok m ->
  wp top (k_init_forward (N:=RNum) q x) m (fun _ m' => dims m' = dims m /\ (forall i, (i < n)%nat -> va m' (qVals, [i]) = nth i x 0) /\
    (forall c, fst c <> qVals -> va m' c = va m c)).
Proof.
  intros Hx (D1 & _ & _). pose proof (wf_nodes p W) as Hn. unfold k_init_forward. rewrite Qn.
  apply (wp_fill1 qVals n _ (fun i => nth i x 0)); [|tauto].
  intros i pi Hi _ P. eapply wp_lift; [apply rd_some; rewrite Hx; exact Hi|].
  apply wp_put_; [exact P|apply (al1 m qVals nn); auto; lia|reflexivity].
Qed.

Lemma forward_wp x m : length x = n -> mok m -> (forall i, (i < n)%nat -> va m (qVals, [i]) = nth i x 0) ->
  wp top (k_forward_pass (N:=RNum) true q) m (fun _ m' => dims m' = dims m /\
    (forall i, (i < nn)%nat -> va m' (qVals, [i]) = nth i (vlist p x M) 0) /\
    (forall c, fst c <> qVals -> va m' c = va m c)).
Proof.
  intros Hx (D1 & _ & _) H0. pose proof (wf_nodes p W) as Hn. unfold k_forward_pass. apply wp_pguard; auto. rewrite Qn, Qe.
  apply (wp_for _ top M _ (fun k _ m' => dims m' = dims m /\
    (forall i, (i < n + k)%nat -> va m' (qVals, [i]) = nth i (vlist p x k) 0) /\
    (forall c, fst c <> qVals -> va m' c = va m c))).
  - split; auto. split; auto. intros i Hi. apply H0. lia.
  - intros k [] m' Hk (D & V & O). destruct (ed_ok p W k Hk) as (R1 & L0 & L1).
    eapply wp_lift; [exact R1|]. destruct (ed p k) as [i0 i1] eqn:Ee. cbn [fst snd] in *.
    apply wp_get; [reflexivity|apply (al1 m' qVals nn); [congruence|lia]|].
    apply wp_get; [reflexivity|apply (al1 m' qVals nn); [congruence|lia]|].
    apply wp_put_; [reflexivity|apply (al1 m' qVals nn); [congruence|lia]|].
    split; [exact D|]. split.
    + intros i Hi. cbn [vlist]. rewrite Ee. cbn [fst snd].
      assert (LV : length (vlist p x k) = (n + k)%nat) by (rewrite length_vlist; f_equal; exact Hx).
      destruct (Nat.eq_dec i (n + k)) as [->|Hne].
      * rewrite va_store_eq. rewrite app_nth2 by (rewrite LV; lia).
        rewrite LV, Nat.sub_diag. cbn [nth]. rewrite !V by lia. reflexivity.
      * rewrite va_store_ne by congruence. rewrite app_nth1 by (rewrite LV; lia). apply V. lia.
    + intros c Hc. rewrite va_store_ne by (intros <-; apply Hc; reflexivity). auto.
  - intros _ m' (D & V & O). split; auto. split; auto. intros i Hi. apply V. lia.
Qed.

Lemma dot_wp x m : length x = n -> mok m -> (forall i, (i < nn)%nat -> va m (qVals, [i]) = nth i (vlist p x M) 0) ->
  wp top (k_dot (N:=RNum) q) m (fun _ m' => dims m' = dims m /\ va m' (qF, []) = pval p x /\
    (forall c, fst c <> qF -> fst c <> bScr -> va m' c = va m c)).
Proof.
  intros Hx (D1 & _ & D3) V. unfold k_dot. rewrite Qc. apply wp_bind.
  apply (wp_red1r top [] _ _ (fun i => nth i (mp_ncoeffs p) 0 * nth i (vlist p x M) 0)); [reflexivity| |].
  - intros j Hj. rewrite (wf_nc p W) in Hj.
    eapply wp_lift; [apply rd_some; rewrite (wf_nc p W); exact Hj|].
    apply wp_get; [reflexivity|apply (al1 _ qVals nn); auto|]. apply wp_ret. rewrite va_puts0. cbn [scrs existsb scr qVals orb].
    rewrite V by auto. reflexivity.
  - intros m' D O. apply wp_put_; [reflexivity|change (inb (dims m' qF) [] = true); rewrite D, D3; reflexivity|].
    split; [exact D|]. split.
    + rewrite va_store_eq. etransitivity; [|symmetry; apply nsum_rsum]. f_equal. apply (wf_nc p W).
    + intros c Hc Hc'. rewrite va_store_ne by (intros <-; apply Hc; reflexivity). apply O.
      destruct c as [b idx]. cbn [fst] in *. destruct b; try reflexivity. contradiction.
Qed.

Lemma init_backward_wp m : mok m ->
  wp top (k_init_backward (N:=RNum) q) m (fun _ m' => dims m' = dims m /\
    (forall i, (i < nn)%nat -> va m' (qAdjs, [i]) = nth i (mp_ncoeffs p) 0) /\
    (forall c, fst c <> qAdjs -> va m' c = va m c)).
Proof.
  intros (_ & D2 & _). unfold k_init_backward. rewrite Qc, (wf_nc p W).
  apply (wp_fill1 qAdjs nn _ (fun i => nth i (mp_ncoeffs p) 0)); [|tauto].
  intros i pi Hi _ P. eapply wp_lift; [apply rd_some; rewrite (wf_nc p W); exact Hi|].
  apply wp_put_; [exact P|apply (al1 m qAdjs nn); auto|reflexivity].
Qed.

Lemma backward_wp V m : mok m -> (forall i, (i < nn)%nat -> va m (qVals, [i]) = nth i V 0) ->
  (forall i, (i < nn)%nat -> va m (qAdjs, [i]) = nth i (mp_ncoeffs p) 0) ->
  wp top (k_backward_pass (N:=RNum) true q) m (fun _ m' => dims m' = dims m /\
    (forall i, (i < nn)%nat -> va m' (qAdjs, [i]) = nth i (blist p V M) 0) /\
    (forall c, fst c <> qAdjs -> va m' c = va m c)).
Proof.
  intros (D1 & D2 & _) HV H0. pose proof (wf_nodes p W) as Hn. unfold k_backward_pass. apply wp_pguard; auto. rewrite Qn, Qe.
  apply (wp_for _ top M _ (fun k _ m' => dims m' = dims m /\
    (forall i, (i < nn)%nat -> va m' (qAdjs, [i]) = nth i (blist p V k) 0) /\
    (forall c, fst c <> qAdjs -> va m' c = va m c))).
  - split; auto.
  - intros k [] m' Hk (D & A & O). cbv zeta. set (i := (M - 1 - k)%nat).
    destruct (ed_ok p W i ltac:(unfold i; lia)) as (R1 & L0 & L1).
    assert (Hi : (n + i < nn)%nat) by (unfold i; lia).
    eapply wp_lift; [exact R1|]. destruct (ed p i) as [i0 i1] eqn:Ee. cbn [fst snd] in *.
    assert (OV : forall j, (j < nn)%nat -> va m' (qVals, [j]) = nth j V 0) by (intros j Hj; rewrite O by discriminate; auto).
    apply wp_get; [reflexivity|apply (al1 m' qAdjs nn); [congruence|lia]|].
    apply wp_get; [reflexivity|apply (al1 m' qVals nn); [congruence|lia]|].
    apply wp_plus; [reflexivity|apply (al1 m' qAdjs nn); [congruence|lia]|].
    set (m2 := store _ _ _).
    assert (D' : dims m2 = dims m) by exact D.
    assert (A2 : forall j, (j < nn)%nat -> va m2 (qAdjs, [j]) =
       nth j (add_at (N:=RNum) (blist p V k) i0 (nth (n + i) (blist p V k) 0 * nth i1 V 0)) 0).
    { intros j Hj. rewrite (nth_add_at (N:=RNum)) by (rewrite length_blist by auto; lia). unfold m2.
      destruct (Nat.eqb_spec i0 j) as [->|Hne].
      - rewrite va_store_eq. rewrite !A, OV by lia. reflexivity.
      - rewrite va_store_ne by congruence. auto. }
    assert (OV2 : forall j, (j < nn)%nat -> va m2 (qVals, [j]) = nth j V 0).
    { intros j Hj. unfold m2. rewrite va_store_ne by discriminate. auto. }
    apply wp_get; [reflexivity|apply (al1 m2 qAdjs nn); [congruence|lia]|].
    apply wp_get; [reflexivity|apply (al1 m2 qVals nn); [congruence|lia]|].
    apply wp_plus_; [reflexivity|apply (al1 m2 qAdjs nn); [congruence|lia]|].
    split; [exact D'|]. split.
    + intros j Hj. cbn [blist]. fold i. unfold bstep. rewrite Ee. cbn [fst snd].
      rewrite (nth_add_at (N:=RNum)) by (rewrite length_add_at, length_blist by auto; lia).
      destruct (Nat.eqb_spec i1 j) as [->|Hne].
      * rewrite va_store_eq. rewrite !A2, OV2 by lia. reflexivity.
      * rewrite va_store_ne by congruence. apply A2. auto.
    + intros c Hc. rewrite va_store_ne by (intros <-; apply Hc; reflexivity).
      unfold m2. rewrite va_store_ne by (intros <-; apply Hc; reflexivity). auto.
  - intros _ m' (D & A & O). auto.
Qed.

Lemma view_eq (m : rmem) b (l : list R) : dims m b = [length l] -> (forall i, (i < length l)%nat -> va m (b, [i]) = nth i l 0) -> kk_view m b = l.
Proof.
  intros D H. unfold kk_view, extent. rewrite D. cbn [nth].
  apply list_eq_nth with (d := 0); [rewrite map_length, seq_length; auto|].
  intros i Hi. rewrite map_length, seq_length in Hi.
  rewrite nth_indep with (d' := (fun i => val m (b, [i])) 0%nat) by (rewrite map_length, seq_length; auto).
  rewrite (map_nth (fun i => val m (b, [i]))), seq_nth by auto. apply (H i). auto.
Qed.

Lemma evaluate_hok x m : length x = n -> mok m ->
  hok (k_evaluate (N:=RNum) true q x) m (fun m' => dims m' = dims m /\ mpkk_f m' = pval p x).
Proof.
  intros Hx Hm. unfold k_evaluate.
  apply hok_run. eapply wp_conseq; [apply init_forward_wp; auto|]. cbn beta. intros _ m1 (D1 & V1 & _).
  apply hok_run. eapply wp_conseq; [apply (forward_wp x); auto; apply (mok_dims m); auto|]. cbn beta. intros _ m2 (D2 & V2 & _).
  apply hok_run. eapply wp_conseq; [apply (dot_wp x); auto; apply (mok_dims m); congruence|]. cbn beta. intros _ m3 (D3 & F3 & _).
  apply hok_nil. split; [congruence|exact F3].
Qed.

Lemma evaluate_gradient_hok x m : length x = n -> mok m -> dims m qG = [n] ->
  hok (k_evaluate_gradient (N:=RNum) true q x) m (fun m' => dims m' = dims m /\ mpkk_f m' = pval p x /\ mpkk_g m' = pgrad p x).
Proof.
  intros Hx Hm HG. pose proof (wf_nodes p W) as Hn. unfold k_evaluate_gradient, k_extract_gradient. cbn [app].
  apply hok_run. eapply wp_conseq; [apply init_forward_wp; auto|]. cbn beta. intros _ m1 (D1 & V1 & _).
  apply hok_run. eapply wp_conseq; [apply (forward_wp x); auto; apply (mok_dims m); auto|]. cbn beta. intros _ m2 (D2 & V2 & _).
  apply hok_run. eapply wp_conseq; [apply (dot_wp x); auto; apply (mok_dims m); congruence|]. cbn beta. intros _ m3 (D3 & F3 & O3).
  apply hok_run. eapply wp_conseq; [apply init_backward_wp; apply (mok_dims m); congruence|]. cbn beta. intros _ m4 (D4 & A4 & O4).
  apply hok_run. eapply wp_conseq; [apply (backward_wp (vlist p x M)); auto; [apply (mok_dims m); congruence|]|].
  { intros i Hi. rewrite O4, O3 by discriminate. auto. }
  cbn beta. intros _ m5 (D5 & A5 & O5).
  assert (D : dims m5 = dims m) by congruence.
  apply hok_hop. set (m6 := fill_view qG _ m5).
  assert (D6 : dims m6 = dims m).
  { unfold m6, fill_view, set_view. cbn [dims]. extensionality b. destruct (buf_dec qG b); congruence. }
  assert (O6 : forall c, fst c <> qG -> va m6 c = va m5 c).
  { intros c Hc. unfold m6, fill_view, set_view, va. cbn [KkSem.val]. destruct (buf_dec qG (fst c)); congruence. }
  apply hok_run. rewrite Qn. apply (wp_fill1 qG n _ (fun i => nth i (blist p (vlist p x M) M) 0)).
  - intros i pi Hi R P. destruct Hm as (_ & H2 & _).
    apply wp_get; [apply R; discriminate|apply (al1 m6 qAdjs nn); [congruence|lia]|].
    apply wp_put_; [exact P|apply (al1 m6 qG n); [congruence|lia]|]. f_equal. rewrite O6 by discriminate. apply A5. lia.
  - intros m7 D7 A7 O7 _. apply hok_nil. split; [congruence|]. split.
    + unfold mpkk_f. change (val m7 (qF, [])) with (va m7 (qF, [])).
      rewrite O7, O6, O5, O4 by discriminate. exact F3.
    + apply view_eq; rewrite length_pgrad by auto; [congruence|].
      intros i Hi. rewrite A7 by auto. unfold pgrad. rewrite nth_firstn_lt by auto. reflexivity.
Qed.
End Graph.

(** ** the tables of integers *)
Definition padrow (e : Z) (Wd : nat) (m : list nat) : list Z := map Z.of_nat m ++ repeat e (Wd - length m).
Lemma length_padrow e Wd m : (length m <= Wd)%nat -> length (padrow e Wd m) = Wd.
Proof. intros H. unfold padrow. rewrite app_length, map_length, repeat_length. lia. Qed.
Lemma nth_padrow e Wd m j : (j < Wd)%nat -> (length m <= Wd)%nat ->
  nth j (padrow e Wd m) 0%Z = if (j <? length m)%nat then Z.of_nat (nth j m 0%nat) else e.
Proof.
  intros Hj HL. unfold padrow. destruct (Nat.ltb_spec j (length m)).
  - rewrite app_nth1 by (rewrite map_length; auto). change 0%Z with (Z.of_nat 0). apply map_nth.
  - rewrite app_nth2 by (rewrite map_length; lia). rewrite map_length.
    rewrite nth_indep with (d' := e) by (rewrite repeat_length; lia). apply nth_repeat.
Qed.
Definition pad_e (host : bool) : Z := if host then (-1)%Z else 0%Z.
Lemma upd_upd {A} (l : list A) i v w : upd (upd l i v) i w = upd l i w.
Proof. revert i. induction l as [|x l IH]; intros [|i]; cbn; auto. f_equal. apply IH. Qed.
Lemma row_loop (t : list (list Z)) i (m : list nat) e Wd : (length m <= Wd)%nat -> (i < length t)%nat -> nth i t [] = repeat e Wd ->
  for_ (length m) (fun j t => q <- rd m j ;; wr2 t i j (Z.of_nat q)) t = Some (upd t i (padrow e Wd m)).
Proof.
  intros HL Hi H0.
  apply (for_trace (fun k => upd t i (map Z.of_nat (firstn k m) ++ repeat e (Wd - k)))).
  - cbn [firstn map app]. rewrite Nat.sub_0_r, <- H0. apply list_eq_nth with (d := []); rewrite ?length_upd; auto.
    intros j Hj. rewrite nth_upd by auto. destruct (Nat.eqb_spec i j) as [->|]; auto.
  - unfold padrow. rewrite firstn_all. reflexivity.
  - intros k Hk. rewrite (rd_some m k 0%nat) by auto. cbn [bind]. unfold wr2.
    rewrite (rd_some _ i []) by (rewrite length_upd; auto). cbn [bind]. rewrite nth_upd by auto. rewrite Nat.eqb_refl.
    assert (LF : length (map Z.of_nat (firstn k m)) = k) by (rewrite map_length, firstn_length; lia).
    rewrite wr_some by (rewrite app_length, repeat_length, LF; lia). cbn [bind].
    rewrite wr_some by (rewrite length_upd; auto). f_equal. rewrite upd_upd. f_equal.
    rewrite (firstn_S_nth m k (nth k m 0%nat)) by (apply nth_error_nth'; auto). rewrite map_app. cbn [map].
    replace (Wd - k)%nat with (S (Wd - S k)) by lia. cbn [repeat].
    apply list_eq_nth with (d := 0%Z); [rewrite length_upd, !app_length; cbn [length]; lia|].
    intros j Hj. rewrite nth_upd by (rewrite app_length; cbn [length]; lia). rewrite <- app_assoc. cbn [app].
    destruct (Nat.eqb_spec k j) as [<-|Hne].
    + rewrite app_nth2 by lia. rewrite LF, Nat.sub_diag. reflexivity.
    + destruct (Nat.lt_ge_cases j k) as [H|H]; [rewrite !app_nth1 by lia; auto|].
      rewrite !app_nth2 by lia. rewrite LF. replace (j - k)%nat with (S (j - k - 1)) by lia. reflexivity.
Qed.
Lemma int_table_ok host Wd rows : (forall m, In m rows -> (length m <= Wd)%nat) ->
  int_table host Wd rows = Some (map (padrow (pad_e host) Wd) rows).
Proof.
  intros H. unfold int_table. fold (pad_e host).
  apply (for_trace (fun k => map (padrow (pad_e host) Wd) (firstn k rows) ++ repeat (repeat (pad_e host) Wd) (length rows - k))).
  - cbn. rewrite Nat.sub_0_r. reflexivity.
  - rewrite firstn_all, Nat.sub_diag. cbn. symmetry. apply app_nil_r.
  - intros k Hk. rewrite (rd_some rows k []) by auto. cbn [bind].
    assert (LF : length (map (padrow (pad_e host) Wd) (firstn k rows)) = k) by (rewrite map_length, firstn_length; lia).
    rewrite (row_loop _ k _ (pad_e host) Wd).
    + f_equal. rewrite (firstn_S_nth rows k (nth k rows [])) by (apply nth_error_nth'; auto). rewrite map_app. cbn [map].
      replace (length rows - k)%nat with (S (length rows - S k)) by lia. cbn [repeat].
      apply list_eq_nth with (d := []); [rewrite length_upd, !app_length; cbn [length]; lia|].
      intros j Hj. rewrite nth_upd by (rewrite app_length; cbn [length]; lia). rewrite <- app_assoc. cbn [app].
      destruct (Nat.eqb_spec k j) as [<-|Hne].
      * rewrite app_nth2 by lia. rewrite LF, Nat.sub_diag. reflexivity.
      * destruct (Nat.lt_ge_cases j k) as [Hj'|Hj']; [rewrite !app_nth1 by lia; auto|].
        rewrite !app_nth2 by lia. rewrite LF. replace (j - k)%nat with (S (j - k - 1)) by lia. reflexivity.
    + apply H. apply nth_In. auto.
    + rewrite app_length, repeat_length, LF. lia.
    + rewrite app_nth2 by lia. rewrite LF, Nat.sub_diag. replace (length rows - k)%nat with (S (length rows - S k)) by lia. reflexivity.
Qed.
Definition max_len (ms : list (list nat)) : nat := fold_left (fun w m => if (w <? length m)%nat then length m else w) ms 0%nat.
Lemma max_len_from ms : forall w, (w <= fold_left (fun w (m : list nat) => if (w <? length m)%nat then length m else w) ms w)%nat /\
  forall m, In m ms -> (length m <= fold_left (fun w m => if (w <? length m)%nat then length m else w) ms w)%nat.
Proof.
  induction ms as [|a ms IH]; intros w; cbn [fold_left]; [split; [lia|intros m []]|].
  destruct (IH (if (w <? length a)%nat then length a else w)) as [H1 H2]. split.
  - destruct (Nat.ltb_spec w (length a)); lia.
  - intros m [<-|Hm]; [destruct (Nat.ltb_spec w (length a)); lia|auto].
Qed.
Lemma max_len_ok ms m : In m ms -> (length m <= max_len ms)%nat.
Proof. apply max_len_from. Qed.

(** nodes are never longer than the longest monomial *)
Section NodeLen.
Variable srt : list (list (list nat)) -> list (list (list nat)).
Variable L : nat.
Definition short (s : list (list nat)) : Prop := forall x, In x s -> (length x <= L)%nat.
Lemma in_set_insert k s x : In x (set_insert k s) -> x = k \/ In x s.
Proof.
  induction s as [|a s IH]; cbn [set_insert]; [intros [<-|[]]; auto|].
  destruct (lex_less k a); [intros [<-|H]; auto|]. destruct (lex_less a k); auto.
  intros [<-|H]; [right; left; auto|]. destruct (IH H); auto. right; right; auto.
Qed.
Lemma short_insert k s : short s -> (length k <= L)%nat -> short (set_insert k s).
Proof. intros H Hk x Hx. apply in_set_insert in Hx. destruct Hx as [->|Hx]; auto. Qed.
Lemma set_next_in s k x : set_next s k = Some x -> In x s.
Proof. induction s as [|a s IH]; cbn [set_next]; [discriminate|]. destruct (lex_less k a); [intros E; injection E as ->; left; auto|right; auto]. Qed.
Lemma removelast_le (x : list nat) : (length (removelast x) <= length x)%nat.
Proof.
  destruct x as [|a x]; [auto|]. pose proof (app_removelast_last 0%nat (l := a :: x) ltac:(discriminate)) as E.
  apply (f_equal (@length nat)) in E. rewrite app_length in E. cbn [length] in *. lia.
Qed.
Lemma add_ancestors_short fuel : forall node s naux s' n', short s -> (length node <= L)%nat ->
  add_ancestors srt fuel node s naux = Some (s', n') -> short s'.
Proof.
  induction fuel as [|fuel IH]; intros node s naux s' n' Hs Hl; cbn [add_ancestors];
    destruct (find_parents srt node s) as [fs|]; cbn [bind]; try discriminate; destruct (length fs =? 0)%nat; try discriminate;
    try (intros E; injection E as <- <-; exact Hs).
  destruct (length node =? 0)%nat; [discriminate|]. pose proof (removelast_le node).
  apply IH; [apply short_insert; auto; lia|lia].
Qed.
Lemma complete_nodes_short fuel : forall cur s naux s' n', short s -> (forall x, cur = Some x -> (length x <= L)%nat) ->
  complete_nodes srt fuel cur s naux = Some (s', n') -> short s'.
Proof.
  induction fuel as [|fuel IH]; intros [node|] s naux s' n' Hs Hc; cbn [complete_nodes]; try discriminate;
    try (intros E; injection E as <- <-; exact Hs).
  destruct (length node =? 1)%nat.
  - apply IH; auto. intros x Hx. apply Hs. eapply set_next_in; eauto.
  - destruct (add_ancestors srt (S (length node)) node s naux) as [[s1 n1]|] eqn:E; cbn [bind]; [|discriminate].
    apply add_ancestors_short in E; auto. apply IH; auto. intros x Hx. apply E. eapply set_next_in; eauto.
Qed.
End NodeLen.
Lemma in_map_insert {V} k (v : V) m x : In x (map fst (map_insert k v m)) -> x = k \/ In x (map fst m).
Proof.
  induction m as [|[a w] m IH]; cbn [map_insert map fst]; [intros [<-|[]]; auto|].
  destruct (lex_less k a); [intros [<-|H]; auto|]. destruct (lex_less a k); auto.
  intros [<-|H]; [right; left; auto|]. destruct (IH H); auto. right; right; auto.
Qed.
Lemma make_mpoly_short (N : Num) srt n (cs : list N) ms p : make_mpoly (N:=N) srt n cs ms = Some p -> ms <> [] ->
  (forall m, In m ms -> m <> []) -> forall x, In x (mp_nodes p) -> (length x <= max_len ms)%nat.
Proof.
  intros E Hne Hn0. unfold make_mpoly in E.
  assert (L1 : (1 <= max_len ms)%nat).
  { destruct ms as [|a ms]; [congruence|]. pose proof (max_len_ok (a :: ms) a ltac:(left; auto)).
    specialize (Hn0 a ltac:(left; auto)). destruct a; [congruence|]. cbn [length] in *. lia. }
  destruct (for_ (length ms) _ _) as [mp|] eqn:E1; cbn [bind] in E; [|discriminate].
  assert (S1 : forall x, In x (map fst mp) -> In x ms).
  { clear E. revert mp E1. generalize (length ms) at 1 as k. induction k as [|k IH]; intros mp E1.
    - injection E1 as <-. intros x [].
    - rewrite for_S in E1. destruct (for_ k _ _) as [mp0|] eqn:E0; cbn [bind] in E1; [|discriminate].
      destruct (rd ms k) as [mk|] eqn:R1; cbn [bind] in E1; [|discriminate].
      destruct (rd cs k) as [ck|] eqn:R2; cbn [bind] in E1; [|discriminate]. injection E1 as <-.
      intros x Hx. apply in_map_insert in Hx. destruct Hx as [->|Hx]; [eapply nth_error_In; exact R1|eapply IH; eauto]. }
  set (s1 := fold_left (fun s i => set_insert [i] s) (seq 0 n) []) in E.
  set (s2 := fold_left (fun s m => set_insert m s) (map fst mp) s1) in E.
  assert (H1 : short (max_len ms) s1).
  { unfold s1. generalize (seq 0 n). intros l. assert (H0 : short (max_len ms) []) by (intros x []).
    revert H0. generalize (@nil (list nat)). induction l as [|a l IH]; intros s Hs; cbn [fold_left]; auto.
    apply IH. apply short_insert; auto. }
  assert (H2 : short (max_len ms) s2).
  { unfold s2. revert H1. generalize s1. revert S1. generalize (map fst mp). induction l as [|a l IH]; intros Hl s Hs; cbn [fold_left]; auto.
    apply IH; [intros x Hx; apply Hl; right; auto|]. apply short_insert; auto. apply max_len_ok. apply Hl. left; auto. }
  destruct (complete_nodes srt (length s2) (hd_error s2) s2 0) as [[s3 naux]|] eqn:E3; cbn [bind] in E; [|discriminate].
  apply (complete_nodes_short srt (max_len ms)) in E3; auto.
  2:{ intros x Hx. apply H2. destruct s2; [discriminate|]. injection Hx as ->. left; auto. }
  destruct (find_edges srt s3 s3 s3 []) as [ed'|]; cbn [bind] in E; [|discriminate].
  match type of E with bind ?e _ = _ => destruct e as [[nc jj]|] end; cbn [bind] in E; [|discriminate]. injection E as <-. exact E3.
Qed.

(** ** evaluation term by term *)
Section Terms.
Variables (n : nat) (cs : list R) (ms : list (list nat)) (q : mpkk RNum) (host : bool).
Notation Wd := (max_len ms).
Hypothesis Hm : monos_ok n ms.
Hypothesis HL : length cs = length ms.
Hypothesis Qc : q_coeffs q = cs.
Hypothesis Qw : q_width q = Wd.
Hypothesis Qm : q_monos q = map (padrow (-1)%Z Wd) ms.

Lemma rd_row i : (i < length ms)%nat -> rd (q_monos q) i = Some (padrow (-1)%Z Wd (nth i ms [])).
Proof.
  intros Hi. rewrite Qm. rewrite (rd_some _ i (padrow (-1)%Z Wd [])) by (rewrite map_length; auto).
  rewrite map_nth. reflexivity.
Qed.
Lemma len_row i : (i < length ms)%nat -> (0 < length (nth i ms []) <= Wd)%nat.
Proof.
  intros Hi. destruct (monos_ok_nth n ms i Hm Hi) as [H0 _]. split; [destruct (nth i ms []); [congruence|cbn; lia]|].
  apply max_len_ok. apply nth_In. auto.
Qed.
Lemma rd_entry i j : (i < length ms)%nat -> (j < Wd)%nat ->
  rd (padrow (-1)%Z Wd (nth i ms [])) j = Some (if (j <? length (nth i ms []))%nat then Z.of_nat (nth j (nth i ms []) 0%nat) else (-1)%Z).
Proof.
  intros Hi Hj. destruct (len_row i Hi). rewrite (rd_some _ j 0%Z) by (rewrite length_padrow; auto). rewrite nth_padrow by auto. reflexivity.
Qed.
Lemma at_z_ok (x : list R) k : (k < length x)%nat -> at_z (N:=RNum) x (Z.of_nat k) = Some (nth k x 0).
Proof.
  intros H. unfold at_z, zidx. destruct (Z.ltb_spec (Z.of_nat k) 0); [lia|]. cbn [bind]. rewrite Nat2Z.id. apply rd_some. auto.
Qed.
Lemma at_zn (x : list R) k : length x = n -> (k < n)%nat -> at_z (N:=RNum) x (Z.of_nat k) = Some (nth k x 0).
Proof. intros <-. apply at_z_ok. Qed.
Lemma of_nat_ne k : (Z.of_nat k =? -1)%Z = false.
Proof. apply Z.eqb_neq. lia. Qed.
Lemma firstn_le {A} (l : list A) k : (length l <= k)%nat -> firstn k l = l.
Proof. apply firstn_all2. Qed.

Lemma k_monomial_ok x i : length x = n -> (i < length ms)%nat -> k_monomial (N:=RNum) q x i = Some (mono x (nth i ms [])).
Proof.
  intros Hx Hi. unfold k_monomial. rewrite rd_row by auto. cbn [bind].
  destruct (monos_ok_nth n ms i Hm Hi) as [_ Hlt]. pose proof (len_row i Hi) as HW.
  rewrite rd_entry by (auto; lia). set (m := nth i ms []) in *. cbn [bind].
  destruct (Nat.ltb_spec 0 (length m)); [|lia]. rewrite at_zn by auto. cbn [bind]. rewrite Qw.
  erewrite (for_range_trace (fun k => (mono x (firstn (S k) m), (length m <=? k)%nat)) 1 Wd); [| | reflexivity |].
  - cbn [bind]. f_equal. rewrite firstn_le by lia. reflexivity.
  - destruct m as [|a m']; [cbn in *; lia|]. cbn [firstn]. f_equal. unfold mono. cbn. ring.
  - intros k Hk. destruct (Nat.leb_spec (length m) k) as [H1|H1].
    + destruct (Nat.leb_spec (length m) (S k)); [|lia]. rewrite !firstn_le by lia. reflexivity.
    + assert (RE := rd_entry i (1 + k) Hi ltac:(lia)). fold m in RE. rewrite RE. cbn [bind Nat.add]. destruct (Nat.ltb_spec (S k) (length m)) as [H2|H2].
      * rewrite of_nat_ne. rewrite at_zn by auto. cbn [bind].
        destruct (Nat.leb_spec (length m) (S k)); [lia|]. do 2 f_equal.
        rewrite (firstn_S_nth m (S k) (nth (S k) m 0%nat)) by (apply nth_error_nth'; auto). rewrite mono_snoc. reflexivity.
      * cbn [Z.eqb Pos.eqb]. destruct (Nat.leb_spec (length m) (S k)); [|lia]. rewrite !firstn_le by lia. reflexivity.
Qed.

Lemma k_deriv_ok x i j : length x = n -> (i < length ms)%nat -> (j < length (nth i ms []))%nat ->
  k_deriv (N:=RNum) q x i j = Some (mono x (delj j (nth i ms []))).
Proof.
  intros Hx Hi Hj. unfold k_deriv. rewrite rd_row by auto. cbn [bind].
  destruct (monos_ok_nth n ms i Hm Hi) as [_ Hlt]. pose proof (len_row i Hi) as HW. rewrite Qw.
  erewrite (for_trace (fun k => (mono x (firstn k (firstn j (nth i ms [])) ++ skipn (S j) (firstn k (nth i ms []))), (length (nth i ms []) <? k)%nat)) Wd);
    [| | reflexivity |].
  - cbn [bind]. f_equal. rewrite (firstn_le (nth i ms []) Wd) by lia. rewrite (firstn_le (firstn j (nth i ms [])) Wd) by (rewrite firstn_length; lia). reflexivity.
  - unfold mono. cbn [firstn]. reflexivity.
  - intros k Hk. set (m := nth i ms []) in *. destruct (Nat.ltb_spec (length m) k) as [H1|H1].
    + destruct (Nat.ltb_spec (length m) (S k)); [|lia]. rewrite (firstn_le m k), (firstn_le m (S k)) by lia. rewrite (firstn_le (firstn j m) k), (firstn_le (firstn j m) (S k)) by (rewrite firstn_length; lia). reflexivity.
    + assert (RE := rd_entry i k Hi Hk). fold m in RE. rewrite RE. cbn [bind]. destruct (Nat.ltb_spec k (length m)) as [H2|H2].
      * rewrite of_nat_ne. destruct (Nat.ltb_spec (length m) (S k)); [lia|].
        rewrite (firstn_S_nth m k (nth k m 0%nat)) by (apply nth_error_nth'; auto).
        rewrite (Nat.eqb_sym j k). destruct (Nat.eqb_spec k j) as [->|Hne].
        -- do 3 f_equal. rewrite !firstn_firstn. replace (Nat.min j j) with j by lia. replace (Nat.min (S j) j) with j by lia.
           f_equal. rewrite !skipn_all2; auto; rewrite ?app_length, firstn_length; cbn [length]; lia.
        -- rewrite at_zn by auto. cbn [bind]. do 2 f_equal.
           change (@nmul RNum) with Rmult. rewrite <- mono_snoc. f_equal.
           rewrite !firstn_firstn. destruct (Nat.lt_ge_cases k j) as [Hkj|Hkj].
           ++ replace (Nat.min k j) with k by lia. replace (Nat.min (S k) j) with (S k) by lia.
              rewrite (firstn_S_nth m k (nth k m 0%nat)) by (apply nth_error_nth'; auto).
              rewrite !skipn_all2 by (rewrite ?app_length, firstn_length; cbn [length]; lia). rewrite !app_nil_r. reflexivity.
           ++ replace (Nat.min k j) with j by lia. replace (Nat.min (S k) j) with j by lia. rewrite <- app_assoc. f_equal.
              rewrite skipn_app. rewrite firstn_length. replace (S j - Nat.min k (length m))%nat with 0%nat by lia. reflexivity.
      * cbn [Z.eqb Pos.eqb]. destruct (Nat.ltb_spec (length m) (S k)); [|lia]. rewrite (firstn_le m k), (firstn_le m (S k)) by lia.
        rewrite (firstn_le (firstn j m) k), (firstn_le (firstn j m) (S k)) by (rewrite firstn_length; lia). reflexivity.
Qed.

Lemma simple_wp x m : length x = n -> dims m qF = [] ->
  wp top (k_simple (N:=RNum) q x) m (fun _ m' => dims m' = dims m /\ va m' (qF, []) = poly cs ms x /\
    (forall c, fst c <> qF -> fst c <> bScr -> va m' c = va m c)).
Proof.
  intros Hx D3. unfold k_simple. rewrite Qc. change (carrier RNum) with R in *. rewrite HL. apply wp_bind.
  apply (wp_red1r top [] _ _ (fun i => nth i cs 0 * mono x (nth i ms []))); [reflexivity| |].
  - intros j Hj.
    eapply wp_lift; [apply k_monomial_ok; auto|]. eapply wp_lift; [apply (rd_some cs j 0); rewrite HL; exact Hj|].
    apply wp_ret. reflexivity.
  - intros m' D O. apply wp_put_; [reflexivity|change (inb (dims m' qF) [] = true); rewrite D, D3; reflexivity|].
    split; [exact D|]. split.
    + rewrite va_store_eq. rewrite (poly_rsum cs ms x HL). reflexivity.
    + intros c Hc Hc'. rewrite va_store_ne by (intros <-; apply Hc; reflexivity). apply O.
      destruct c as [b idx]. cbn [fst] in *. destruct b; try reflexivity. contradiction.
Qed.

(** the owner of an entry of the gradient *)
Fixpoint term_of (v : nat) (l : list (list nat)) : option nat :=
  match l with
  | [] => None
  | m :: l => if in_dec Nat.eq_dec v m then Some 0%nat else option_map S (term_of v l)
  end.
Lemma term_of_some v l : forall i, term_of v l = Some i -> In v (nth i l []).
Proof.
  induction l as [|m l IH]; intros i; cbn [term_of]; [discriminate|]. destruct (in_dec Nat.eq_dec v m).
  - intros E. injection E as <-. auto.
  - destruct (term_of v l) as [k|]; cbn; [|discriminate]. intros E. injection E as <-. cbn. auto.
Qed.
Lemma term_of_none v l : term_of v l = None -> forall i, ~ In v (nth i l []).
Proof.
  induction l as [|m l IH]; intros E i Hi; cbn [term_of] in *; [destruct i; contradiction|].
  destruct (in_dec Nat.eq_dec v m); [discriminate|]. destruct (term_of v l) as [k|]; [discriminate|].
  destruct i as [|i]; [contradiction|]. eapply IH; eauto.
Qed.
Lemma term_of_in v i : separate ms -> In v (nth i ms []) -> term_of v ms = Some i.
Proof.
  intros S H. destruct (term_of v ms) as [k|] eqn:E.
  - apply term_of_some in E. f_equal. eapply S; eauto.
  - exfalso. eapply term_of_none; eauto.
Qed.
Definition own_g (c : cell) : option nat := if buf_dec qG (fst c) then match snd c with [v] => term_of v ms | _ => None end else None.
Definition gpart (x : list R) (i v k : nat) : R :=
  rsum k (fun j => if (nth j (nth i ms []) 0 =? v)%nat then nth i cs 0 * mono x (delj j (nth i ms [])) else 0).

Lemma gradient_simple_wp x m : length x = n -> separate ms -> dims m qG = [n] -> (forall v, (v < n)%nat -> va m (qG, [v]) = 0) ->
  wp top (k_gradient_simple (N:=RNum) q x) m (fun _ m' => dims m' = dims m /\
    (forall v, (v < n)%nat -> va m' (qG, [v]) = rsum (length ms) (fun i => gpart x i v (length (nth i ms [])))) /\
    (forall c, fst c <> qG -> va m' c = va m c)).
Proof.
  intros Hx HS DG HZ. unfold k_gradient_simple. rewrite Qc, Qw. change (carrier RNum) with R in *. rewrite HL.
  apply (wp_pfor top own_g none_ (fun c r => match snd c with [v] => (v < n)%nat -> r = rsum (length ms) (fun i => gpart x i v (length (nth i ms []))) | _ => True end) nadd_).
  - intros i Hi. destruct (monos_ok_nth n ms i Hm Hi) as [_ Hlt]. pose proof (len_row i Hi) as HW.
    apply wp_bind.
    apply (wp_for _ _ Wd _ (fun k stop m' => stop = (length (nth i ms []) <? k)%nat /\ dims m' = dims m /\
      forall v, In v (nth i ms []) -> va m' (qG, [v]) = gpart x i v (Nat.min k (length (nth i ms []))))).
    + split; [reflexivity|]. split; auto. intros v Hv. rewrite HZ; [reflexivity|].
      apply (In_nth _ _ 0%nat) in Hv. destruct Hv as (j & Hj & <-). auto.
    + intros k stop m' Hk (-> & D & V). destruct (Nat.ltb_spec (length (nth i ms [])) k) as [H1|H1].
      * apply wp_ret. split; [destruct (Nat.ltb_spec (length (nth i ms [])) (S k)); [auto|lia]|]. split; auto.
        intros v Hv. rewrite V by auto. f_equal. lia.
      * eapply wp_lift; [apply rd_row; auto|]. eapply wp_lift; [apply rd_entry; auto|].
        destruct (Nat.ltb_spec k (length (nth i ms []))) as [H2|H2].
        -- rewrite of_nat_ne. eapply wp_lift; [apply k_deriv_ok; auto|]. eapply wp_lift; [apply (rd_some cs i 0); lia|].
           eapply wp_lift; [unfold zidx; destruct (Z.ltb_spec (Z.of_nat (nth k (nth i ms []) 0%nat)) 0); [lia|]; rewrite Nat2Z.id; reflexivity|].
           assert (Iv : In (nth k (nth i ms []) 0%nat) (nth i ms [])) by (apply nth_In; auto).
           apply wp_plus; [apply kd_own_ok; [reflexivity|]; cbn [own_g fst snd]; apply (term_of_in _ i); auto
                          |apply (al1 m' qG n); [congruence|auto]|].
           apply wp_ret. split; [destruct (Nat.ltb_spec (length (nth i ms [])) (S k)); [lia|auto]|]. split; [exact D|].
           intros v Hv. replace (Nat.min (S k) (length (nth i ms []))) with (S k) by lia. unfold gpart. rewrite rsum_S.
           replace (Nat.min k (length (nth i ms []))) with k in V by lia.
           destruct (Nat.eqb_spec (nth k (nth i ms []) 0%nat) v) as [<-|Hne].
           ++ rewrite va_store_eq. rewrite V by auto. reflexivity.
           ++ rewrite va_store_ne by congruence. rewrite V by auto. unfold gpart. ring.
        -- apply wp_ret. split; [destruct (Nat.ltb_spec (length (nth i ms [])) (S k)); [auto|lia]|]. split; auto.
           intros v Hv. rewrite V by auto. f_equal. lia.
    + intros stop m' (_ & D & V). apply wp_ret. apply kpost_own. intros c _ O. destruct c as [b idx]. unfold own_g in O. cbn [fst snd] in *.
      destruct (buf_dec qG b) as [<-|]; [|discriminate]. destruct idx as [|v [|? ?]]; try discriminate. intros Hv.
      apply term_of_some in O. rewrite V by auto. replace (Nat.min Wd (length (nth i ms []))) with (length (nth i ms [])) by lia.
      rewrite (rsum_single (length ms) i); auto. intros i' Hi' Hne. unfold gpart. apply rsum_0. intros j Hj.
      destruct (Nat.eqb_spec (nth j (nth i' ms []) 0%nat) v) as [E|]; auto. exfalso. apply Hne. apply (HS i' i v); auto. rewrite <- E. apply nth_In. auto.
  - intros m' (D & P1 & P2 & _ & P4). split; auto. split.
    + intros v Hv. destruct (term_of v ms) as [i|] eqn:E.
      * assert (Hi : (i < length ms)%nat).
        { apply term_of_some in E. destruct (Nat.lt_ge_cases i (length ms)); auto. rewrite nth_overflow in E by auto. destruct E. }
        exact (P1 (qG, [v]) i eq_refl E Hi Hv).
      * rewrite P4; [rewrite HZ by auto|unfold idle, top; split; auto].
        symmetry. apply rsum_0. intros i Hi. unfold gpart. apply rsum_0. intros j Hj.
        destruct (Nat.eqb_spec (nth j (nth i ms []) 0%nat) v) as [E'|]; auto. exfalso.
        apply (term_of_none v ms E i). rewrite <- E'. apply nth_In. auto.
    + intros c Hc. apply P4. unfold idle, top, own_g. split; auto. destruct (buf_dec qG (fst c)); congruence.
Qed.

Lemma simple_adds_nth x v : (v < n)%nat ->
  nth v (adds (N:=RNum) (repeat 0 n) (simple_adds cs ms x)) 0 = rsum (length ms) (fun i => gpart x i v (length (nth i ms []))).
Proof.
  intros Hv. set (G := adds _ _).
  assert (E := rsum_adds n (simple_adds cs ms x) (repeat 0 n) (fun u => if (u =? v)%nat then 1 else 0)). fold G in E.
  rewrite (simple_adds_sum cs ms x) in E.
  rewrite (rsum_single n v) in E; auto.
  2:{ intros u Hu Hne. destruct (Nat.eqb_spec u v); [congruence|]. ring. }
  rewrite Nat.eqb_refl in E.
  transitivity (nth v G 0 * 1); [symmetry; apply Rmult_1_r|]. rewrite E.
  - rewrite rsum_0 by (intros u Hu; rewrite nth_repeat; ring). rewrite Rplus_0_l. apply rsum_ext. intros i Hi. unfold gpart. apply rsum_ext. intros j Hj.
    destruct (nth j (nth i ms []) 0 =? v)%nat; ring.
  - intros a Ha. rewrite repeat_length. unfold simple_adds in Ha. apply in_flat_map in Ha. destruct Ha as (i & Hi & Ha).
    apply in_flat_map in Ha. destruct Ha as (j & Hj & Ha). destruct Ha as [<-|[]]. cbn [fst]. apply in_seq in Hi. apply in_seq in Hj.
    apply (monos_ok_nth n ms i Hm); lia.
  - apply repeat_length.
Qed.
End Terms.
