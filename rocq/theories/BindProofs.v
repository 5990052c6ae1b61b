(** Proofs about the Python bindings. *)
From Coq Require Import List Arith ZArith Bool Lia.
From Verif Require Import Base BaseLemmas MaceModel SplineModel BindModel BindSpec.
Import ListNotations.

Lemma flat_map_length_const {A B} (f : A -> list B) k l : (forall x, In x l -> length (f x) = k) -> length (flat_map f l) = length l * k.
Proof. induction l as [|a l IH]; intros H; [reflexivity|]. cbn [flat_map length]. rewrite app_length, IH, (H a); [reflexivity|left; auto|intros x Hx; apply H; right; auto]. Qed.
Lemma nth_error_ext {A} (l l' : list A) : (forall k, nth_error l k = nth_error l' k) -> l = l'.
Proof.
  revert l'; induction l as [|a l IH]; intros [|b l'] H; auto; try (specialize (H 0); discriminate).
  pose proof (H 0) as H0. cbn in H0. injection H0 as ->. f_equal. apply IH. intros k. exact (H (S k)).
Qed.
Lemma length_pos sh : forall st o, length st = length sh -> length (nd_pos sh st o) = prod sh.
Proof.
  induction sh as [|n sh IH]; intros [|s st] o H; try discriminate; [reflexivity|]. cbn [nd_pos prod].
  rewrite (flat_map_length_const _ (prod sh)); [rewrite seq_length; auto|]. intros; apply IH. cbn in H; lia.
Qed.
Lemma seq_mul p : forall n a, seq a (n * p) = flat_map (fun i => seq (a + i * p) p) (seq 0 n).
Proof.
  intros n; induction n as [|n IH]; intros a; [reflexivity|].
  rewrite seq_S, flat_map_app, <- IH. cbn [flat_map Nat.add]. rewrite app_nil_r, <- seq_app. f_equal. lia.
Qed.
Lemma map_flat_map {A B C} (g : B -> C) (f : A -> list B) l : map g (flat_map f l) = flat_map (fun x => map g (f x)) l.
Proof. induction l; cbn; auto. rewrite map_app, IHl; auto. Qed.

Definition line (o : Z) (n : nat) : list Z := map (fun k => (o + Z.of_nat k)%Z) (seq 0 n).

Lemma map_shift {A} (f : nat -> A) a n : map f (seq a n) = map (fun k => f (a + k)) (seq 0 n).
Proof.
  revert a f; induction n as [|n IH]; intros a f; [reflexivity|]. cbn [seq map]. rewrite (IH (S a) f), (IH 1 (fun k => f (a + k))), Nat.add_0_r.
  f_equal. apply map_ext. intros; f_equal; lia.
Qed.
Lemma row_major_pos sh : forall st o, prod sh <> 0 -> row_major sh st -> nd_pos sh st o = line o (prod sh).
Proof.
  induction sh as [|n sh IH]; intros [|s st] o Hp H; cbn in H; try tauto.
  - cbn. unfold line. cbn. f_equal. lia.
  - destruct H as [Hs H]. cbn [nd_pos prod] in *. assert (prod sh <> 0) by (intros E; rewrite E in Hp; lia).
    unfold line. rewrite seq_mul, map_flat_map. apply flat_map_ext_in. intros i Hi. apply in_seq in Hi.
    rewrite IH by auto. unfold line. rewrite (map_shift _ (0 + i * prod sh)). apply map_ext. intros k.
    destruct Hs as [->| ->]; [replace i with 0 by lia|]; lia.
Qed.

Lemma firstn_line o n m : n <= m -> firstn n (line o m) = line o n.
Proof.
  intros H. unfold line. rewrite firstn_map. f_equal. replace m with (n + (m - n)) by lia. rewrite seq_app, firstn_app, seq_length, Nat.sub_diag, firstn_all2 by (rewrite seq_length; lia).
  apply app_nil_r.
Qed.
Lemma nth_line o n k d : k < n -> nth k (line o n) d = (o + Z.of_nat k)%Z.
Proof. intros H. unfold line. apply (nth_tab n (fun k => (o + Z.of_nat k)%Z)); auto. Qed.
Lemma pos_head sh : forall st o d, length st = length sh -> prod sh <> 0 -> nth 0 (nd_pos sh st o) d = o.
Proof.
  induction sh as [|n sh IH]; intros [|s st] o d H Hp; try discriminate; [reflexivity|].
  cbn [nd_pos prod] in *. destruct n as [|n]; [lia|]. cbn [seq flat_map]. assert (prod sh <> 0) by (intros E; rewrite E in Hp; lia).
  assert (L : length st = length sh) by (cbn in H; lia).
  rewrite app_nth1 by (rewrite length_pos; auto; lia). rewrite IH; auto. cbn. lia.
Qed.
Lemma pos_row_major sh : forall st o, length st = length sh -> prod sh <> 0 -> nd_pos sh st o = line o (prod sh) -> row_major sh st.
Proof.
  induction sh as [|n sh IH]; intros [|s st] o H Hp E; try discriminate; cbn; auto.
  assert (L : length st = length sh) by (cbn in H; lia).
  cbn [nd_pos prod] in *. assert (Hq : prod sh <> 0) by (intros E'; rewrite E' in Hp; lia). destruct n as [|n]; [lia|].
  cbn [seq flat_map] in E. rewrite Z.mul_0_l, Z.add_0_r in E. split.
  - destruct n as [|n]; [left; auto|right]. cbn [seq flat_map] in E.
    assert (X : nth (prod sh) (nd_pos sh st o ++ nd_pos sh st (o + Z.of_nat 1 * s) ++ flat_map (fun i => nd_pos sh st (o + Z.of_nat i * s)%Z) (seq 2 n)) 0%Z = (o + Z.of_nat (prod sh))%Z).
    { rewrite E. apply nth_line. nia. }
    rewrite app_nth2 in X by (rewrite length_pos; auto). rewrite length_pos, Nat.sub_diag in X by auto.
    rewrite app_nth1 in X by (rewrite length_pos; auto; lia). rewrite pos_head in X by auto. lia.
  - apply (IH st o); auto. apply (f_equal (firstn (prod sh))) in E. rewrite firstn_line in E by nia.
    rewrite firstn_app, length_pos, Nat.sub_diag in E by auto. cbn [firstn] in E. rewrite app_nil_r, firstn_all2 in E by (rewrite length_pos; auto). exact E.
Qed.

Lemma nd_list_length {T} (a : ndarray T) l : nd_list a l -> length l = prod (nd_shape a).
Proof. intros [L E]. apply (f_equal (@length _)) in E. rewrite !map_length, length_pos in E; auto. Qed.

Lemma nth_error_firstn_skipn {T} (l : list T) o n k : k < n -> nth_error (firstn n (skipn o l)) k = nth_error l (o + k).
Proof.
  intros H. revert o l. assert (F : forall (l : list T) k n, k < n -> nth_error (firstn n l) k = nth_error l k).
  { clear. intros l; induction l; intros [|k] [|n] H; cbn; auto; try lia. apply IHl; lia. }
  intros o l. rewrite F by auto. revert l; induction o; intros l; cbn; auto. destruct l; auto. destruct k; auto.
Qed.
Lemma nd_list_nth {T} (a : ndarray T) l k : nd_list a l -> k < prod (nd_shape a) ->
  exists p, nth k (nd_pos (nd_shape a) (nd_strides a) (Z.of_nat (nd_off a))) 0%Z = Z.of_nat p /\ nth_error (nd_base a) p = nth_error l k /\ nth_error l k <> None.
Proof.
  intros H Hk. generalize (nd_list_length _ _ H). destruct H as [L E]. intros Hl.
  apply (f_equal (fun x => nth_error x k)) in E. rewrite !nth_error_map in E.
  rewrite (nth_error_nth' _ 0%Z) in E by (rewrite length_pos; auto). cbn in E.
  destruct (nth_error l k) as [v|] eqn:Ev; [|apply nth_error_None in Ev; lia]. cbn in E. injection E as E.
  destruct (_ <? 0)%Z eqn:Ez in E; [discriminate|]. apply Z.ltb_ge in Ez. eexists. split; [symmetry; apply Z2Nat.id; exact Ez|]. split; [exact E|discriminate].
Qed.

Lemma lemma_C83_span {T} (a : ndarray T) l : nd_list a l -> c_contiguous a -> py_span a = Some l.
Proof.
  intros H Hc. pose proof (nd_list_length _ _ H) as Hl. unfold py_span. destruct (Nat.eq_dec (prod (nd_shape a)) 0) as [E0|E0].
  - rewrite E0 in *. cbn. destruct l; [auto|discriminate].
  - destruct Hc as [?|Hc]; [contradiction|]. pose proof (row_major_pos _ _ (Z.of_nat (nd_off a)) E0 Hc) as P.
    assert (HK : forall k, k < prod (nd_shape a) -> nth_error (nd_base a) (nd_off a + k) = nth_error l k /\ nth_error l k <> None).
    { intros k Hk. destruct (nd_list_nth a l k H Hk) as (p & E1 & E2 & E3). rewrite P, nth_line in E1 by auto.
      replace (nd_off a + k) with p by lia. auto. }
    assert (B : nd_off a + prod (nd_shape a) <= length (nd_base a)).
    { destruct (HK (prod (nd_shape a) - 1)) as [E1 E2]; [lia|]. rewrite <- E1 in E2. apply nth_error_Some in E2. lia. }
    replace (_ || _) with true by (symmetry; apply orb_true_intro; right; apply Nat.leb_le; auto). f_equal.
    apply nth_error_ext. intros k. destruct (lt_dec k (prod (nd_shape a))) as [Hk|Hk].
    + rewrite nth_error_firstn_skipn by auto. apply HK; auto.
    + transitivity (@None T); [|symmetry]; apply nth_error_None; [rewrite firstn_length|]; lia.
Qed.

Lemma lemma_C83_strided {T} (a : ndarray T) l : nd_list a l -> NoDup (nd_base a) -> ~ c_contiguous a -> py_span a <> Some l.
Proof.
  intros H ND Hc E. apply Hc. unfold c_contiguous. destruct (Nat.eq_dec (prod (nd_shape a)) 0) as [E0|E0]; [left; auto|right].
  pose proof (nd_list_length _ _ H) as Hl. unfold py_span in E. destruct (_ || _) in E; [|discriminate]. injection E as E.
  destruct H as [L HE]. pose proof (conj L HE) as H. apply (pos_row_major _ _ (Z.of_nat (nd_off a))); auto.
  apply list_eq_nth with (d := 0%Z); [rewrite length_pos by auto; unfold line; rewrite map_length, seq_length; auto|].
  intros k Hk. rewrite length_pos in Hk by auto. destruct (nd_list_nth a l k H Hk) as (p & E1 & E2 & E3).
  rewrite E1, nth_line by auto. rewrite <- E, nth_error_firstn_skipn in E2 by auto.
  assert (p = nd_off a + k); [|lia]. apply (proj1 (NoDup_nth_error (nd_base a)) ND); auto.
  apply nth_error_Some. rewrite E2. rewrite <- E, nth_error_firstn_skipn in E3 by auto. auto.
Qed.

(** ** Outputs *)
Lemma for_keep {S} (P : S -> Prop) (body : nat -> S -> option S) : (forall i s s', P s -> body i s = Some s' -> P s') ->
  forall n s s', P s -> for_ n body s = Some s' -> P s'.
Proof.
  intros H n. unfold for_. generalize 0 as a. induction n as [|n IH]; intros a s s' Hs E; cbn in E; [injection E as <-; auto|].
  destruct (body a s) as [s1|] eqn:E1; cbn in E; [|discriminate]. eapply IH; [|exact E]. eapply H; eauto.
Qed.

Lemma css_evaluate_length {N : Num} (S : @spline_set N) r l l' : css_evaluate S r l 0 = Some l' -> length l' = length l.
Proof.
  unfold css_evaluate. intros H.
  assert (W : forall c_i (f : N -> nat -> list N -> option (list N)), (forall c j v v', f c j v = Some v' -> length v' = length v) ->
    forall l0 l1, length l0 = length l -> for_ (css_num S) (fun j v => c <- rdZ (css_c S) (c_i + Z.of_nat j) ;; f c j v) l0 = Some l1 -> length l1 = length l).
  { intros c_i f Hf l0 l1 H0. apply (for_keep (fun v => length v = length l)); auto. intros i s s' Hs E.
    destruct (rdZ _ _); cbn in E; [|discriminate]. rewrite (Hf _ _ _ _ E). auto. }
  assert (A : forall (x : N) i v v', addto v i x = Some v' -> length v' = length v).
  { intros x i v v'. unfold addto. destruct (rd v i); cbn; [|discriminate]. apply wr_length. }
  destruct (for_ _ _ l) as [l1|] eqn:E1; [|discriminate]. cbn [bind] in H.
  destruct (for_ _ _ l1) as [l2|] eqn:E2; [|discriminate]. cbn [bind] in H.
  destruct (for_ _ _ l2) as [l3|] eqn:E3; [|discriminate]. cbn [bind] in H.
  apply (W _ (fun c j v => wr v (0 + j) c)) in E1; [|intros c j v v' Q; eapply wr_length; eauto|auto].
  eapply (W _ (fun c j v => addto v (0 + j) _)) in E2; [|intros; eapply A; eauto|auto].
  eapply (W _ (fun c j v => addto v (0 + j) _)) in E3; [|intros; eapply A; eauto|auto].
  eapply (W _ (fun c j v => addto v (0 + j) _)) in H; [|intros; eapply A; eauto|auto]. auto.
Qed.

Lemma nth_error_skipn' {T} (l : list T) p j : nth_error (skipn p l) j = nth_error l (p + j).
Proof. revert l; induction p as [|p IH]; intros [|x l]; cbn; auto. destruct j; auto. Qed.
Lemma nth_error_store {T} (base l : list T) o k : o + length l <= length base ->
  nth_error (firstn o base ++ l ++ skipn (o + length l) base) k =
  if (k <? o)%nat then nth_error base k else if (k <? o + length l)%nat then nth_error l (k - o) else nth_error base k.
Proof.
  intros H. assert (F : length (firstn o base) = o) by (rewrite firstn_length; lia).
  destruct (k <? o)%nat eqn:E1; [apply Nat.ltb_lt in E1|apply Nat.ltb_ge in E1].
  - rewrite nth_error_app1 by lia. pose proof (nth_error_firstn_skipn base 0 o k E1) as Q. cbn in Q. auto.
  - rewrite nth_error_app2, F by lia. destruct (k <? _)%nat eqn:E2; [apply Nat.ltb_lt in E2|apply Nat.ltb_ge in E2].
    + apply nth_error_app1; lia.
    + rewrite nth_error_app2, nth_error_skipn' by lia. f_equal. lia.
Qed.

Lemma span_bound {T} (a : ndarray T) l : py_span a = Some l -> l = [] \/ (nd_off a + prod (nd_shape a) <= length (nd_base a) /\ length l = prod (nd_shape a)).
Proof.
  unfold py_span. intros H. destruct (_ || _) eqn:E; [|discriminate]. injection H as <-. apply orb_prop in E. destruct E as [E|E].
  - apply Nat.eqb_eq in E. rewrite E. auto.
  - apply Nat.leb_le in E. right. split; auto. rewrite firstn_length, skipn_length. lia.
Qed.

Lemma lemma_C83_output {N : Num} (S : @spline_set N) r (a : ndarray N) l l' :
  nd_list a l -> c_contiguous a -> css_evaluate S r l 0 = Some l' ->
  exists a', py_css_evaluate S r a = Some a' /\ nd_list a' l' /\ nd_shape a' = nd_shape a /\ nd_strides a' = nd_strides a /\ nd_off a' = nd_off a /\
    length (nd_base a') = length (nd_base a) /\
    forall k, (k < nd_off a \/ nd_off a + prod (nd_shape a) <= k)%nat -> nth_error (nd_base a') k = nth_error (nd_base a) k.
Proof.
  intros H Hc E. pose proof (nd_list_length _ _ H) as Hl. pose proof (lemma_C83_span a l H Hc) as Es. pose proof (css_evaluate_length _ _ _ _ E) as Hl'.
  pose proof (eq_trans Hl' Hl) as Hl2. unfold py_css_evaluate. rewrite Es. cbn [bind]. rewrite E. cbn [bind]. exists (py_store a l'). split; auto.
  destruct (Nat.eq_dec (prod (nd_shape a)) 0) as [E0|E0].
  { assert (l' = []) as -> by (apply length_zero_iff_nil; lia). assert (l = []) as -> by (apply length_zero_iff_nil; lia).
    assert (B : nd_base (py_store a []) = nd_base a) by (cbn; rewrite Nat.add_0_r, firstn_skipn; auto).
    split. { destruct H as [H1 H2]. split; auto. rewrite B. exact H2. }
    rewrite B. repeat split; auto. }
  destruct (span_bound a l Es) as [->|[Hb _]]; [cbn in Hl; lia|].
  split; [|split; [|split; [|split; [|split]]]]; auto.
  - destruct H as [H1 H2]. split; auto. destruct Hc as [?|Hc]; [contradiction|].
    cbn [py_store nd_shape nd_strides nd_off nd_base]. rewrite row_major_pos in * by auto. unfold line. rewrite map_map.
    apply nth_error_ext. intros k. rewrite !nth_error_map. destruct (lt_dec k (prod (nd_shape a))) as [Hk|Hk].
    + rewrite (nth_error_nth' _ 0) by (rewrite seq_length; auto). rewrite seq_nth by auto. cbn [option_map Nat.add].
      destruct (_ <? 0)%Z eqn:Ez; [apply Z.ltb_lt in Ez; lia|]. rewrite nth_error_store by lia.
      replace (Z.to_nat (Z.of_nat (nd_off a) + Z.of_nat k)) with (nd_off a + k) by lia.
      rewrite (proj2 (Nat.ltb_ge _ _)) by lia. rewrite (proj2 (Nat.ltb_lt _ _)) by (rewrite Hl2; lia).
      replace (nd_off a + k - nd_off a) with k by lia.
      destruct (nth_error l' k) eqn:E3; auto. apply nth_error_None in E3. lia.
    + rewrite !(proj2 (nth_error_None _ _)); auto; [lia|rewrite seq_length; lia].
  - cbn. rewrite !app_length, firstn_length, skipn_length. lia.
  - intros k Hk. cbn [py_store nd_base]. rewrite nth_error_store by lia.
    destruct (k <? _)%nat eqn:E1; auto. destruct (k <? _)%nat eqn:E2 at 1; auto. apply Nat.ltb_ge in E1. apply Nat.ltb_lt in E2. lia.
Qed.

(** a column of a matrix stored by rows: the results go to the first row *)
Lemma lemma_C83_output_strided {N : Num} (S : @spline_set N) r (a a' : ndarray N) n s :
  nd_shape a = [n] -> nd_strides a = [Z.of_nat s] -> (n <= s)%nat -> (1 <= n)%nat -> py_css_evaluate S r a = Some a' ->
  exists l l', py_span a = Some l /\ css_evaluate S r l 0 = Some l' /\
    forall k, (k < n)%nat ->
      nth_error (nd_base a') (nd_off a + k) = nth_error l' k /\
      (0 < k -> nth_error (nd_base a') (nd_off a + k * s) = nth_error (nd_base a) (nd_off a + k * s))%nat.
Proof.
  intros Hsh Hst Hns Hn H. unfold py_css_evaluate in H. destruct (py_span a) as [l|] eqn:Es; [|discriminate]. cbn [bind] in H.
  destruct (css_evaluate S r l 0) as [l'|] eqn:E; [|discriminate]. cbn [bind] in H. injection H as <-.
  exists l, l'. split; auto. split; auto. pose proof (css_evaluate_length _ _ _ _ E) as Hl'.
  destruct (span_bound a l Es) as [->|[Hb Hl]].
  { unfold py_span in Es. destruct (_ || _) eqn:Eb in Es; [|discriminate]. injection Es as Es.
    apply (f_equal (@length _)) in Es. rewrite firstn_length, skipn_length, Hsh in Es. rewrite Hsh in Eb. cbn in Es, Eb. rewrite Nat.mul_1_r in *.
    apply orb_prop in Eb. destruct Eb as [Eb|Eb]; [apply Nat.eqb_eq in Eb|apply Nat.leb_le in Eb]; lia. }
  rewrite Hsh in *. cbn [prod] in *. rewrite Nat.mul_1_r in *.
  intros k Hk. cbn [py_store nd_base]. rewrite !nth_error_store by lia. split.
  - rewrite (proj2 (Nat.ltb_ge _ _)) by lia. rewrite (proj2 (Nat.ltb_lt _ _)) by lia. f_equal; lia.
  - intros Hk0. assert (n <= k * s) by nia. rewrite (proj2 (Nat.ltb_ge _ (nd_off a))) by lia. rewrite (proj2 (Nat.ltb_ge _ _)) by lia. auto.
Qed.

(** ** Views *)
Lemma tab_list {T} (d : T) n l f : length l = n -> (forall i, i < n -> nth i l d = f i) -> l = tab n f.
Proof. intros H1 H2. apply list_eq_nth with (d := d); rewrite ?length_tab; auto. intros i Hi. rewrite nth_tab by lia. apply H2; lia. Qed.

(** the first [p] elements are those of [f] *)
Definition filled {T} (d : T) (f : nat -> T) L p (v : list T) : Prop := length v = L /\ forall i, i < p -> nth i v d = f i.
Lemma filled_wr {T} (d : T) f L p (v : list T) x : filled d f L p v -> p < L -> x = f p -> exists v', wr v p x = Some v' /\ filled d f L (S p) v'.
Proof.
  intros [H1 H2] Hp ->. rewrite wr_some by lia. eexists. split; [reflexivity|]. split; [rewrite length_upd; auto|].
  intros i Hi. rewrite nth_upd by lia. destruct (p =? i)%nat eqn:E; [apply Nat.eqb_eq in E; subst; auto|]. apply Nat.eqb_neq in E. apply H2. lia.
Qed.
Lemma filled_for {T} (d : T) f L p w n (body : nat -> list T -> option (list T)) v : filled d f L p v ->
  (forall k v, k < n -> filled d f L (p + k * w) v -> exists v', body k v = Some v' /\ filled d f L (p + S k * w) v') ->
  exists v', for_ n body v = Some v' /\ filled d f L (p + n * w) v'.
Proof.
  intros H0 H. destruct (for_inv (fun k v => filled d f L (p + k * w) v) n body v) as (v' & E & Hv); [rewrite Nat.mul_0_l, Nat.add_0_r; auto|auto|eauto].
Qed.
Lemma filled_all {T} (d : T) f L v : filled d f L L v -> v = tab L f.
Proof. intros [H1 H2]. apply (tab_list d); auto. Qed.

Definition vdim (e : list nat) (k : nat) : list nat :=
  match e with
  | [_] => [k]
  | [_; e1] => [k / e1; k mod e1]
  | [_; e1; e2] => [k / e2 / e1; (k / e2) mod e1; k mod e2]
  | _ => []
  end.
Lemma view2vector_ok {T} (d : T) (v : kview) : (1 <= length (kv_ext v) <= 3)%nat ->
  view2vector d v = Some (tab (prod (kv_ext v)) (fun k => kv_at v (vdim (kv_ext v) k))).
Proof.
  intros Hr. unfold view2vector. destruct v as [e at_]; cbn [kv_ext kv_at] in *.
  set (f := fun k => at_ (vdim e k)). set (L := prod e).
  assert (F0 : filled d f L 0 (repeat d L)) by (split; [apply repeat_length|intros; lia]).
  assert (X : forall o, (exists v', o = Some v' /\ filled d f L L v') -> o = Some (tab L f)) by (intros o (v' & -> & H); f_equal; eapply filled_all; eauto).
  destruct e as [|e0 [|e1 [|e2 [|e3 e]]]]; cbn [length] in Hr; try lia; apply X; clear X; cbn [prod] in L.
  - destruct (filled_for d f L 0 1 e0 (fun i v => wr v i (at_ [i])) _ F0) as (v' & E & H).
    + intros k v Hk Hv. replace (0 + S k * 1) with (S (0 + k * 1)) by lia. replace (wr v k _) with (wr v (0 + k * 1) (at_ [k])) by (f_equal; lia).
      apply filled_wr; auto; unfold L, f; cbn; [lia|]. f_equal. f_equal. lia.
    + exists v'. split; [exact E|]. assert (EL : 0 + e0 * 1 = L) by (unfold L; lia). rewrite EL in H. exact H.
  - destruct (filled_for d f L 0 e1 e0 (fun i v => for_ e1 (fun j v => wr v (i * e1 + j) (at_ [i; j])) v) _ F0) as (v' & E & H).
    + intros i v Hi Hv. destruct (filled_for d f L (0 + i * e1) 1 e1 (fun j v => wr v (i * e1 + j) (at_ [i; j])) v Hv) as (v' & E & H).
      * intros j w Hj Hw. replace (0 + i * e1 + S j * 1) with (S (0 + i * e1 + j * 1)) by lia.
        replace (wr w _ _) with (wr w (0 + i * e1 + j * 1) (at_ [i; j])) by (f_equal; lia).
        apply filled_wr; auto; unfold L, f; [nia|]. cbn [vdim]. f_equal.
        replace (0 + i * e1 + j * 1) with (j + i * e1) by lia. rewrite Nat.div_add, Nat.mod_add, Nat.div_small, Nat.mod_small by lia. auto.
      * exists v'. split; [exact E|]. replace (0 + S i * e1) with (0 + i * e1 + e1 * 1) by lia. exact H.
    + exists v'. split; [exact E|]. assert (EL : 0 + e0 * e1 = L) by (unfold L; lia). rewrite EL in H. exact H.
  - destruct (filled_for d f L 0 (e1 * e2) e0 (fun i v => for_ e1 (fun j v => for_ e2 (fun k v => wr v ((i * e1 + j) * e2 + k) (at_ [i; j; k])) v) v) _ F0) as (v' & E & H).
    + intros i v Hi Hv.
      destruct (filled_for d f L (0 + i * (e1 * e2)) e2 e1 (fun j v => for_ e2 (fun k v => wr v ((i * e1 + j) * e2 + k) (at_ [i; j; k])) v) v Hv) as (v' & E & H).
      * intros j w Hj Hw. destruct (filled_for d f L (0 + i * (e1 * e2) + j * e2) 1 e2 (fun k v => wr v ((i * e1 + j) * e2 + k) (at_ [i; j; k])) w Hw) as (v' & E & H).
        -- intros k u Hk Hu. replace (0 + i * (e1 * e2) + j * e2 + S k * 1) with (S (0 + i * (e1 * e2) + j * e2 + k * 1)) by lia.
           assert (Q : 0 + i * (e1 * e2) + j * e2 + k * 1 = k + (i * e1 + j) * e2) by nia.
           replace (wr u _ _) with (wr u (0 + i * (e1 * e2) + j * e2 + k * 1) (at_ [i; j; k])) by (f_equal; lia).
           assert (B1 : i * e1 + j < e0 * e1) by nia.
           apply filled_wr; auto; unfold L, f; [rewrite Q; nia|]. cbn [vdim]. f_equal. rewrite Q.
           rewrite Nat.div_add, Nat.mod_add, (Nat.div_small k), (Nat.mod_small k) by lia. cbn [Nat.add].
           replace (i * e1 + j) with (j + i * e1) by lia. rewrite Nat.div_add, Nat.mod_add, Nat.div_small, Nat.mod_small by lia. auto.
        -- exists v'. split; [exact E|]. replace (0 + i * (e1 * e2) + S j * e2) with (0 + i * (e1 * e2) + j * e2 + e2 * 1) by lia. exact H.
      * exists v'. split; [exact E|]. replace (0 + S i * (e1 * e2)) with (0 + i * (e1 * e2) + e1 * e2) by lia. exact H.
    + exists v'. split; [exact E|]. assert (EL : 0 + e0 * (e1 * e2) = L) by (unfold L; lia). rewrite EL in H. exact H.
Qed.

Lemma unmanaged_ok {T} (d : T) (a : ndarray T) e l : py_span a = Some l -> prod e <= prod (nd_shape a) -> (1 <= length e <= 3)%nat ->
  exists v, kv_unmanaged d a e = Some v /\ kv_ext v = e /\ (forall k, k < prod e -> kv_at v (vdim e k) = nth k l d) /\
    (forall idx, Forall2 lt idx e -> kv_at v idx = nth (row_index e idx) l d).
Proof.
  intros Es Hp Hr. unfold kv_unmanaged. unfold py_span in Es. destruct (_ || _) eqn:Eb in Es; [|discriminate]. injection Es as Es.
  assert (Eb' : (prod e =? 0)%nat || (nd_off a + prod e <=? length (nd_base a))%nat = true).
  { apply orb_prop in Eb. apply orb_true_intro. destruct Eb as [Eb|Eb]; [apply Nat.eqb_eq in Eb; left; apply Nat.eqb_eq; lia|].
    apply Nat.leb_le in Eb. right. apply Nat.leb_le. lia. }
  rewrite Eb'. eexists. split; [reflexivity|]. split; [reflexivity|]. cbn [kv_at].
  assert (N : forall k, k < prod e -> nth (nd_off a + k) (nd_base a) d = nth k l d).
  { intros k Hk. subst l. rewrite <- !(nth_default_eq). unfold nth_default. rewrite nth_error_firstn_skipn by lia. auto. }
  split.
  - intros k Hk. rewrite <- N by auto. destruct e as [|e0 [|e1 [|e2 [|e3 e]]]]; cbn [length] in Hr; try lia; cbn [vdim]; auto; cbn [prod] in Hk.
    + f_equal. f_equal. assert (e1 <> 0) by nia. rewrite (Nat.div_mod k e1) at 3 by auto. lia.
    + f_equal. f_equal. assert (e1 <> 0 /\ e2 <> 0) as [? ?] by nia. rewrite (Nat.div_mod k e2) at 4 by auto.
      rewrite (Nat.div_mod (k / e2) e1) at 3 by auto. nia.
  - intros idx HF. destruct e as [|e0 [|e1 [|e2 [|e3 e]]]]; cbn [length] in Hr; try lia.
    + inversion HF as [|i ? idx1 ? Hi HF1]; subst. inversion HF1; subst. cbn [row_index prod]. rewrite <- N by (cbn [prod]; lia). f_equal. lia.
    + inversion HF as [|i ? idx1 ? Hi HF1]; subst. inversion HF1 as [|j ? idx2 ? Hj HF2]; subst. inversion HF2; subst. cbn [row_index prod].
      rewrite <- N by (cbn [prod]; nia). f_equal. lia.
    + inversion HF as [|i ? idx1 ? Hi HF1]; subst. inversion HF1 as [|j ? idx2 ? Hj HF2]; subst. inversion HF2 as [|k ? idx3 ? Hk HF3]; subst.
      inversion HF3; subst. cbn [row_index prod]. assert (i * e1 + j < e0 * e1) by nia. rewrite <- N by (cbn [prod]; nia). f_equal. lia.
Qed.

Lemma deep_ok {T} (v s : @kview T) : kv_ext v = kv_ext s -> kv_deep_copy v s = Some (mkKv (kv_ext s) (kv_at s)).
Proof. intros H. unfold kv_deep_copy. rewrite H. destruct (list_eq_dec _ _ _); congruence. Qed.

Lemma list_nth_ext2 (e : list nat) a b : length e = 2 -> nth 0 e 0 = a -> nth 1 e 0 = b -> e = [a; b].
Proof. destruct e as [|? [|? [|]]]; cbn; intros; try lia. congruence. Qed.
Lemma list_nth_ext3 (e : list nat) a b c : length e = 3 -> nth 0 e 0 = a -> nth 1 e 0 = b -> nth 2 e 0 = c -> e = [a; b; c].
Proof. destruct e as [|? [|? [|? [|]]]]; cbn; intros; try lia. congruence. Qed.

Definition attr_rank (inner : list nat) := S (length inner).
Lemma lemma_C84_general {T} (d : T) inner (v : kview) (a : ndarray T) l :
  (length inner <= 2)%nat -> prod inner <> 0 -> length (kv_ext v) = attr_rank inner -> py_span a = Some l ->
  exists v', attr_set d inner v a = Some v' /\ kv_ext v' = (prod (nd_shape a) / prod inner) :: inner /\
    (forall idx, Forall2 lt idx (kv_ext v') -> kv_at v' idx = nth (row_index (kv_ext v') idx) l d) /\
    attr_get d v' = Some (firstn (prod (nd_shape a) / prod inner * prod inner) l).
Proof.
  intros Hr Hp Hv Es. set (e := (prod (nd_shape a) / prod inner) :: inner).
  assert (Hle : prod e <= prod (nd_shape a)). { unfold e. cbn [prod]. rewrite Nat.mul_comm. apply Nat.mul_div_le; auto. }
  destruct (unmanaged_ok d a e l Es Hle) as (u & Eu & Hu & Hat & Hat2); [unfold e; cbn [length]; lia|].
  assert (G : attr_get d (mkKv (kv_ext u) (kv_at u)) = Some (firstn (prod (nd_shape a) / prod inner * prod inner) l)).
  { unfold attr_get. rewrite view2vector_ok by (cbn [kv_ext]; rewrite Hu; unfold e; cbn [length]; lia). cbn [kv_ext kv_at]. rewrite Hu. f_equal. symmetry.
    assert (Ll : length l = prod (nd_shape a) \/ l = [] /\ prod e = 0).
    { destruct (span_bound a l Es) as [->|[_ ?]]; auto. unfold py_span in Es. destruct (_ || _) eqn:Eb in Es; [|discriminate]. injection Es as Es.
      apply (f_equal (@length _)) in Es. rewrite firstn_length, skipn_length in Es. cbn in Es. apply orb_prop in Eb.
      destruct Eb as [Eb|Eb]; [apply Nat.eqb_eq in Eb; right; split; auto; lia|]. apply Nat.leb_le in Eb. right; split; auto; lia. }
    fold (prod e). change (prod (nd_shape a) / prod inner * prod inner) with (prod e). destruct Ll as [Ll|[-> E0]].
    - apply (tab_list d); [rewrite firstn_length; lia|]. intros i Hi. rewrite Hat by auto.
      clear -Hi. revert i Hi. generalize (prod e). revert l. intros l n. revert n; induction l; intros [|n] [|i] H; cbn; auto; try lia. apply IHl. lia.
    - rewrite E0. reflexivity. }
  exists (mkKv (kv_ext u) (kv_at u)). split; [|split; [cbn; rewrite Hu; reflexivity|split; [cbn; rewrite Hu; exact Hat2|auto]]].
  destruct inner as [|w [|w2 [|? ?]]]; cbn [length] in Hr; try lia; unfold e, attr_rank in *; cbn [prod length] in *; unfold attr_set.
  - unfold set_kokkos_view1. rewrite Nat.div_1_r in Eu, Hu. rewrite Eu. cbn [bind]. apply deep_ok. rewrite Hu.
    destruct v as [ev av]; cbn [kv_ext] in *. destruct ev as [|n [|? ?]]; cbn in Hv; try lia. cbn [prod]. rewrite Nat.mul_1_r.
    destruct (n =? _)%nat eqn:E; cbn; auto. apply Nat.eqb_eq in E. congruence.
  - rewrite Nat.mul_1_r in *. rewrite (proj2 (Nat.eqb_neq _ _)) by auto. unfold set_kokkos_view2. rewrite Eu. cbn [bind]. apply deep_ok. rewrite Hu.
    destruct v as [ev av]; cbn [kv_ext] in *. destruct (negb _ || negb _) eqn:E; cbn [kv_ext kv_realloc]; auto.
    apply orb_false_elim in E. destruct E as [E1 E2]. apply negb_false_iff, Nat.eqb_eq in E1, E2. apply list_nth_ext2; auto.
  - rewrite Nat.mul_1_r in *. rewrite (proj2 (Nat.eqb_neq _ _)) by auto. unfold set_kokkos_view3. rewrite Eu. cbn [bind]. apply deep_ok. rewrite Hu.
    destruct v as [ev av]; cbn [kv_ext] in *. destruct (negb _ || negb _ || negb _) eqn:E; cbn [kv_ext kv_realloc]; auto.
    apply orb_false_elim in E. destruct E as [E E3]. apply orb_false_elim in E. destruct E as [E1 E2].
    apply negb_false_iff, Nat.eqb_eq in E1, E2, E3. apply list_nth_ext3; auto.
Qed.

Lemma lemma_C84 {T} (d : T) inner (v : kview) (a : ndarray T) l :
  (length inner <= 2)%nat -> prod inner <> 0 -> length (kv_ext v) = S (length inner) -> nd_list a l -> c_contiguous a ->
  exists v', attr_set d inner v a = Some v' /\ kv_ext v' = (length l / prod inner) :: inner /\
    (forall idx, Forall2 lt idx (kv_ext v') -> kv_at v' idx = nth (row_index (kv_ext v') idx) l d) /\
    attr_get d v' = Some (firstn (length l / prod inner * prod inner) l) /\
    (Nat.divide (prod inner) (length l) -> attr_get d v' = Some l).
Proof.
  intros Hr Hp Hv Hl Hc. destruct (lemma_C84_general d inner v a l Hr Hp Hv (lemma_C83_span a l Hl Hc)) as (v' & E & X1 & X2 & G).
  rewrite <- (nd_list_length _ _ Hl) in G, X1. exists v'. split; auto. split; auto. split; auto. split; auto. intros [q Hq]. rewrite G, Hq, Nat.div_mul, <- Hq, firstn_all by auto. auto.
Qed.
Lemma lemma_C84_remainder {T} (d : T) inner (v : kview) (a : ndarray T) l :
  (length inner <= 2)%nat -> prod inner <> 0 -> length (kv_ext v) = S (length inner) -> nd_list a l -> c_contiguous a ->
  ~ Nat.divide (prod inner) (length l) ->
  exists v' l', attr_set d inner v a = Some v' /\ attr_get d v' = Some l' /\ length l' < length l.
Proof.
  intros Hr Hp Hv Hl Hc Hd. destruct (lemma_C84 d inner v a l Hr Hp Hv Hl Hc) as (v' & E & _ & _ & G & _).
  exists v'. eexists. split; [exact E|]. split; [exact G|]. rewrite firstn_length.
  pose proof (Nat.div_mod (length l) (prod inner) Hp). assert (length l mod prod inner <> 0) by (rewrite Nat.mod_divide; auto). nia.
Qed.

Lemma lemma_C83_compute {N : Num} sph (m : @mace_model N) (b : @mace_bufs N) num_nodes
    (ant ann ani anj : ndarray nat) (axyz ar : ndarray N) nt nn ni nj xyz r :
  nd_list ant nt -> nd_list ann nn -> nd_list ani ni -> nd_list anj nj -> nd_list axyz xyz -> nd_list ar r ->
  c_contiguous ant -> c_contiguous ann -> c_contiguous ani -> c_contiguous anj -> c_contiguous axyz -> c_contiguous ar ->
  py_compute sph m b num_nodes ant ann ani anj axyz ar = compute_node_energies_forces sph m b num_nodes nt nn ni nj xyz r.
Proof.
  intros. unfold py_compute. rewrite (lemma_C83_span ant nt), (lemma_C83_span ann nn), (lemma_C83_span ani ni), (lemma_C83_span anj nj),
    (lemma_C83_span axyz xyz), (lemma_C83_span ar r) by auto. reflexivity.
Qed.
