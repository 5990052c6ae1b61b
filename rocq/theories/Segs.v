(** Reasoning about loops that work on a segment [pre ++ seg ++ post] of a flat buffer. *)
From Coq Require Import List Arith ZArith Lia Bool.
From Verif Require Import Base BaseLemmas.
Import ListNotations.

Lemma rd_seg_tab {A} (pre post : list A) n f j b :
  b = length pre + j -> j < n -> rd (pre ++ tab n f ++ post) b = Some (f j).
Proof. intros -> H. rewrite rd_mid by (rewrite length_tab; auto). apply rd_tab; auto. Qed.

Lemma wr_seg_tab {A} (pre post : list A) n f j b v :
  b = length pre + j -> j < n ->
  wr (pre ++ tab n f ++ post) b v = Some (pre ++ tab n (fun i => if i =? j then v else f i) ++ post).
Proof.
  intros -> H. rewrite wr_mid by (rewrite length_tab; auto). do 3 f_equal.
  apply list_eq_nth with (d := v); rewrite length_upd, !length_tab; auto.
  intros i Hi. rewrite nth_upd by (rewrite length_tab; auto). rewrite !nth_tab by auto.
  rewrite (Nat.eqb_sym j i). reflexivity.
Qed.

(** element-wise loop over a segment: iteration [j] rewrites element [j] only *)
Lemma for_elementwise {A} (g : nat -> A -> A) (body : nat -> list A -> option (list A)) n f pre post :
  (forall j a x, j < n -> rd a (length pre + j) = Some x ->
      body j a = wr a (length pre + j) (g j x)) ->
  for_ n body (pre ++ tab n f ++ post) = Some (pre ++ tab n (fun j => g j (f j)) ++ post).
Proof.
  intros H.
  apply (for_trace (fun k => pre ++ tab n (fun j => if j <? k then g j (f j) else f j) ++ post)).
  - do 2 f_equal.
  - do 2 f_equal. apply tab_ext. intros j Hj. apply Nat.ltb_lt in Hj; rewrite Hj; auto.
  - intros k Hk.
    rewrite (H k _ (f k) Hk).
    + rewrite (wr_seg_tab _ _ _ _ k) by lia. do 3 f_equal. apply tab_ext. intros j Hj.
      destruct (Nat.eqb_spec j k) as [->|Hne].
      * replace (k <? S k) with true by (symmetry; apply Nat.ltb_lt; lia). reflexivity.
      * destruct (Nat.ltb_spec j k), (Nat.ltb_spec j (S k)); auto; lia.
    + rewrite (rd_seg_tab _ _ _ _ k) by lia. rewrite Nat.ltb_irrefl. reflexivity.
Qed.

Lemma for_elementwise_seg {A} (d : A) (g : nat -> A -> A) body n pre seg post :
  length seg = n ->
  (forall j a x, j < n -> rd a (length pre + j) = Some x ->
      body j a = wr a (length pre + j) (g j x)) ->
  for_ n body (pre ++ seg ++ post) = Some (pre ++ tab n (fun j => g j (nth j seg d)) ++ post).
Proof.
  intros Hl H. rewrite (tab_nth seg d) at 1. rewrite Hl. apply for_elementwise; auto.
Qed.

(** ** Overwriting a segment piece by piece *)

(** [swr base len stmt out]: [stmt] overwrites the [len] elements from [base] by [out], whatever they were. *)
Definition swr {A} (base len : nat) (stmt : list A -> option (list A)) (out : list A) : Prop :=
  length out = len /\
  forall pre seg post, length pre = base -> length seg = len ->
    stmt (pre ++ seg ++ post) = Some (pre ++ out ++ post).

Lemma split_at {A} (l : list A) n : n <= length l ->
  exists l1 l2, l = l1 ++ l2 /\ length l1 = n.
Proof.
  intros H. exists (firstn n l), (skipn n l). split; [symmetry; apply firstn_skipn|].
  apply firstn_length_le; auto.
Qed.

Lemma swr_for {A} (sz : nat -> nat) (out : nat -> list A) n base len
      (body : nat -> list A -> option (list A)) :
  (forall i, i < n -> swr (base + lsum (map sz (seq 0 i))) (sz i) (body i) (out i)) ->
  len = lsum (map sz (seq 0 n)) ->
  swr base len (for_ n body) (flat_map out (seq 0 n)).
Proof.
  intros H ->. split.
  - clear -H. induction n as [|n IH]; auto. rewrite flat_map_S, app_length, IH by auto.
    rewrite seq_S, map_app, lsum_app. simpl. rewrite (proj1 (H n ltac:(lia))). lia.
  - induction n as [|n IH]; intros pre seg post Hp Hs.
    + simpl in Hs. destruct seg; [reflexivity|simpl in Hs; lia].
    + rewrite for_S.
      rewrite seq_S, map_app, lsum_app in Hs. simpl in Hs. rewrite Nat.add_0_r in Hs.
      destruct (split_at seg (lsum (map sz (seq 0 n))) ltac:(lia)) as (s1 & s2 & -> & Hs1).
      rewrite app_length in Hs. rewrite <- app_assoc.
      rewrite (IH (fun i Hi => H i (Nat.lt_lt_succ_r _ _ Hi)) pre s1 (s2 ++ post) Hp Hs1). cbn [bind].
      destruct (H n ltac:(lia)) as [Ho Hb].
      assert (Hl : length (flat_map out (seq 0 n)) = lsum (map sz (seq 0 n))).
      { clear -H. induction n as [|n IH]; auto. rewrite flat_map_S, app_length, IH by auto.
        rewrite seq_S, map_app, lsum_app. simpl. rewrite (proj1 (H n ltac:(lia))). lia. }
      specialize (Hb (pre ++ flat_map out (seq 0 n)) s2 post).
      rewrite <- !app_assoc in Hb. rewrite Hb by (rewrite ?app_length; lia).
      rewrite flat_map_S, <- !app_assoc. reflexivity.
Qed.

Lemma lsum_const {A} (l : list A) c : lsum (map (fun _ => c) l) = length l * c.
Proof. induction l as [|x l IHl]; simpl; [reflexivity|]. rewrite IHl. reflexivity. Qed.

(** uniform piece size *)
Lemma swr_for_const {A} (sz : nat) (out : nat -> list A) n base len
      (body : nat -> list A -> option (list A)) :
  (forall i, i < n -> swr (base + i * sz) sz (body i) (out i)) ->
  len = n * sz ->
  swr base len (for_ n body) (flat_map out (seq 0 n)).
Proof.
  intros H ->. apply swr_for with (sz := fun _ => sz).
  - intros i Hi. rewrite lsum_const, seq_length. auto.
  - rewrite lsum_const, seq_length. auto.
Qed.

Lemma swr_write {A} base (stmt : list A -> option (list A)) v :
  (forall a, stmt a = wr a base v) -> swr base 1 stmt [v].
Proof.
  intros H. split; auto. intros pre seg post Hp Hs.
  destruct seg as [|x [|y seg]]; simpl in Hs; try lia.
  rewrite H, wr_some by (rewrite !app_length; simpl; lia). simpl.
  rewrite upd_app_mid by auto. reflexivity.
Qed.

(** overwriting everything from [base=0] *)
Lemma swr_all {A} len (stmt : list A -> option (list A)) out a :
  swr 0 len stmt out -> length a = len -> stmt a = Some out.
Proof.
  intros [_ H] Ha. specialize (H [] a [] eq_refl Ha). simpl in H. rewrite !app_nil_r in H. exact H.
Qed.

Lemma swr_ext {A} base len (s1 s2 : list A -> option (list A)) out :
  (forall a, s1 a = s2 a) -> swr base len s1 out -> swr base len s2 out.
Proof. intros E [H1 H2]; split; auto. intros. rewrite <- E. auto. Qed.

Lemma swr_eq {A} base base' len (s : list A -> option (list A)) out out' :
  base = base' -> out = out' -> swr base len s out -> swr base' len s out'.
Proof. intros -> ->; auto. Qed.

(** the same with a counter threaded through the state *)
Definition swrc {A C} (base len : nat) (stmt : list A * C -> option (list A * C))
    (c : C) (out : list A) (c' : C) : Prop :=
  length out = len /\
  forall pre seg post, length pre = base -> length seg = len ->
    stmt (pre ++ seg ++ post, c) = Some (pre ++ out ++ post, c').

Lemma swrc_for {A C} (sz : nat -> nat) (out : nat -> list A) (cnt : nat -> C) n base len
      (body : nat -> list A * C -> option (list A * C)) c0 c1 :
  (forall i, i < n -> swrc (base + lsum (map sz (seq 0 i))) (sz i) (body i) (cnt i) (out i) (cnt (S i))) ->
  len = lsum (map sz (seq 0 n)) -> c0 = cnt 0 -> c1 = cnt n ->
  swrc base len (for_ n body) c0 (flat_map out (seq 0 n)) c1.
Proof.
  intros H -> -> ->. 
  assert (Hl : length (flat_map out (seq 0 n)) = lsum (map sz (seq 0 n))).
  { clear -H. induction n as [|n IH]; auto. rewrite flat_map_S, app_length, IH by auto.
    rewrite seq_S, map_app, lsum_app. simpl. rewrite (proj1 (H n ltac:(lia))). lia. }
  split; auto.
  induction n as [|n IH]; intros pre seg post Hp Hs.
  - simpl in Hs. destruct seg; [reflexivity|simpl in Hs; lia].
  - rewrite for_S.
    rewrite seq_S, map_app, lsum_app in Hs. simpl in Hs. rewrite Nat.add_0_r in Hs.
    destruct (split_at seg (lsum (map sz (seq 0 n))) ltac:(lia)) as (s1 & s2 & -> & Hs1).
    rewrite app_length in Hs. rewrite <- app_assoc.
    assert (Hl' : length (flat_map out (seq 0 n)) = lsum (map sz (seq 0 n))).
    { clear -H. induction n as [|n IH]; auto. rewrite flat_map_S, app_length, IH by auto.
      rewrite seq_S, map_app, lsum_app. simpl. rewrite (proj1 (H n ltac:(lia))). lia. }
    rewrite (IH (fun i Hi => H i (Nat.lt_lt_succ_r _ _ Hi)) Hl' pre s1 (s2 ++ post) Hp Hs1). cbn [bind].
    destruct (H n ltac:(lia)) as [Ho Hb].
    specialize (Hb (pre ++ flat_map out (seq 0 n)) s2 post).
    rewrite <- !app_assoc in Hb. rewrite Hb by (rewrite ?app_length; lia).
    rewrite flat_map_S, <- !app_assoc. reflexivity.
Qed.

Lemma swrc_all {A C} len (stmt : list A * C -> option (list A * C)) c out c' a :
  swrc 0 len stmt c out c' -> length a = len -> stmt (a, c) = Some (out, c').
Proof.
  intros [_ H] Ha. specialize (H [] a [] eq_refl Ha). simpl in H. rewrite !app_nil_r in H. exact H.
Qed.

(** ** Accumulation ([+=]) into a segment *)
Section Adds.
Context {N : Num}.

Definition add_at (a : list N) (i : nat) (v : N) : list N :=
  match nth_error a i with Some x => upd a i (x + v)%num | None => a end.

(** perform a list of [a[i] += v] in order *)
Definition adds (a : list N) (L : list (nat * N)) : list N :=
  fold_left (fun a p => add_at a (fst p) (snd p)) L a.

Lemma length_add_at a i v : length (add_at a i v) = length a.
Proof. unfold add_at. destruct (nth_error a i); auto. apply length_upd. Qed.

Lemma length_adds a L : length (adds a L) = length a.
Proof.
  revert a; induction L as [|p L IH]; intros a; simpl; auto. unfold adds in *. simpl.
  rewrite IH. apply length_add_at.
Qed.

Lemma adds_app a L1 L2 : adds a (L1 ++ L2) = adds (adds a L1) L2.
Proof. unfold adds. apply fold_left_app. Qed.

Lemma adds_nil a : adds a [] = a.
Proof. reflexivity. Qed.

Lemma adds_cons a p L : adds a (p :: L) = adds (add_at a (fst p) (snd p)) L.
Proof. reflexivity. Qed.

Lemma nth_add_at a i v p d :
  i < length a -> nth p (add_at a i v) d = if i =? p then (nth p a d + v)%num else nth p a d.
Proof.
  intros H. unfold add_at. destruct (nth_error a i) as [x|] eqn:E.
  - rewrite nth_upd by auto. destruct (Nat.eqb_spec i p); auto. subst.
    rewrite (nth_error_nth _ _ d E). reflexivity.
  - apply nth_error_None in E. lia.
Qed.

(** entry [p] after the additions, in the order in which they were made (no algebraic law used) *)
Lemma nth_adds a L p d :
  (forall q, In q L -> fst q < length a) ->
  nth p (adds a L) d = fold_left (fun acc q => if fst q =? p then (acc + snd q)%num else acc) L (nth p a d).
Proof.
  revert a; induction L as [|q L IH]; intros a H; [reflexivity|].
  rewrite adds_cons, IH; cbn [fold_left].
  - rewrite nth_add_at by (apply H; simpl; auto). destruct (fst q =? p); reflexivity.
  - intros q' Hq'. rewrite length_add_at. apply H; simpl; auto.
Qed.

Lemma addto_some a i v : i < length a -> addto a i v = Some (add_at a i v).
Proof.
  intros H. unfold addto, add_at, rd. destruct (nth_error a i) as [x|] eqn:E.
  - simpl. apply wr_some; auto.
  - apply nth_error_None in E. lia.
Qed.

Lemma add_at_mid (pre seg post : list N) i v :
  i < length seg -> add_at (pre ++ seg ++ post) (length pre + i) v = pre ++ add_at seg i v ++ post.
Proof.
  intros H. unfold add_at. pose proof (rd_mid pre seg post i H) as E. unfold rd in E. rewrite E.
  destruct (nth_error seg i) as [x|] eqn:E2.
  - rewrite upd_app_r, upd_app_l; auto.
  - apply nth_error_None in E2. lia.
Qed.

(** [sadd base len stmt L]: on the segment of [len] elements from [base], [stmt] performs the additions [L]
    (indices relative to the segment) and nothing else. *)
Definition sadd (base len : nat) (stmt : list N -> option (list N)) (L : list (nat * N)) : Prop :=
  forall pre seg post, length pre = base -> length seg = len ->
    stmt (pre ++ seg ++ post) = Some (pre ++ adds seg L ++ post).

Lemma sadd_for base len n (body : nat -> list N -> option (list N)) L :
  (forall i, i < n -> sadd base len (body i) (L i)) ->
  sadd base len (for_ n body) (flat_map L (seq 0 n)).
Proof.
  intros H pre seg post Hp Hs.
  apply (for_trace (fun k => pre ++ adds seg (flat_map L (seq 0 k)) ++ post)); auto.
  intros k Hk. rewrite (H k Hk) by (rewrite ?length_adds; auto).
  rewrite flat_map_S, adds_app. reflexivity.
Qed.

Lemma sadd_range base len lo hi (body : nat -> list N -> option (list N)) L :
  (forall i, i < hi - lo -> sadd base len (body (lo + i)) (L i)) ->
  sadd base len (for_range lo hi body) (flat_map L (seq 0 (hi - lo))).
Proof.
  intros H pre seg post Hp Hs.
  apply (for_range_trace (fun k => pre ++ adds seg (flat_map L (seq 0 k)) ++ post)); auto.
  intros k Hk. rewrite (H k Hk) by (rewrite ?length_adds; auto).
  rewrite flat_map_S, adds_app. reflexivity.
Qed.

Lemma sadd_addto base len (stmt : list N -> option (list N)) i v :
  i < len -> (forall a, stmt a = addto a (base + i) v) -> sadd base len stmt [(i, v)].
Proof.
  intros Hi H pre seg post Hp Hs. rewrite H, addto_some by (rewrite !app_length; lia).
  subst base. rewrite add_at_mid by lia. reflexivity.
Qed.

Lemma sadd_bind base len s1 s2 L1 L2 :
  sadd base len s1 L1 -> sadd base len s2 L2 ->
  sadd base len (fun a => a' <- s1 a ;; s2 a') (L1 ++ L2).
Proof.
  intros H1 H2 pre seg post Hp Hs. rewrite H1 by auto. cbn [bind].
  rewrite H2 by (rewrite ?length_adds; auto). rewrite adds_app. reflexivity.
Qed.

Lemma sadd_ext base len (s1 s2 : list N -> option (list N)) L :
  (forall a, s1 a = s2 a) -> sadd base len s1 L -> sadd base len s2 L.
Proof. intros E H pre seg post Hp Hs. rewrite <- E. auto. Qed.

Lemma sadd_all len stmt L a : sadd 0 len stmt L -> length a = len -> stmt a = Some (adds a L).
Proof.
  intros H Ha. specialize (H [] a [] eq_refl Ha). simpl in H. rewrite !app_nil_r in H. exact H.
Qed.

(** with a counter *)
Definition saddc {C} (base len : nat) (stmt : list N * C -> option (list N * C)) (c : C)
    (L : list (nat * N)) (c' : C) : Prop :=
  forall pre seg post, length pre = base -> length seg = len ->
    stmt (pre ++ seg ++ post, c) = Some (pre ++ adds seg L ++ post, c').

Lemma saddc_for {C} base len n (body : nat -> list N * C -> option (list N * C)) L (cnt : nat -> C) c0 c1 :
  (forall i, i < n -> saddc base len (body i) (cnt i) (L i) (cnt (S i))) ->
  c0 = cnt 0 -> c1 = cnt n ->
  saddc base len (for_ n body) c0 (flat_map L (seq 0 n)) c1.
Proof.
  intros H -> -> pre seg post Hp Hs.
  apply (for_trace (fun k => (pre ++ adds seg (flat_map L (seq 0 k)) ++ post, cnt k))); auto.
  intros k Hk. rewrite (H k Hk) by (rewrite ?length_adds; auto).
  rewrite flat_map_S, adds_app. reflexivity.
Qed.

Lemma saddc_range {C} base len lo hi (body : nat -> list N * C -> option (list N * C)) L (cnt : nat -> C) c0 c1 :
  (forall i, i < hi - lo -> saddc base len (body (lo + i)) (cnt i) (L i) (cnt (S i))) ->
  c0 = cnt 0 -> c1 = cnt (hi - lo) ->
  saddc base len (for_range lo hi body) c0 (flat_map L (seq 0 (hi - lo))) c1.
Proof.
  intros H -> -> pre seg post Hp Hs.
  apply (for_range_trace (fun k => (pre ++ adds seg (flat_map L (seq 0 k)) ++ post, cnt k))); auto.
  intros k Hk. rewrite (H k Hk) by (rewrite ?length_adds; auto).
  rewrite flat_map_S, adds_app. reflexivity.
Qed.

Lemma saddc_all {C} len stmt (c : C) L c' a :
  saddc 0 len stmt c L c' -> length a = len -> stmt (a, c) = Some (adds a L, c').
Proof.
  intros H Ha. specialize (H [] a [] eq_refl Ha). simpl in H. rewrite !app_nil_r in H. exact H.
Qed.

End Adds.

(** ** In-place update of a segment with known contents *)
Definition sseg {A} (base : nat) (stmt : list A -> option (list A)) (seg out : list A) : Prop :=
  length out = length seg /\
  forall pre post, length pre = base -> stmt (pre ++ seg ++ post) = Some (pre ++ out ++ post).

Lemma sseg_for {A} (seg out : nat -> list A) n base (body : nat -> list A -> option (list A)) :
  (forall i, i < n -> sseg (base + length (flat_map seg (seq 0 i))) (body i) (seg i) (out i)) ->
  sseg base (for_ n body) (flat_map seg (seq 0 n)) (flat_map out (seq 0 n)).
Proof.
  intros H. induction n as [|n IH].
  - split; auto.
  - destruct IH as [L IH]; [auto|]. destruct (H n ltac:(lia)) as [Ln Hn].
    rewrite !flat_map_S. split; [rewrite !app_length; lia|].
    intros pre post Hp. rewrite for_S. rewrite <- app_assoc, IH by auto. cbn [bind].
    specialize (Hn (pre ++ flat_map out (seq 0 n)) post). rewrite <- !app_assoc in Hn.
    rewrite Hn by (rewrite app_length; lia). rewrite <- !app_assoc. reflexivity.
Qed.

Lemma sseg_for_const {A} sz (seg out : nat -> list A) n base (body : nat -> list A -> option (list A)) :
  (forall i, i < n -> length (seg i) = sz) ->
  (forall i, i < n -> sseg (base + i * sz) (body i) (seg i) (out i)) ->
  sseg base (for_ n body) (flat_map seg (seq 0 n)) (flat_map out (seq 0 n)).
Proof.
  intros Hs H. apply sseg_for. intros i Hi.
  rewrite length_flat_map_const with (c := sz).
  - rewrite seq_length. auto.
  - intros x Hx. apply in_seq in Hx. apply Hs. lia.
Qed.

Lemma sseg_tab {A} base n (g : nat -> A -> A) (f : nat -> A) (body : nat -> list A -> option (list A)) :
  (forall j a x, j < n -> rd a (base + j) = Some x -> body j a = wr a (base + j) (g j x)) ->
  sseg base (for_ n body) (tab n f) (tab n (fun j => g j (f j))).
Proof.
  intros H. split; [rewrite !length_tab; auto|]. intros pre post Hp. subst base.
  apply for_elementwise. auto.
Qed.

Lemma sseg_all {A} (stmt : list A -> option (list A)) seg out :
  sseg 0 stmt seg out -> stmt seg = Some out.
Proof. intros [_ H]. specialize (H [] [] eq_refl). simpl in H. rewrite !app_nil_r in H. exact H. Qed.

Lemma flat_map_map {A B C} (f : B -> list C) (g : A -> B) l :
  flat_map f (map g l) = flat_map (fun x => f (g x)) l.
Proof. induction l; simpl; congruence. Qed.

Lemma map_flat_map {A B C} (f : B -> C) (g : A -> list B) l :
  map f (flat_map g l) = flat_map (fun x => map f (g x)) l.
Proof. induction l as [|x l IH]; simpl; auto. rewrite map_app, IH. reflexivity. Qed.

Lemma flat_map_flat_map {A B C} (f : B -> list C) (g : A -> list B) l :
  flat_map f (flat_map g l) = flat_map (fun x => flat_map f (g x)) l.
Proof. induction l as [|x l IH]; simpl; auto. rewrite flat_map_app', IH. reflexivity. Qed.

Lemma concat_flat_map {A B} (g : A -> list (list B)) l :
  concat (flat_map g l) = flat_map (fun x => concat (g x)) l.
Proof. induction l as [|x l IH]; simpl; auto. rewrite concat_app, IH. reflexivity. Qed.

Lemma concat_map_flat_map {A B} (g : A -> list B) l : concat (map g l) = flat_map g l.
Proof. symmetry. apply flat_map_concat_map. Qed.

Lemma concat_seq_nth {A} (l : list (list A)) :
  concat l = flat_map (fun i => nth i l []) (seq 0 (length l)).
Proof. rewrite (flat_map_seq_nth (fun x => x) l []), flat_map_concat_map, map_id. reflexivity. Qed.

Lemma length_concat_const {A} (l : list (list A)) c :
  (forall r, In r l -> length r = c) -> length (concat l) = length l * c.
Proof.
  intros H. rewrite <- (map_id l) at 1. rewrite concat_map_flat_map.
  apply length_flat_map_const. auto.
Qed.

Lemma rd_concat_const {A} (l : list (list A)) c i p d :
  (forall r, In r l -> length r = c) -> i < length l -> p < c ->
  rd (concat l) (i * c + p) = Some (nth p (nth i l []) d).
Proof.
  intros H Hi Hp. unfold rd. rewrite <- (map_id l) at 1. rewrite concat_map_flat_map.
  rewrite nth_error_flat_map_const with (c := c) (x := nth i l []); auto.
  - apply nth_error_nth'. rewrite H; auto. apply nth_In; auto.
  - apply nth_error_nth'; auto.
Qed.
