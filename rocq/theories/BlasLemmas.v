(** Results of the BLAS models on well-formed operands. *)
From Coq Require Import List Arith ZArith Lia Bool.
From Verif Require Import Base BaseLemmas Segs BlasModel.
Import ListNotations.

Section Gen.
Context {N : Num}.

(** left-to-right sum starting from 0 *)
Fixpoint nsum (n : nat) (f : nat -> N) : N :=
  match n with
  | O => nzero
  | S n' => nadd (nsum n' f) (f n')
  end.

Lemma nsum_ext n f g : (forall i, i < n -> f i = g i) -> nsum n f = nsum n g.
Proof.
  induction n as [|n IH]; intros H; simpl; auto. rewrite IH, H by auto. reflexivity.
Qed.

Lemma for_nsum n (f : nat -> N) (body : nat -> N -> option N) :
  (forall p s, p < n -> body p s = Some (nadd s (f p))) ->
  for_ n body nzero = Some (nsum n f).
Proof.
  intros H. apply (for_trace (fun k => nsum k f)); auto. intros k Hk. rewrite H by auto. reflexivity.
Qed.

Lemma for_nsum2 n (x y : nat -> N) (fx fy : nat -> option N) :
  (forall p, p < n -> fx p = Some (x p)) -> (forall p, p < n -> fy p = Some (y p)) ->
  for_ n (fun p s => u <- fx p ;; v <- fy p ;; Some (nadd s (nmul u v))) nzero
  = Some (nsum n (fun p => nmul (x p) (y p))).
Proof.
  intros Hx Hy. apply for_nsum. intros p s Hp. rewrite Hx, Hy by auto. reflexivity.
Qed.

(** loops that overwrite consecutive cells *)
Lemma swr_tab base n (f : nat -> N) (body : nat -> list N -> option (list N)) :
  (forall j a, j < n -> body j a = wr a (base + j) (f j)) ->
  swr base n (for_ n body) (tab n f).
Proof.
  intros H. replace (tab n f) with (flat_map (fun j => [f j]) (seq 0 n)).
  - apply swr_for_const with (sz := 1); [|lia]. intros i Hi. apply swr_write.
    intros a. rewrite H by auto. f_equal. lia.
  - unfold tab. rewrite flat_map_concat_map. induction (seq 0 n); simpl; congruence.
Qed.

Lemma dgemm_nn_swr m n k a ao lda b bo ldb co (A B : nat -> nat -> N) :
  1 <= n -> k <= lda -> 1 <= lda -> n <= ldb ->
  (forall i p, i < m -> p < k -> rd a (ao + (i*lda+p)) = Some (A i p)) ->
  (forall p j, p < k -> j < n -> rd b (bo + (p*ldb+j)) = Some (B p j)) ->
  swr co (m*n) (fun c => dgemm_nn m n k a ao lda b bo ldb c co n)
    (flat_map (fun i => tab n (fun j => nsum k (fun p => nmul (A i p) (B p j)))) (seq 0 m)).
Proof.
  intros Hn Hk H1 Hb HA HB. unfold dgemm_nn.
  replace ((Nat.max 1 k <=? lda) && (Nat.max 1 n <=? ldb) && (Nat.max 1 n <=? n)) with true
    by (symmetry; rewrite !andb_true_iff, !Nat.leb_le; lia).
  apply swr_for_const with (sz := n); auto. intros i Hi.
  apply swr_tab. intros j c Hj. 
  rewrite for_nsum2 with (x := A i) (y := fun p => B p j) by (intros; auto). cbn [bind].
  f_equal. lia.
Qed.

Lemma dgemm_nt_swr m n k a ao lda b bo ldb co (A B : nat -> nat -> N) :
  1 <= n -> k <= lda -> 1 <= lda -> k <= ldb -> 1 <= ldb ->
  (forall i p, i < m -> p < k -> rd a (ao + (i*lda+p)) = Some (A i p)) ->
  (forall j p, j < n -> p < k -> rd b (bo + (j*ldb+p)) = Some (B j p)) ->
  swr co (m*n) (fun c => dgemm_nt m n k a ao lda b bo ldb c co n)
    (flat_map (fun i => tab n (fun j => nsum k (fun p => nmul (B j p) (A i p)))) (seq 0 m)).
Proof.
  intros Hn Hk H1 Hb Hb1 HA HB. unfold dgemm_nt.
  replace ((Nat.max 1 k <=? lda) && (Nat.max 1 k <=? ldb) && (Nat.max 1 n <=? n)) with true
    by (symmetry; rewrite !andb_true_iff, !Nat.leb_le; lia).
  apply swr_for_const with (sz := n); auto. intros i Hi.
  apply swr_tab. intros j c Hj. 
  rewrite for_nsum with (f := fun p => nmul (B j p) (A i p)) by (intros; rewrite HA, HB by auto; reflexivity). cbn [bind].
  f_equal. lia.
Qed.

Lemma dgemv_n_swr m n a lda x xo yo (A : nat -> nat -> N) (X : nat -> N) :
  n <= lda -> 1 <= lda ->
  (forall i p, i < m -> p < n -> rd a (i*lda+p) = Some (A i p)) ->
  (forall p, p < n -> rd x (xo + p) = Some (X p)) ->
  swr yo m (fun y => dgemv_n false m n a lda x xo y yo)
    (tab m (fun i => nsum n (fun p => nmul (A i p) (X p)))).
Proof.
  intros Hn H1 HA HX. unfold dgemv_n.
  replace (Nat.max 1 n <=? lda) with true by (symmetry; rewrite Nat.leb_le; lia).
  apply swr_tab. intros i y Hi.
  rewrite for_nsum2 with (x := A i) (y := X) by (intros; auto). reflexivity.
Qed.

Lemma dgemv_t_swr m n a lda x xo yo (A : nat -> nat -> N) (X : nat -> N) :
  n <= lda -> 1 <= lda ->
  (forall p j, p < m -> j < n -> rd a (p*lda+j) = Some (A p j)) ->
  (forall p, p < m -> rd x (xo + p) = Some (X p)) ->
  swr yo n (fun y => dgemv_t false m n a lda x xo y yo)
    (tab n (fun j => nsum m (fun p => nmul (A p j) (X p)))).
Proof.
  intros Hn H1 HA HX. unfold dgemv_t.
  replace (Nat.max 1 n <=? lda) with true by (symmetry; rewrite Nat.leb_le; lia).
  apply swr_tab. intros j y Hj.
  rewrite for_nsum2 with (x := fun p => A p j) (y := X) by (intros; auto). reflexivity.
Qed.

(** accumulating versions: elementwise update of a segment *)
Lemma dgemv_n_acc m n a lda x xo yo (A : nat -> nat -> N) (X : nat -> N) pre f post :
  n <= lda -> 1 <= lda -> length pre = yo ->
  (forall i p, i < m -> p < n -> rd a (i*lda+p) = Some (A i p)) ->
  (forall p, p < n -> rd x (xo + p) = Some (X p)) ->
  dgemv_n true m n a lda x xo (pre ++ tab m f ++ post) yo =
  Some (pre ++ tab m (fun i => nadd (f i) (nsum n (fun p => nmul (A i p) (X p)))) ++ post).
Proof.
  intros Hn H1 Hp HA HX. unfold dgemv_n.
  replace (Nat.max 1 n <=? lda) with true by (symmetry; rewrite Nat.leb_le; lia).
  subst yo.
  apply (for_elementwise (fun i v => nadd v (nsum n (fun p => nmul (A i p) (X p))))).
  intros i y v Hi Hr. rewrite for_nsum2 with (x := A i) (y := X) by (intros; auto).
  cbn [bind]. unfold addto. rewrite Hr. reflexivity.
Qed.

Lemma dgemv_t_acc m n a lda x xo yo (A : nat -> nat -> N) (X : nat -> N) pre f post :
  n <= lda -> 1 <= lda -> length pre = yo ->
  (forall p j, p < m -> j < n -> rd a (p*lda+j) = Some (A p j)) ->
  (forall p, p < m -> rd x (xo + p) = Some (X p)) ->
  dgemv_t true m n a lda x xo (pre ++ tab n f ++ post) yo =
  Some (pre ++ tab n (fun j => nadd (f j) (nsum m (fun p => nmul (A p j) (X p)))) ++ post).
Proof.
  intros Hn H1 Hp HA HX. unfold dgemv_t.
  replace (Nat.max 1 n <=? lda) with true by (symmetry; rewrite Nat.leb_le; lia).
  subst yo.
  apply (for_elementwise (fun j v => nadd v (nsum m (fun p => nmul (A p j) (X p))))).
  intros i y v Hi Hr. rewrite for_nsum2 with (x := fun p => A p i) (y := X) by (intros; auto).
  cbn [bind]. unfold addto. rewrite Hr. reflexivity.
Qed.

Lemma ddot_ok n x y d : n <= length x -> n <= length y ->
  ddot n x y = Some (nsum n (fun p => nmul (nth p x d) (nth p y d))).
Proof.
  intros Hx Hy. unfold ddot. apply for_nsum2; intros p Hp; apply rd_some; lia.
Qed.

Lemma copy_to_swr (src : list N) off : swr off (length src) (fun d => copy_to src d off) src.
Proof.
  unfold copy_to. destruct src as [|x0 t] eqn:E.
  { split; auto. intros pre seg post _ Hs. destruct seg; [reflexivity|discriminate]. }
  rewrite <- E. apply swr_eq with (base := off) (out := tab (length src) (fun i => nth i src x0)); auto.
  { symmetry. apply tab_nth. }
  apply swr_tab.
  intros j a Hj. rewrite (rd_some src j x0) by auto. reflexivity.
Qed.

End Gen.
