(** Stages of [MACE]: compute_H1, compute_H2, compute_readouts, reverse_H2, reverse_M1, reverse_H1, reverse_M0. *)
From Coq Require Import List Arith ZArith Lia Bool.
From Verif Require Import Base BaseLemmas Segs BlasModel BlasLemmas SplineModel MpModel MpProofs MlpModel
  ZblModel MaceModel Sys SysLoops MaceGrid MacePure MaceStages1 MaceStages2 MaceStages3 MaceStages4 MaceStages5.
Import ListNotations.

Lemma wr_tab {A} n (f : nat -> A) i v : i < n ->
  wr (tab n f) i v = Some (tab n (fun i' => if i' =? i then v else f i')).
Proof.
  intros H. pose proof (wr_seg_tab [] [] n f i i v eq_refl H) as E. simpl in E. rewrite !app_nil_r in E. exact E.
Qed.

Lemma wr_grid {A} n K (f : nat -> nat -> A) i j p v : p = i * K + j -> i < n -> j < K ->
  wr (grid n K f) p v = Some (grid n K (fun i' j' => if (i' =? i) && (j' =? j) then v else f i' j')).
Proof.
  intros -> Hi Hj. assert (i * K + j < n * K) by nia.
  rewrite wr_some by (rewrite length_grid; auto). f_equal.
  apply list_eq_nth with (d := v); [rewrite length_upd, !length_grid; auto|].
  intros p Hp. rewrite length_upd, length_grid in Hp.
  rewrite nth_upd by (rewrite length_grid; auto).
  pose proof (Nat.div_mod_eq p K). pose proof (Nat.mod_upper_bound p K ltac:(lia)).
  assert (p / K < n) by (apply Nat.div_lt_upper_bound; lia).
  rewrite !(nth_grid n K _ (p / K) (p mod K)) by lia.
  destruct (Nat.eqb_spec (i * K + j) p).
  - assert (B : i * K + j = (p / K) * K + p mod K) by lia.
    apply idx_inj in B; auto. destruct B as [-> ->]. rewrite !Nat.eqb_refl. reflexivity.
  - destruct (Nat.eqb_spec (p / K) i); destruct (Nat.eqb_spec (p mod K) j); cbn [andb]; auto. nia.
Qed.

Lemma cube_grid {A} n a K (f : nat -> nat -> nat -> A) :
  cube n a K f = grid n (a * K) (fun i p => f i (p / K) (p mod K)).
Proof. unfold cube, grid at 2. apply flat_map_ext_in. intros i _. apply grid_tab. Qed.

Lemma wr_cube {A} n a K (f : nat -> nat -> nat -> A) i b j p v :
  p = i * (a * K) + (b * K + j) -> i < n -> b < a -> j < K ->
  wr (cube n a K f) p v =
    Some (cube n a K (fun i' b' j' => if (i' =? i) && (b' =? b) && (j' =? j) then v else f i' b' j')).
Proof.
  intros -> Hi Hb Hj. assert (b * K + j < a * K) by nia.
  rewrite !cube_grid. rewrite (wr_grid n (a * K) _ i (b * K + j)) by auto. f_equal.
  apply grid_ext. intros i' p Hi' Hp.
  pose proof (Nat.div_mod_eq p K). pose proof (Nat.mod_upper_bound p K ltac:(lia)).
  destruct (Nat.eqb_spec i' i); cbn [andb]; auto.
  destruct (Nat.eqb_spec p (b * K + j)).
  - assert (B : b * K + j = (p / K) * K + p mod K) by lia.
    apply idx_inj in B; auto. destruct B as [-> ->]. rewrite !Nat.eqb_refl. reflexivity.
  - destruct (Nat.eqb_spec (p / K) b); destruct (Nat.eqb_spec (p mod K) j); cbn [andb]; auto. nia.
Qed.

Lemma part2_done {A B} (f g : A -> list B) l n :
  (forall x, In x (skipn n l) -> f x = g x) -> part2 f g l n = flat_map g l.
Proof.
  intros H. unfold part2. rewrite (flat_map_ext_in _ _ _ H), <- flat_map_app', firstn_skipn. reflexivity.
Qed.

Lemma in_skipn_seq n k x : In x (skipn n (seq 0 k)) -> n <= x.
Proof.
  intros H. destruct (le_lt_dec k n).
  - rewrite skipn_all2 in H by (rewrite seq_length; lia). destruct H.
  - replace k with (n + (k - n)) in H by lia. rewrite seq_app, skipn_app, seq_length, Nat.sub_diag in H.
    rewrite skipn_all2 in H by (rewrite seq_length; lia). simpl in H. apply in_seq in H. lia.
Qed.

Lemma part2_ok {B} (f g : nat -> list B) n i c stmt : i < n ->
  (forall x, x < n -> length (g x) = c) -> sseg (i * c) stmt (f i) (g i) ->
  stmt (part2 f g (seq 0 n) i) = Some (part2 f g (seq 0 n) (S i)).
Proof.
  intros Hi Hc H. apply part2_step_const with (x := i) (c := c); auto.
  - intros x Hx. apply in_seq in Hx. apply Hc. lia.
  - apply nth_error_seq0; auto.
Qed.

Lemma nth_skipn' {A} (l : list A) k q d : nth q (skipn k l) d = nth (k + q) l d.
Proof. revert l; induction k as [|k IH]; intros [|x l]; simpl; auto. destruct q; reflexivity. Qed.

Section S6.
Context {N : Num}.
Variable m : mace_model N.
Variable s : sys N.
Notation n := (length s).
Notation T := (length (m_atomic_numbers m)).
Notation K := (m_num_channels m).
Notation lms := (num_lm m).
Notation LMs := (num_LM m).
Hypothesis W : mace_wf m.
Hypothesis Hty : forall i, i < n -> ty s i < T.

Lemma fill_len (l : list N) k : length l = k -> fill nzero l = repeat nzero k.
Proof. intros <-. reflexivity. Qed.

Lemma repeat_cube a b c (x : N) : repeat x (a * (b * c)) = cube a b c (fun _ _ _ => x).
Proof.
  rewrite repeat_grid. unfold grid, cube. apply flat_map_ext_in. intros i _.
  rewrite <- repeat_grid. unfold tab. clear. generalize (b * c). intros q.
  rewrite <- (map_const _ _) || idtac.
  induction q as [|q IH] using nat_ind; simpl; auto. f_equal. rewrite <- seq_shift, map_map. exact IH.
Qed.

(** compute_H1 / reverse_H1 *)
Lemma compute_H1_ok Mb M H1 : length Mb = n * (LMs * K) -> nread n Mb LMs K M ->
  compute_H1 m n Mb H1 = Some (cube n LMs K (mulH1 m M)).
Proof.
  intros Lm HM. unfold compute_H1. pose proof (mw_K _ W) as HK. pose proof (mw_H1 _ W) as Hw.
  apply (swr_all (n * (LMs * K)) (for_ n _)); [|rewrite length_resize; auto].
  apply swr_for_const with (sz := LMs * K); auto. intros i Hi. cbn [plus].
  apply (swr_l _ _ (m_L_max m + 1) K); [|reflexivity]. intros l Hl.
  eapply swr_eq; [| |apply (dgemm_nn_swr (2 * l + 1) K K Mb ((i * LMs + l * l) * K) K (m_H1_weights m) (l * K * K) K
     ((i * LMs + l * l) * K) (fun mm p => M i (l * l + mm) p) (fun p k => WH1 m (l * K * K + (p * K + k))))]; auto.
  - lia.
  - apply flat_map_ext_in. intros mm Hmm. apply in_seq in Hmm. apply tab_ext. intros k Hk.
    unfold mulH1. rewrite sqrt_lm by lia. reflexivity.
  - intros mm p Hmm Hp. apply (HM i (l * l + mm) p); auto; unfold num_LM; nia.
  - intros p k Hp Hk. apply rd_some. nia.
Qed.

Lemma reverse_H1_ok Mb Hb Ha M0a : length Mb = n * (LMs * K) -> nread n Hb LMs K Ha ->
  reverse_H1 m n Mb Hb M0a = Some (cube n LMs K (mulH1T m Ha)).
Proof.
  intros Lm HM. unfold reverse_H1. pose proof (mw_K _ W) as HK. pose proof (mw_H1 _ W) as Hw.
  apply (swr_all (n * (LMs * K)) (for_ n _)); [|rewrite length_resize; auto].
  apply swr_for_const with (sz := LMs * K); auto. intros i Hi. cbn [plus].
  apply (swr_l _ _ (m_L_max m + 1) K); [|reflexivity]. intros l Hl.
  eapply swr_eq; [| |apply (dgemm_nt_swr (2 * l + 1) K K Hb ((i * LMs + l * l) * K) K (m_H1_weights m) (l * K * K) K
     ((i * LMs + l * l) * K) (fun mm p => Ha i (l * l + mm) p) (fun p k => WH1 m (l * K * K + (p * K + k))))]; auto.
  - lia.
  - apply flat_map_ext_in. intros mm Hmm. apply in_seq in Hmm. apply tab_ext. intros k Hk.
    unfold mulH1T. rewrite sqrt_lm by lia. reflexivity.
  - intros mm p Hmm Hp. apply (HM i (l * l + mm) p); auto; unfold num_LM; nia.
  - intros p k Hp Hk. apply rd_some. nia.
Qed.

(** reverse_M0 *)
Lemma reverse_M0_ok Ab Mab Ma Mg (g : nat -> nat -> nat -> nat -> N) A0a :
  length Ab = n * (lms * K) -> nread n Mab LMs K Ma ->
  (forall i L lm k, i < n -> L < LMs -> lm < lms -> k < K -> rd Mg (gix m i L lm k) = Some (g i L lm k)) ->
  reverse_M0 m n Ab Mab Mg A0a = Some (cube n lms K (rm0 m g Ma)).
Proof.
  intros La HM Hg. unfold reverse_M0.
  rewrite (fill_len _ (n * (lms * K))) by (rewrite length_resize; auto). rewrite repeat_cube.
  apply (sseg_all (for_ n _)). unfold cube.
  apply sseg_for_const with (sz := lms * K); [intros; apply length_grid|]. intros i Hi. unfold grid.
  apply sseg_for_const with (sz := K); [intros; apply length_tab|]. intros lm Hlm. cbn [plus].
  split; [rewrite !length_tab; auto|]. intros pre post Hp.
  apply (for_trace (fun q => pre ++ tab K (fun k => nfold (firstn q (seq 0 LMs)) (fun L => nmul (g i L lm k) (Ma i L k)) nzero) ++ post)).
  - reflexivity.
  - rewrite firstn_all2 by (rewrite seq_length; auto). reflexivity.
  - intros L HL. 
    rewrite (for_elementwise (fun k x => nadd x (nmul (g i L lm k) (Ma i L k)))).
    + do 3 f_equal. apply tab_ext. intros k Hk. rewrite (nfold_firstn_S _ _ _ _ _ (nth_error_seq0 _ _ HL)). reflexivity.
    + intros k y x Hk Hr.
      replace (i * LMs * lms * K + (L * lms * K + lm * K) + k) with (gix m i L lm k) by (unfold gix; lia).
      rewrite Hg by auto. cbn [bind].
      rewrite (HM i L k) by (auto; lia). cbn [bind]. unfold addto.
      replace (i * lms * K + lm * K + k) with (length pre + k) by lia. rewrite Hr. reflexivity.
Qed.

(** reverse_M1 *)
Lemma reverse_M1_ok Ab Mab Ma Mg g A1a :
  length Ab = n * (lms * K) -> (forall i k, i < n -> k < K -> rd Mab (i * K + k) = Some (Ma i k)) ->
  nread n Mg lms K g ->
  reverse_M1 m n Ab Mab Mg A1a = Some (cube n lms K (rm1 g Ma)).
Proof.
  intros La HM Hg. unfold reverse_M1.
  apply (swr_all (n * (lms * K)) (for_ n _)); [|rewrite length_resize; auto].
  apply swr_for_const with (sz := lms * K); auto. intros i Hi. cbn [plus]. unfold grid.
  apply swr_for_const with (sz := K); auto. intros lm Hlm. apply swr_tab. intros k a Hk.
  rewrite (Hg i lm k) by (auto; lia). cbn [bind]. rewrite HM by auto. cbn [bind]. unfold rm1. f_equal. lia.
Qed.

(** compute_H2 *)
Lemma compute_H2_ok H1b Mb H M H2 :
  (forall i k, i < n -> k < K -> rd H1b (i * (LMs * K) + k) = Some (H i k)) ->
  (forall i k, i < n -> k < K -> rd Mb (i * K + k) = Some (M i k)) ->
  compute_H2 m n (f_node_types s) H1b Mb H2 = Some (grid n K (h2 m s H M)).
Proof.
  intros HH HM. unfold compute_H2. pose proof (mw_K _ W) as HK.
  apply (swr_all (n * K) (for_ n _)); [|rewrite length_resize; auto].
  apply swr_for_const with (sz := K); auto. intros i Hi. cbn [plus].
  pose proof (Hty i Hi) as Ht. pose proof (mw_HHa _ W). pose proof (mw_HHb _ W _ Ht). pose proof (mw_HM _ W).
  split; [apply length_tab|]. intros pre seg post Hp Hs.
  rewrite rd_ty by auto. cbn [bind]. rewrite (rd_some _ _ []) by lia. cbn [bind].
  destruct (dgemv_t_swr K K (nth (ty s i) (m_H2_weights_for_H1 m) []) K H1b (i * LMs * K) (i * K)
     (fun p j => WHH m (ty s i) (p * K + j)) (fun p => H i p)) as [_ E]; auto.
  { intros p j Hp' Hj. apply rd_some. nia. }
  { intros p Hp'. rewrite <- HH by auto. f_equal. lia. }
  rewrite E by auto. cbn [bind].
  rewrite (dgemv_t_acc K K (m_H2_weights_for_M1 m) K Mb (i * K) (i * K)
     (fun p j => WHM m (p * K + j)) (fun p => M i p)); auto.
  intros p j Hp' Hj. apply rd_some. nia.
Qed.

(** reverse_H2 *)
Definition rH2n (Ha : nat -> nat -> nat -> N) (g2 : nat -> nat -> N) i L k : N :=
  if i <? n then rH2h m s Ha g2 i L k else Ha i L k.

Lemma grid_head a (f : nat -> nat -> N) : grid (S a) K f = tab K (f 0) ++ grid a K (fun i => f (S i)).
Proof. unfold grid. cbn [seq flat_map]. rewrite <- seq_shift, flat_map_map. reflexivity. Qed.

Lemma LMs_S : LMs = S (LMs - 1).
Proof. unfold num_LM. nia. Qed.

Lemma reverse_H2_ok nH H1b Mb Ha H2ab g2 M1a : n <= nH -> length H1b = nH * (LMs * K) -> length Mb = n * K ->
  (forall i k, i < n -> k < K -> rd H2ab (i * K + k) = Some (g2 i k)) ->
  reverse_H2 m n (f_node_types s) false H1b Mb H2ab (cube nH LMs K Ha) M1a =
  Some (cube nH LMs K (rH2n Ha g2), grid n K (rH2m m g2)).
Proof.
  intros HnH L1 LM Hg. unfold reverse_H2. pose proof (mw_K _ W) as HK.
  rewrite (resize_eq _ (cube nH LMs K Ha)) by (rewrite length_cube; auto).
  set (old := resize nzero M1a (length Mb)).
  assert (Lo : length old = length (seq 0 n) * K) by (unfold old; rewrite length_resize, seq_length; auto).
  set (f := fun i => grid LMs K (Ha i)). set (g := fun i => grid LMs K (rH2n Ha g2 i)).
  set (o := fun i => tab K (rH2m m g2 i)).
  apply (for_trace (fun i => (part2 f g (seq 0 nH) i, part o (seq 0 n) old i))).
  - reflexivity.
  - rewrite part2_done; [rewrite <- part_all|]; auto.
    + rewrite Lo. symmetry. apply length_flat_map_const. intros; apply length_tab.
    + rewrite seq_length; auto.
    + intros x Hx. apply in_skipn_seq in Hx. unfold f, g, rH2n. destruct (Nat.ltb_spec x n); [lia|reflexivity].
  - intros i Hi. pose proof (Hty i Hi) as Ht. pose proof (mw_HHa _ W). pose proof (mw_HHb _ W _ Ht). pose proof (mw_HM _ W).
    rewrite rd_ty by auto. cbn [bind]. rewrite (rd_some _ _ []) by lia. cbn [bind].
    rewrite (part2_ok f g nH i (LMs * K) (fun y => dgemv_n true K K (nth (ty s i) (m_H2_weights_for_H1 m) []) K H2ab (i * K) y
        (i * LMs * K))); [|lia|intros; apply length_grid|].
    + cbn [bind]. rewrite (part_step_const o (seq 0 n) old i i K
        (fun y => dgemv_n false K K (m_H2_weights_for_M1 m) K H2ab (i * K) y (i * K))); auto.
      * intros; apply length_tab.
      * apply nth_error_seq0; auto.
      * rewrite Lo. symmetry. apply length_flat_map_const. intros; apply length_tab.
      * apply (dgemv_n_swr K K (m_H2_weights_for_M1 m) K H2ab (i * K) (i * K)
          (fun p j => WHM m (p * K + j)) (fun p => g2 i p)); auto.
        intros p j Hp' Hj. apply rd_some. nia.
    + split; [unfold f, g; rewrite !length_grid; auto|]. intros pre post Hp. unfold f, g. rewrite LMs_S, !grid_head.
      rewrite <- !app_assoc. replace (i * S (LMs - 1) * K) with (i * (LMs * K)) by (rewrite <- LMs_S; lia).
      rewrite (dgemv_n_acc K K (nth (ty s i) (m_H2_weights_for_H1 m) []) K H2ab (i * K) (i * (LMs * K))
         (fun p j => WHH m (ty s i) (p * K + j)) (fun p => g2 i p)); auto.
      * do 2 f_equal. f_equal.
        { apply tab_ext. intros k Hk. unfold rH2n, rH2h. destruct (Nat.ltb_spec i n); [|lia]. reflexivity. }
        f_equal. apply grid_ext. intros L k HL Hk. unfold rH2n, rH2h.
        destruct (Nat.ltb_spec i n); [|lia]. reflexivity.
      * intros p j Hp' Hj. apply rd_some. nia.
Qed.

(** compute_readouts; [fe]/[fg] are value and gradient of the second readout, [live] its states *)
Variable live : @mlp N -> Prop.
Variable fe : list N -> N.
Variable fg : list N -> nat -> N.
Definition ro_ok : Prop := forall r x, live r -> length x = K ->
  exists r' f g, mlp_evaluate_gradient r x = Some (r', (f, g)) /\ rd f 0 = Some (fe x) /\
    (forall k, k < K -> rd g k = Some (fg x k)) /\ live r'.
Definition en (E : nat -> N) (H H2 : nat -> nat -> N) i : N :=
  nadd (nfold (seq 0 K) (fun k => nmul (at_ (m_readout_1_weights m) k) (H i k))
          (nadd (E i) (at_ (m_atomic_energies m) (ty s i)))) (fe (tab K (H2 i))).
Definition ra1 i L k : N := if (i <? n) && (L =? 0) then at_ (m_readout_1_weights m) k else nzero.

Lemma compute_readouts_ok nH H1b H2f r E H1a H2a H : ro_ok -> live r -> n <= nH -> length H1b = nH * (LMs * K) ->
  (forall i k, i < n -> k < K -> rd H1b (i * (LMs * K) + k) = Some (H i k)) ->
  exists r', compute_readouts m n (f_node_types s) H1b (grid n K H2f) r (tab n E) H1a H2a =
    Some (r', tab n (en E H H2f), cube nH LMs K ra1, grid n K (fun i => fg (tab K (H2f i)))) /\ live r'.
Proof.
  intros RO Hr HnH L1 HH. unfold compute_readouts. pose proof (mw_K _ W) as HK.
  rewrite (resize_eq _ (tab n E)) by apply length_tab.
  rewrite (fill_len _ (nH * (LMs * K))) by (rewrite length_resize; auto). rewrite repeat_cube.
  set (old := resize nzero H2a (length (grid n K H2f))).
  assert (Lo : length old = length (seq 0 n) * K) by (unfold old; rewrite length_resize, length_grid, seq_length; auto).
  set (o := fun i => tab K (fg (tab K (H2f i)))).
  set (en' := en E H H2f).
  set (ne := fun i i' => if i' <? i then en' i' else E i').
  set (ha := fun i i' L k => if (i' <? i) && (L =? 0) then at_ (m_readout_1_weights m) k else nzero).
  match goal with |- context [for_ n ?body ?st] =>
    destruct (for_inv (fun i '(r, n0, ha0, h2) => live r /\ n0 = tab n (ne i) /\ ha0 = cube nH LMs K (ha i) /\
       h2 = part o (seq 0 n) old i) n body st) as (st' & Es & Hs) end.
  - repeat split; auto. 
  - intros i [[[r1 n1] h1] g1] Hi (Hl & -> & -> & ->).
    pose proof (Hty i Hi) as Ht. pose proof (mw_E0 _ W). pose proof (mw_r1 _ W).
    rewrite rd_ty by auto. cbn [bind]. rewrite (rd_some _ _ nzero) by lia. cbn [bind].
    fold (at_ (m_atomic_energies m) (ty s i)).
    unfold addto at 1. rewrite rd_tab by auto. cbn [bind]. rewrite wr_tab by auto. cbn [bind].
    set (e1 := nadd (ne i i) (at_ (m_atomic_energies m) (ty s i))).
    set (nk := fun q i' => if i' =? i then nfold (firstn q (seq 0 K)) (fun k => nmul (at_ (m_readout_1_weights m) k) (H i k)) e1
                           else ne i i').
    set (hk := fun q i' L k => if (i' =? i) && (L =? 0) && (k <? q) then at_ (m_readout_1_weights m) k else ha i i' L k).
    match goal with |- context [for_ K ?body (?a, ?b)] =>
      assert (E1 : for_ K body (a, b) = Some (tab n (nk K), cube nH LMs K (hk K))) end.
    { apply (for_trace (fun q => (tab n (nk q), cube nH LMs K (hk q)))).
      - f_equal; [apply cube_ext]; intros; unfold hk, nk; cbn [firstn nfold fold_left]; auto.
        rewrite andb_false_r. reflexivity.
      - reflexivity.
      - intros k Hk. rewrite (rd_some (m_readout_1_weights m) k nzero) by lia. cbn [bind].
        replace (i * LMs * K + k) with (i * (LMs * K) + k) by lia. rewrite HH by auto. cbn [bind].
        unfold addto. rewrite rd_tab by auto. cbn [bind]. rewrite wr_tab by auto. cbn [bind].
        rewrite (wr_cube nH LMs K _ i 0 k) by (try lia; rewrite LMs_S; lia). cbn [bind]. do 2 f_equal.
        + apply tab_ext. intros i' Hi'. unfold nk. rewrite Nat.eqb_refl.
          destruct (Nat.eqb_spec i' i); auto.
          rewrite (nfold_firstn_S _ _ _ _ _ (nth_error_seq0 _ _ Hk)). reflexivity.
        + apply cube_ext. intros i' L k' Hi' HL Hk'. unfold hk.
          destruct (Nat.eqb_spec i' i); destruct (Nat.eqb_spec L 0); cbn [andb]; auto.
          destruct (Nat.eqb_spec k' k); destruct (Nat.ltb_spec k' k); destruct (Nat.ltb_spec k' (S k)); try lia; auto.
          subst k'. reflexivity. }
    rewrite E1. cbn [bind]. rewrite length_grid.
    assert (Hb : (i + 1) * K <= n * K) by nia.
    apply Nat.leb_le in Hb. rewrite Hb.
    assert (Ex : firstn K (skipn (i * K) (grid n K H2f)) = tab K (H2f i)).
    { apply list_eq_nth with (d := nzero).
      - rewrite firstn_length, skipn_length, length_grid, length_tab. apply Nat.leb_le in Hb. nia.
      - intros p Hp. rewrite firstn_length, skipn_length, length_grid in Hp.
        assert (p < K) by lia. rewrite nth_tab by auto. rewrite nth_firstn_lt by auto.
        rewrite nth_skipn'. apply nth_grid; auto. }
    rewrite Ex. destruct (RO r1 (tab K (H2f i)) Hl (length_tab _ _)) as (r' & f & g & Eg & Hf & Hg & Hl').
    rewrite Eg. cbn [bind]. rewrite Hf. cbn [bind].
    unfold addto. rewrite rd_tab by auto. cbn [bind]. rewrite wr_tab by auto. cbn [bind].
    rewrite (part_step_const o (seq 0 n) old i i K).
    + cbn [bind]. eexists. split; [reflexivity|]. repeat split; auto.
      * apply tab_ext. intros i' Hi'. unfold nk, ne. rewrite Nat.eqb_refl.
        destruct (Nat.eqb_spec i' i); destruct (Nat.ltb_spec i' i); destruct (Nat.ltb_spec i' (S i)); try lia; auto.
        subst i'. unfold en', en.
        assert (Ee : e1 = nadd (E i) (at_ (m_atomic_energies m) (ty s i))).
        { unfold e1, ne. destruct (Nat.ltb_spec i i); [lia|reflexivity]. }
        rewrite Ee. rewrite firstn_all2 by (rewrite seq_length; auto). reflexivity.
      * apply cube_ext. intros i' L k Hi' HL Hk. unfold hk, ha.
        destruct (Nat.eqb_spec i' i); destruct (Nat.ltb_spec i' i); destruct (Nat.ltb_spec i' (S i)); try lia; auto.
        destruct (Nat.eqb_spec L 0); destruct (Nat.ltb_spec k K); try lia; auto.
    + intros; apply length_tab.
    + apply nth_error_seq0; auto.
    + rewrite Lo. symmetry. apply length_flat_map_const. intros; apply length_tab.
    + unfold o. apply swr_tab. intros k a Hk. rewrite Hg by auto. reflexivity.
  - destruct st' as [[[r1 n1] h1] g1]. destruct Hs as (Hl & -> & -> & ->). exists r1. split; auto.
    rewrite Es. f_equal. rewrite <- part_all.
    + replace (tab n (ne n)) with (tab n en'); [reflexivity|].
      apply tab_ext. intros i Hi. unfold ne. destruct (Nat.ltb_spec i n); [reflexivity|lia].
    + rewrite Lo. symmetry. apply length_flat_map_const. intros; apply length_tab.
    + rewrite seq_length. reflexivity.
Qed.
End S6.
