(** The adjoint of the first-layer features as a sum over the edges pointing to a node. *)
From Coq Require Import List Arith ZArith Lia Bool.
From Verif Require Import Base BaseLemmas Segs MpModel MlpModel MaceModel Sys SysLoops MaceGrid
  MacePure MaceStages1 MaceStages7 MaceStages8 MacePipe.
Import ListNotations.

Lemma fold_cond {N : Num} (P : nat * N -> bool) L (a : N) :
  fold_left (fun acc q => if P q then nadd acc (snd q) else acc) L a = nfold (filter P L) snd a.
Proof. revert a; induction L as [|q L IH]; intros a; simpl; [reflexivity|]. destruct (P q); simpl; apply IH. Qed.

Lemma filter_flat_map {A B} (P : B -> bool) (g : A -> list B) l : filter P (flat_map g l) = flat_map (fun x => filter P (g x)) l.
Proof. induction l as [|x l IH]; simpl; [reflexivity|]. rewrite filter_app, IH. reflexivity. Qed.
Lemma filter_map {A B} (P : B -> bool) (g : A -> B) l : filter P (map g l) = map g (filter (fun x => P (g x)) l).
Proof. induction l as [|x l IH]; simpl; [reflexivity|]. destruct (P (g x)); simpl; rewrite IH; reflexivity. Qed.
Lemma filter_seq_eq n k : k < n -> filter (fun x => x =? k) (seq 0 n) = [k].
Proof.
  intros H. assert (G : forall a n, filter (fun x => x =? k) (seq a n) = if (a <=? k) && (k <? a + n) then [k] else []).
  { clear n H. intros a n; revert a; induction n as [|n IH]; intros a.
    - simpl. destruct (Nat.leb_spec a k), (Nat.ltb_spec k (a + 0)); simpl; auto; lia.
    - cbn [seq filter]. rewrite IH. destruct (Nat.eqb_spec a k); destruct (Nat.leb_spec a k), (Nat.leb_spec (S a) k),
        (Nat.ltb_spec k (a + S n)), (Nat.ltb_spec k (S a + n)); simpl; subst; auto; lia. }
  rewrite G. destruct (Nat.leb_spec 0 k), (Nat.ltb_spec k (0 + n)); simpl; auto; lia.
Qed.
Lemma flat_map_filter_const {A B} (P : A -> bool) (g : A -> list B) l :
  flat_map (fun x => if P x then g x else []) l = flat_map g (filter P l).
Proof. induction l as [|x l IH]; simpl; [reflexivity|]. destruct (P x); simpl; rewrite IH; reflexivity. Qed.
Lemma filter_ext_in' {A} (P Q : A -> bool) l : (forall x, In x l -> P x = Q x) -> filter P l = filter Q l.
Proof. intros H. induction l as [|x l IH]; simpl; [auto|]. rewrite (H x) by (simpl; auto). rewrite IH; auto. intros; apply H; simpl; auto. Qed.

Lemma map_flat_single' {A B} (g : A -> B) l : flat_map (fun x => [g x]) l = map g l.
Proof. induction l; simpl; f_equal; auto. Qed.

Section H.
Context {N : Num}.
Variable m : mace_model N.
Hypothesis W : mace_wf m.
Variable s : sys N.
Notation n := (length s).
Notation K := (m_num_channels m).
Notation LMs := (num_LM m).
Notation NPs := (length (paths m)).
Variable nH : nat.
Hypothesis Hix : forall i e, i < n -> In e (es s i) -> e_idx e < nH.

Definition csel (L : nat) : list nat := filter (fun c => plm2 m c =? L) (seq 0 NPs).
Definition hsrc (j L : nat) : list (nat * edge N * nat) :=
  flat_map (fun p => if e_idx (snd p) =? j then map (pair p) (csel L) else []) (epairs s).

Lemma plm2_lt c : c < NPs -> plm2 m c < LMs.
Proof.
  intros Hc. unfold plm2, path. assert (Hin : In (nth c (paths m) (0, 0, 0)) (paths m)) by (apply nth_In; auto).
  unfold paths in Hin at 2. apply in_flat_map in Hin. destruct Hin as (le & Hle & Hin). apply in_seq in Hle.
  unfold paths_at in Hin. apply in_flat_map in Hin. destruct Hin as (lm1 & H1 & Hin). apply in_map_iff in Hin.
  destruct Hin as (lm2 & <- & H2). cbn [snd]. apply in_seq in H2. pose proof (mw_l2_le _ W le ltac:(lia)). unfold num_LM. nia.
Qed.

Lemma plm1_lt c : c < NPs -> plm1 m c < num_lm m.
Proof.
  intros Hc. unfold plm1, path. assert (Hin : In (nth c (paths m) (0, 0, 0)) (paths m)) by (apply nth_In; auto).
  unfold paths in Hin at 2. apply in_flat_map in Hin. destruct Hin as (le & Hle & Hin). apply in_seq in Hle.
  unfold paths_at in Hin. apply in_flat_map in Hin. destruct Hin as (lm1 & H1 & Hin). apply in_map_iff in Hin.
  destruct Hin as (lm2 & <- & H2). cbn [fst snd]. apply in_seq in H1. pose proof (mw_l1_le _ W le ltac:(lia)). unfold num_lm. nia.
Qed.

Lemma ple_lt c : c < NPs -> ple m c < length (m_Phi1_l m).
Proof.
  intros Hc. unfold ple, path. assert (Hin : In (nth c (paths m) (0, 0, 0)) (paths m)) by (apply nth_In; auto).
  unfold paths in Hin at 2. apply in_flat_map in Hin. destruct Hin as (le & Hle & Hin). apply in_seq in Hle.
  unfold paths_at in Hin. apply in_flat_map in Hin. destruct Hin as (lm1 & H1 & Hin). apply in_map_iff in Hin.
  destruct Hin as (lm2 & <- & H2). cbn [fst snd]. lia.
Qed.

Lemma in_pck c k : In (c, k) (pck m) <-> c < NPs /\ k < K.
Proof.
  unfold pck. rewrite in_flat_map. split.
  - intros (c' & Hc & Hin). apply in_map_iff in Hin. destruct Hin as (k' & E & Hk). injection E as <- <-.
    apply in_seq in Hc. apply in_seq in Hk. lia.
  - intros [Hc Hk]. exists c. split; [apply in_seq; lia|]. apply in_map. apply in_seq. lia.
Qed.

Lemma pos_inj j L k j' L' k' : L < LMs -> k < K -> L' < LMs -> k' < K ->
  ((j' * LMs + L') * K + k' =? j * (LMs * K) + (L * K + k)) = ((j' =? j) && (L' =? L) && (k' =? k))%bool.
Proof.
  intros HL Hk HL' Hk'.
  apply eq_true_iff_eq. rewrite !andb_true_iff, !Nat.eqb_eq. split.
  - intros E. assert (E2 : (j' * LMs + L') * K + k' = (j * LMs + L) * K + k) by nia.
    apply MpProofs.idx_inj in E2; try lia. destruct E2 as [E2 E3]. apply MpProofs.idx_inj in E2; lia.
  - intros [[-> ->] ->]. nia.
Qed.

Lemma hadd1_filter Rf Yf dP i (e : edge N) j L k : L < LMs -> k < K ->
  filter (fun q => fst q =? j * (LMs * K) + (L * K + k)) (hadd1 m Rf Yf dP (i, e)) =
  if e_idx e =? j then
    map (fun c => (j * (LMs * K) + (L * K + k), nmul (nmul (Rf i e (ple m c * K + k)) (Yf i e (plm1 m c))) (dP i c k))) (csel L)
  else [].
Proof.
  intros HL Hk. unfold hadd1. rewrite filter_map. unfold pck. rewrite filter_flat_map.
  rewrite (flat_map_ext_in _ (fun c => if (e_idx e =? j) && (plm2 m c =? L) then [(c, k)] else [])).
  - destruct (Nat.eqb_spec (e_idx e) j) as [->|E]; cbn [andb].
    + rewrite flat_map_filter_const. fold (csel L). rewrite map_flat_single', map_map. apply map_ext_in.
      intros c Hc. unfold csel in Hc. apply filter_In in Hc. destruct Hc as [_ Hc]. apply Nat.eqb_eq in Hc. rewrite Hc.
      f_equal. nia.
    + replace (flat_map _ _) with (@nil (nat * nat)); [reflexivity|]. induction (seq 0 NPs); simpl; auto.
  - intros c Hc. apply in_seq in Hc. rewrite filter_map. cbn [fst].
    rewrite (filter_ext_in' _ (fun k' => (e_idx e =? j) && (plm2 m c =? L) && (k' =? k))).
    + destruct ((e_idx e =? j) && (plm2 m c =? L)); cbn [andb].
      * rewrite filter_seq_eq by auto. reflexivity.
      * induction (seq 0 K); simpl; auto.
    + intros k' Hk'. apply in_seq in Hk'. cbn beta iota. cbn [fst]. apply pos_inj; auto; [apply plm2_lt; lia|lia].
Qed.

Lemma hadds_nth (Ha : nat -> nat -> nat -> N) Rf Yf dP j L k : j < nH -> L < LMs -> k < K ->
  at_ (adds (cube nH LMs K Ha) (hadds m s Rf Yf dP)) (j * (LMs * K) + (L * K + k)) =
  nfold (hsrc j L) (fun '(p, c) => nmul (nmul (Rf (fst p) (snd p) (ple m c * K + k)) (Yf (fst p) (snd p) (plm1 m c))) (dP (fst p) c k))
    (Ha j L k).
Proof.
  intros Hj HL Hk. unfold at_. rewrite nth_adds.
  - pose proof (rd_cube nH LMs K Ha j L k _ eq_refl Hj HL Hk) as E. apply rd_nth with (d := nzero) in E. rewrite E.
    rewrite fold_cond. unfold hadds. rewrite filter_flat_map.
    rewrite (flat_map_ext_in _ (fun p => if e_idx (snd p) =? j then
       map (fun c => (j * (LMs * K) + (L * K + k), nmul (nmul (Rf (fst p) (snd p) (ple m c * K + k)) (Yf (fst p) (snd p) (plm1 m c))) (dP (fst p) c k))) (csel L) else [])).
    + unfold hsrc. generalize (Ha j L k) as a. induction (epairs s) as [|[i e] l IH]; intros a; cbn [flat_map]; [reflexivity|].
      rewrite !nfold_app, IH. f_equal. cbn [fst snd]. destruct (e_idx e =? j); [|reflexivity].
      rewrite !nfold_map. reflexivity.
    + intros [i e] _. apply hadd1_filter; auto.
  - intros q Hq. unfold hadds in Hq. apply in_flat_map in Hq. destruct Hq as ([i e] & Hie & Hq).
    apply in_epairs in Hie. destruct Hie as [Hi He]. unfold hadd1 in Hq. apply in_map_iff in Hq.
    destruct Hq as ([c k'] & <- & Hck). apply in_pck in Hck. cbn [fst]. rewrite length_cube.
    pose proof (Hix i e Hi He). pose proof (plm2_lt c ltac:(lia)).
    assert (e_idx e * LMs + plm2 m c < nH * LMs) by nia. nia.
Qed.
End H.
