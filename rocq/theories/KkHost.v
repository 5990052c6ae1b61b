(** Sequences of host commands; views; the lists first_neigh and i_list.  Used in proofs only. *)
From Coq Require Import List Arith ZArith Bool Lia Reals Lra FunctionalExtensionality.
From Verif Require Import Base BaseLemmas Segs Instances RSums MaceModel Sys SysLoops MacePure MaceStages1.
From Verif Require Import KkSem KkSound KkWp KkWp2 KkModel.
Import ListNotations.
Local Open Scope R_scope.

Definition top : perms := fun _ => POwn.

(** every execution of [l] from [m] ends in the same memory, which satisfies [Q]: see [hok_exec] *)
Fixpoint hok (l : list (hcmd RNum)) (m : rmem) (Q : rmem -> Prop) : Prop :=
  match l with
  | [] => Q m
  | HOp f :: l => match f m with Some m1 => hok l m1 Q | None => False end
  | HRun p :: l => wp top p m (fun _ m1 => hok l m1 Q)
  end.
Arguments hok : simpl never.
Lemma hok_nil m (Q : rmem -> Prop) : Q m -> hok [] m Q.
Proof. auto. Qed.
Lemma hok_op f l m m1 Q : f m = Some m1 -> hok l m1 Q -> hok (HOp f :: l) m Q.
Proof. intros E H. change (match f m with Some m1 => hok l m1 Q | None => False end). rewrite E. auto. Qed.
Lemma hok_hop f l m Q : hok l (f m) Q -> hok (hop f :: l) m Q.
Proof. apply hok_op. reflexivity. Qed.
Lemma hok_run p l m Q : wp top p m (fun _ m1 => hok l m1 Q) -> hok (HRun p :: l) m Q.
Proof. auto. Qed.
Lemma hok_op_inv f l m Q : hok (HOp f :: l) m Q -> exists m1, f m = Some m1 /\ hok l m1 Q.
Proof. intros H. change (match f m with Some m1 => hok l m1 Q | None => False end) in H. destruct (f m) as [m1|]; [eauto|contradiction]. Qed.
Lemma hok_run_inv p l m Q : hok (HRun p :: l) m Q -> wp top p m (fun _ m1 => hok l m1 Q).
Proof. auto. Qed.
Lemma hok_exec l : forall m Q, hok l m Q -> exists m', (forall o, hexec l m o <-> o = Some m') /\ Q m'.
Proof.
  induction l as [|[f|p] l IH]; intros m Q HH.
  - exists m. split; auto. intros o. split; [intros E; inv E; auto|intros ->; constructor].
  - apply hok_op_inv in HH as (m1 & E & HH). destruct (IH _ _ HH) as (m' & H & HQ). exists m'. split; auto. intros o. rewrite <- H. split; intros X.
    + inv X; congruence.
    + econstructor; eauto.
  - apply hok_run_inv in HH as (a & m1 & R & HH). destruct (IH _ _ HH) as (m' & H & HQ). destruct a. exists m'. split; auto. intros o. split.
    + intros X. inv X.
      * match goal with S : steps _ _ _ _ _ |- _ => destruct (adequacy _ _ _ _ _ _ R _ _ S) as [_ E] end.
        destruct (E tt eq_refl) as [_ E2]. apply meq_eq in E2. subst. apply H. auto.
      * match goal with S : steps _ _ _ _ _ |- _ => destruct (adequacy _ _ _ _ _ _ R _ _ S) as [E _] end. contradiction.
    + intros ->. eapply hexec_run; [eapply run_exec; eauto|]. apply H. auto.
Qed.
Lemma hok_conseq l : forall m (Q Q' : rmem -> Prop), hok l m Q -> (forall m', Q m' -> Q' m') -> hok l m Q'.
Proof.
  induction l as [|[f|p] l IH]; intros m Q Q' H L.
  - exact (L m H).
  - apply hok_op_inv in H as (m1 & E & H). eapply hok_op; eauto.
  - apply hok_run_inv in H. apply hok_run. eapply wp_conseq; [exact H|]. cbn beta. intros _ m1 H1. eapply IH; eauto.
Qed.
Lemma hok_app l1 : forall l2 m Q, hok l1 m (fun m1 => hok l2 m1 Q) -> hok (l1 ++ l2) m Q.
Proof.
  induction l1 as [|[f|p] l1 IH]; intros l2 m Q H; cbn [app].
  - exact H.
  - apply hok_op_inv in H as (m1 & E & H). eapply hok_op; eauto.
  - apply hok_run_inv in H. apply hok_run. eapply wp_conseq; [exact H|]. cbn beta. intros _ m1 H1. apply IH. exact H1.
Qed.
Lemma hok_app_inv l1 : forall l2 m Q, hok (l1 ++ l2) m Q -> hok l1 m (fun m1 => hok l2 m1 Q).
Proof.
  induction l1 as [|[f|p] l1 IH]; intros l2 m Q H; cbn [app] in H.
  - exact H.
  - apply hok_op_inv in H as (m1 & E & H). eapply hok_op; eauto.
  - apply hok_run_inv in H. apply hok_run. eapply wp_conseq; [exact H|]. cbn beta. intros _ m1 H1. apply IH. exact H1.
Qed.

(** two parts with one outcome each *)
Lemma hexec_app (l1 l2 : list (hcmd RNum)) : forall m o, hexec (l1 ++ l2) m o <->
  (exists m1, hexec l1 m (Some m1) /\ hexec l2 m1 o) \/ (o = None /\ hexec l1 m None).
Proof.
  induction l1 as [|c l1 IH]; intros m o; cbn [app].
  - split; [intros H; left; exists m; split; auto; constructor|]. intros [(m1 & H1 & H2)|[-> H]]; [inv H1; auto|inv H].
  - split.
    + intros H. inv H.
      * match goal with X : hexec (l1 ++ l2) _ _ |- _ => apply IH in X; rename X into H5 end. destruct H5 as [(m2 & U1 & U2)|[-> U2]]; [left; exists m2; split; auto; econstructor; eauto|right; split; auto; econstructor; eauto].
      * right. split; auto. apply hexec_op_ub; auto.
      * match goal with X : hexec (l1 ++ l2) _ _ |- _ => apply IH in X; rename X into H5 end. destruct H5 as [(m2 & U1 & U2)|[-> U2]]; [left; exists m2; split; auto; eapply hexec_run; eauto|right; split; auto; eapply hexec_run; eauto].
      * right. split; auto. eapply hexec_run_ub; eauto.
    + intros [(m1 & U1 & U2)|[-> U]].
      * inv U1; [eapply hexec_op; eauto; apply IH; eauto|eapply hexec_run; eauto; apply IH; eauto].
      * inv U; [eapply hexec_op; eauto; apply IH; auto|apply hexec_op_ub; auto|eapply hexec_run; eauto; apply IH; auto|eapply hexec_run_ub; eauto].
Qed.
Lemma exec_app (l1 l2 : list (hcmd RNum)) m m1 m2 : (forall o, hexec l1 m o <-> o = Some m1) -> (forall o, hexec l2 m1 o <-> o = Some m2) ->
  forall o, hexec (l1 ++ l2) m o <-> o = Some m2.
Proof.
  intros H1 H2 o. rewrite hexec_app. split.
  - intros [(m1' & A & B)|[-> A]].
    + apply H1 in A. injection A as ->. apply H2. auto.
    + apply H1 in A. discriminate.
  - intros ->. left. exists m1. split; [apply H1; auto|apply H2; auto].
Qed.
Lemma exec_hop f (l : list (hcmd RNum)) m m2 : (forall o, hexec l (f m) o <-> o = Some m2) -> forall o, hexec (hop f :: l) m o <-> o = Some m2.
Proof.
  intros H o. split.
  - intros X. inv X; [|discriminate]. match goal with E : Some _ = Some _ |- _ => injection E as <- end. apply H. auto.
  - intros ->. eapply hexec_op; [reflexivity|]. apply H. auto.
Qed.

(** ** views *)
Fixpoint inP (ds idx : list nat) : Prop :=
  match ds, idx with
  | [], [] => True
  | d :: ds', i :: idx' => (i < d)%nat /\ inP ds' idx'
  | _, _ => False
  end.
Lemma inP_inb ds : forall idx, inP ds idx -> inb ds idx = true.
Proof.
  induction ds as [|d ds IH]; intros [|i idx] H; cbn [inP inb] in *; try contradiction; auto.
  destruct H as [H1 H2]. rewrite IH by auto. rewrite (proj2 (Nat.ltb_lt i d) H1). reflexivity.
Qed.
(** the view covers the box [ds] *)
Definition cov (m : rmem) (b : buf) (ds : list nat) : Prop := forall idx, inP ds idx -> alloc m (b, idx) = true.
Lemma cov_dims m m' b ds : dims m' b = dims m b -> cov m b ds -> cov m' b ds.
Proof. intros E H idx Hi. specialize (H idx Hi). unfold alloc in *. cbn [fst snd] in *. destruct b; auto; rewrite E; auto. Qed.
Lemma cov_ext m b e ds n : dims m b = e :: ds -> (n <= e)%nat -> cov m b (n :: ds).
Proof.
  intros E H [|i idx] Hi; cbn in Hi; [contradiction|]. destruct Hi as [H1 H2].
  unfold alloc. cbn [fst snd]. assert (inb (dims m b) (i :: idx) = true).
  { rewrite E. apply inP_inb. cbn. split; auto. lia. }
  destruct b; auto.
Qed.

(** the state of one view *)
Definition st (m : rmem) (b : buf) : list nat * (list nat -> R) := (dims m b, fun idx => va m (b, idx)).
Lemma st_dims m m' b : st m' b = st m b -> dims m' b = dims m b.
Proof. intros H. apply (f_equal fst) in H. exact H. Qed.
Lemma st_va m m' b idx : st m' b = st m b -> va m' (b, idx) = va m (b, idx).
Proof. intros H. apply (f_equal snd) in H. cbn in H. apply (f_equal (fun f => f idx)) in H. exact H. Qed.
Lemma st_eq m m' b : dims m' b = dims m b -> (forall idx, va m' (b, idx) = va m (b, idx)) -> st m' b = st m b.
Proof. intros D V. unfold st. rewrite D. f_equal. extensionality idx. auto. Qed.
Lemma st_store m b idx v b' : b <> b' -> st (store m (b, idx) v) b' = st m b'.
Proof. intros H. apply st_eq; auto. intros i. apply va_store_ne. congruence. Qed.

(** effect of a kernel: only the views in [outs] change, and only their contents *)
Definition keep (outs : buf -> bool) (m m' : rmem) : Prop :=
  dims m' = dims m /\ forall b idx, outs b = false -> va m' (b, idx) = va m (b, idx).
Lemma keep_st outs m m' b : keep outs m m' -> outs b = false -> st m' b = st m b.
Proof. intros [D V] H. apply st_eq; auto. rewrite D. auto. Qed.

Lemma st_set_view m b ext v b' : st (set_view m b ext v) b' = if buf_dec b b' then (ext, v) else st m b'.
Proof.
  unfold st, set_view, va. cbn [dims KkSem.val fst snd]. destruct (buf_dec b b'); auto.
Qed.
Lemma st_realloc m b ext b' : st (realloc b ext m) b' = if buf_dec b b' then (ext, fun _ => 0) else st m b'.
Proof. apply st_set_view. Qed.
Lemma st_fill m b v b' : st (fill_view b v m) b' = if buf_dec b b' then (dims m b, fun _ => v) else st m b'.
Proof. apply st_set_view. Qed.

(** ** edges *)
Section Edges.
Variable s : sys RNum.
Notation n := (length s).
Notation nE := (length (epairs s)).
Definition dE : edge RNum := mkEdge 0 0 (0 : R) (0 : R) (0 : R) (0 : R).
Definition ow (q : nat) : nat := fst (nth q (epairs s) (0%nat, dE)).
Definition eg (q : nat) : edge RNum := snd (nth q (epairs s) (0%nat, dE)).
Lemma ep_split q : (q < nE)%nat -> nth_error (epairs s) q = Some (ow q, eg q).
Proof.
  intros H. unfold ow, eg. rewrite (nth_error_nth' (epairs s) (0%nat, dE) H). rewrite <- surjective_pairing. reflexivity.
Qed.
Lemma ep_at i j : (i < n)%nat -> (j < length (es s i))%nat ->
  nth_error (epairs s) (eo s i + j) = Some (i, nth j (es s i) dE).
Proof. intros Hi Hj. apply nth_epairs; auto. apply nth_error_nth'. auto. Qed.
Lemma ow_at i j : (i < n)%nat -> (j < length (es s i))%nat -> ow (eo s i + j) = i.
Proof. intros Hi Hj. unfold ow. erewrite nth_error_nth by (apply ep_at; auto). reflexivity. Qed.
Lemma eg_at i j : (i < n)%nat -> (j < length (es s i))%nat -> eg (eo s i + j) = nth j (es s i) dE.
Proof. intros Hi Hj. unfold eg. erewrite nth_error_nth by (apply ep_at; auto). reflexivity. Qed.
Lemma q_lt i j : (i < n)%nat -> (j < length (es s i))%nat -> (eo s i + j < nE)%nat.
Proof. intros Hi Hj. apply nth_error_Some. rewrite ep_at by auto. discriminate. Qed.
Lemma ow_lt q : (q < nE)%nat -> (ow q < n)%nat.
Proof. intros H. apply (in_epairs s (ow q) (eg q)). eapply nth_error_In. apply ep_split. auto. Qed.
Lemma eg_in q : (q < nE)%nat -> In (eg q) (es s (ow q)).
Proof. intros H. apply (in_epairs s (ow q) (eg q)). eapply nth_error_In. apply ep_split. auto. Qed.
Lemma es_in i j : (j < length (es s i))%nat -> In (nth j (es s i) dE) (es s i).
Proof. apply nth_In. Qed.
Lemma q_split_aux i q : (i <= n)%nat -> (q < eo s i)%nat -> exists i' j, (i' < i)%nat /\ (j < length (es s i'))%nat /\ q = (eo s i' + j)%nat.
Proof.
  induction i as [|i IH]; intros Hi Hq; [rewrite eo_0 in Hq; lia|].
  rewrite eo_S' in Hq by lia. destruct (lt_dec q (eo s i)) as [H|H].
  - destruct (IH ltac:(lia) H) as (i' & j & A & B & C). exists i', j. auto with arith.
  - exists i, (q - eo s i)%nat. repeat split; lia.
Qed.
Lemma q_split q : (q < nE)%nat -> exists i j, (i < n)%nat /\ (j < length (es s i))%nat /\ q = (eo s i + j)%nat.
Proof. intros H. apply q_split_aux; auto. rewrite eo_n. auto. Qed.

Lemma first_neigh_ok : first_neigh n (f_num_neigh s) = Some (tab n (eo s)).
Proof.
  unfold first_neigh.
  erewrite (for_trace (fun i => (tab i (eo s), eo s i)) n); [| |reflexivity|].
  - reflexivity.
  - rewrite eo_0. reflexivity.
  - intros i Hi. rewrite rd_nn by auto. cbn [bind]. rewrite eo_S' by auto. f_equal. f_equal.
    unfold tab. rewrite seq_S, map_app. reflexivity.
Qed.
Lemma rd_fn i : (i < n)%nat -> rd (tab n (eo s)) i = Some (eo s i).
Proof. intros H. rewrite rd_tab; auto. Qed.
Lemma i_list_ok : i_list n (f_num_neigh s) nE = Some (tab nE ow).
Proof.
  unfold i_list. rewrite first_neigh_ok. cbn [bind].
  set (F := fun c => tab nE (fun q => if (q <? c)%nat then ow q else 0%nat)).
  erewrite (for_trace (fun i => F (eo s i)) n); [| |reflexivity|].
  - f_equal. unfold F. apply tab_ext. intros q Hq. rewrite eo_n. rewrite (proj2 (Nat.ltb_lt q nE)); auto.
  - unfold F. rewrite eo_0. apply list_eq_nth with (d := 0%nat); rewrite ?repeat_length, ?length_tab; auto.
    intros q Hq. rewrite nth_repeat, nth_tab by auto. reflexivity.
  - intros i Hi. rewrite rd_fn, rd_nn by auto. cbn [bind].
    erewrite (for_trace (fun j => (F (eo s i + j)%nat, (eo s i + j)%nat)) (length (es s i))); [| |reflexivity|].
    + cbn [bind]. rewrite eo_S' by auto. reflexivity.
    + rewrite Nat.add_0_r. reflexivity.
    + intros j Hj. pose proof (q_lt i j Hi Hj) as Hq.
      rewrite wr_some by (unfold F; rewrite length_tab; auto). cbn [bind]. f_equal.
      replace (eo s i + S j)%nat with (eo s i + j + 1)%nat by lia. f_equal.
      unfold F. apply list_eq_nth with (d := 0%nat); rewrite ?length_upd, ?length_tab; auto.
      intros q Hq'. rewrite nth_upd by (rewrite length_tab; auto). rewrite !nth_tab by auto.
      rewrite (Nat.eqb_sym (eo s i + j) q). destruct (Nat.eq_dec q (eo s i + j)) as [->|Hne].
      * rewrite Nat.eqb_refl. rewrite (proj2 (Nat.ltb_lt _ _)) by lia. rewrite ow_at by auto. reflexivity.
      * rewrite (proj2 (Nat.eqb_neq _ _)) by auto.
        destruct (Nat.ltb_spec q (eo s i + j)), (Nat.ltb_spec q (eo s i + j + 1)); auto; lia.
Qed.
Lemma rd_il q : (q < nE)%nat -> rd (tab nE ow) q = Some (ow q).
Proof. intros H. rewrite rd_tab; auto. Qed.

(** sums over the edges of a node *)
Lemma nfold_es i (g : edge RNum -> R) (a : R) :
  nfold (N:=RNum) (es s i) g a = a + rsum (length (es s i)) (fun j => g (nth j (es s i) dE)).
Proof.
  generalize (es s i). intros l. induction l as [|x l IH] using rev_ind.
  - cbn. ring.
  - rewrite nfold_snoc, IH, app_length. cbn [length]. rewrite Nat.add_1_r, rsum_S.
    rewrite app_nth2, Nat.sub_diag by lia. cbn [nth]. change (@nadd RNum) with Rplus.
    rewrite (rsum_ext (length l) (fun j => g (nth j (l ++ [x]) dE)) (fun j => g (nth j l dE))); [match goal with |- @eq _ ?a ?b => change (@eq R a b) end; ring|].
    intros j Hj. rewrite app_nth1 by auto. reflexivity.
Qed.
End Edges.
