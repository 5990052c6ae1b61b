(** Energies, forces and virial accumulated at the end of the compute functions of the pair style, over the reals. *)
From Coq Require Import List Arith ZArith Reals Lia Lra Bool.
From Verif Require Import Base BaseLemmas Instances RSums MaceModel MaceGradSpec MaceForces AseGrad PairModel PairThms.
Import ListNotations.
Local Open Scope R_scope.

Definition bump (f : list R) (p : nat) (v : R) : list R := upd f p (nth p f 0 + v).
Lemma length_bump f p v : length (bump f p v) = length f.
Proof. apply length_upd. Qed.
Lemma nth_bump f p v k : (p < length f)%nat -> nth k (bump f p v) 0 = nth k f 0 + v * ind p k.
Proof.
  intros H. unfold bump. rewrite nth_upd by exact H. unfold ind. destruct (Nat.eqb_spec p k) as [->|]; ring.
Qed.
Lemma addto_R (f : list R) p v : (p < length f)%nat -> addto (N:=RNum) f p v = Some (bump f p v).
Proof.
  intros H. unfold addto. rewrite (rd_some f p 0 H : rd (f : list RNum) p = _). cbn [bind]. apply (wr_some f p (nth p f 0 + v)). exact H.
Qed.
Lemma subto_R (f : list R) p v : (p < length f)%nat -> subto (N:=RNum) f p v = Some (bump f p (- v)).
Proof.
  intros H. unfold subto. rewrite (rd_some f p 0 H : rd (f : list RNum) p = _). cbn [bind].
  etransitivity; [apply (wr_some f p (nth p f 0 - v)); exact H|]. reflexivity.
Qed.
Lemma ind3 i a k c : (a < 3)%nat -> (c < 3)%nat -> ind (3 * i + a) (3 * k + c) = ind a c * ind i k.
Proof.
  intros Ha Hc. unfold ind. destruct (Nat.eqb_spec (3 * i + a) (3 * k + c)), (Nat.eqb_spec a c), (Nat.eqb_spec i k); try ring; exfalso; lia.
Qed.

(** the six updates for one edge *)
Definition six (f : list R) (i j : nat) (F0 F1 F2 : R) : list R :=
  bump (bump (bump (bump (bump (bump f (3 * i) (- F0)) (3 * i + 1) (- F1)) (3 * i + 2) (- F2)) (3 * j) F0) (3 * j + 1) F1) (3 * j + 2) F2.
Lemma length_six f i j F0 F1 F2 : length (six f i j F0 F1 F2) = length f.
Proof. unfold six. rewrite !length_bump. reflexivity. Qed.
Lemma nth_six f i j F0 F1 F2 na k c : length f = (3 * na)%nat -> (i < na)%nat -> (j < na)%nat -> (c < 3)%nat ->
  nth (3 * k + c) (six f i j F0 F1 F2) 0 = nth (3 * k + c) f 0 + nth c [F0; F1; F2] 0 * (ind j k - ind i k).
Proof.
  intros Hf Hi Hj Hc. unfold six. rewrite !nth_bump by (rewrite ?length_bump; lia).
  replace (3 * i)%nat with (3 * i + 0)%nat by lia. replace (3 * j)%nat with (3 * j + 0)%nat by lia.
  replace (3 * i + 0 + 1)%nat with (3 * i + 1)%nat by lia. replace (3 * i + 0 + 2)%nat with (3 * i + 2)%nat by lia.
  replace (3 * j + 0 + 1)%nat with (3 * j + 1)%nat by lia. replace (3 * j + 0 + 2)%nat with (3 * j + 2)%nat by lia.
  rewrite !ind3 by lia. destruct c as [|[|[|c]]]; [| | |lia]; unfold ind; cbn [Nat.eqb nth]; ring.
Qed.

Lemma psum_S ns i : (i < length ns)%nat -> list_sum (firstn (S i) ns) = (list_sum (firstn i ns) + nth i ns 0)%nat.
Proof.
  intros H. rewrite (firstn_S_nth _ _ (nth i ns 0%nat)) by (apply nth_error_nth'; lia). rewrite list_sum_app. cbn. lia.
Qed.
Lemma psum_le ns i : (i < length ns)%nat -> (list_sum (firstn i ns) + nth i ns 0 <= list_sum ns)%nat.
Proof. intros H. rewrite <- psum_S by auto. rewrite <- (firstn_skipn (S i) ns) at 2. rewrite list_sum_app. lia. Qed.

(** owner of every edge *)
Definition eow (NI NN : list nat) : list nat := flat_map (fun ii => repeat (nth ii NI 0%nat) (nth ii NN 0%nat)) (seq 0 (length NN)).
Lemma length_eow NI NN : length (eow NI NN) = list_sum NN.
Proof.
  unfold eow. rewrite length_flat_map. rewrite (map_ext _ (fun ii => nth ii NN 0%nat)) by (intros; apply repeat_length).
  rewrite <- (tab_nth NN 0%nat : NN = map _ _). reflexivity.
Qed.
Lemma nth_eow NI NN ii jj : (ii < length NN)%nat -> (jj < nth ii NN 0)%nat ->
  nth (list_sum (firstn ii NN) + jj) (eow NI NN) 0%nat = nth ii NI 0%nat.
Proof.
  intros Hi Hj. apply nth_error_nth. unfold eow.
  replace (list_sum (firstn ii NN)) with (offs (fun ii => repeat (nth ii NI 0%nat) (nth ii NN 0%nat)) (seq 0 (length NN)) ii).
  - rewrite (nth_error_flat_map_offs _ _ ii jj ii); [|rewrite (nth_error_nth' _ 0%nat) by (rewrite seq_length; lia); rewrite seq_nth by lia; reflexivity|rewrite repeat_length; exact Hj].
    clear - Hj. revert jj Hj. generalize (nth ii NN 0%nat) as n. induction n as [|n IH]; intros [|jj] Hj; try lia; [reflexivity|]. cbn. apply IH. lia.
  - clear Hj. induction ii as [|ii IH]; [reflexivity|]. rewrite (offs_S _ _ _ ii), IH by
      (lia || (rewrite (nth_error_nth' _ 0%nat) by (rewrite seq_length; lia); rewrite seq_nth by lia; reflexivity)).
    rewrite repeat_length, psum_S by lia. reflexivity.
Qed.

(** virial after [q] edges *)
Definition vir (v F X : list R) (q : nat) : list R :=
  [nth 0 v 0 + rsum q (fun e => nth (3 * e) X 0 * nth (3 * e) F 0);
   nth 1 v 0 + rsum q (fun e => nth (3 * e + 1) X 0 * nth (3 * e + 1) F 0);
   nth 2 v 0 + rsum q (fun e => nth (3 * e + 2) X 0 * nth (3 * e + 2) F 0);
   nth 3 v 0 + rsum q (fun e => / 2 * (nth (3 * e) X 0 * nth (3 * e + 1) F 0 + nth (3 * e + 1) X 0 * nth (3 * e) F 0));
   nth 4 v 0 + rsum q (fun e => / 2 * (nth (3 * e) X 0 * nth (3 * e + 2) F 0 + nth (3 * e + 2) X 0 * nth (3 * e) F 0));
   nth 5 v 0 + rsum q (fun e => / 2 * (nth (3 * e + 1) X 0 * nth (3 * e + 2) F 0 + nth (3 * e + 2) X 0 * nth (3 * e + 1) F 0))].

(** forces after [q] edges *)
Fixpoint frc (f F : list R) (I J : list nat) (q : nat) : list R :=
  match q with
  | O => f
  | S q => six (frc f F I J q) (nth q I 0%nat) (nth q J 0%nat) (nth (3 * q) F 0) (nth (3 * q + 1) F 0) (nth (3 * q + 2) F 0)
  end.
Lemma length_frc f F I J q : length (frc f F I J q) = length f.
Proof. induction q as [|q IH]; [reflexivity|]. cbn [frc]. rewrite length_six. exact IH. Qed.
Lemma nth_frc f F I J na : length f = (3 * na)%nat -> forall E, (forall q, (q < E)%nat -> (nth q I 0 < na)%nat /\ (nth q J 0 < na)%nat) ->
  forall k c, (c < 3)%nat -> nth (3 * k + c) (frc f F I J E) 0 =
    nth (3 * k + c) f 0 + rsum E (fun q => nth (3 * q + c) F 0 * (ind (nth q J 0%nat) k - ind (nth q I 0%nat) k)).
Proof.
  intros Hf E. induction E as [|E IH]; intros H k c Hc; cbn [frc rsum]; [ring|].
  rewrite (nth_six _ _ _ _ _ _ na) by (try apply H; try lia; rewrite ?length_frc; auto). rewrite IH by (auto; intros; apply H; lia).
  destruct c as [|[|[|c]]]; [| | |lia]; cbn [nth]; rewrite ?Nat.add_0_r; ring.
Qed.

Section Tally.
Variables (fl : ev) (ne n na : nat) (NI NN NJ : list nat) (xyz En F : list R) (a : accum RNum).
Hypothesis Hva : vflag_atom fl = false.
Hypothesis Hne : (ne <= length En)%nat.
Hypothesis Hea : eflag_atom fl = true -> (ne <= length (eatom a))%nat.
Hypothesis Hn : length NN = n.
Hypothesis HNI : (n <= length NI)%nat.
Hypothesis HNJ : length NJ = list_sum NN.
Hypothesis HF : length F = (3 * list_sum NN)%nat.
Hypothesis HX : length xyz = (3 * list_sum NN)%nat.
Hypothesis Hv : length (virial a) = 6%nat.
Hypothesis Hf : length (force a) = (3 * na)%nat.
Hypothesis HI : forall i, In i NI -> (i < na)%nat.
Hypothesis HJ : forall j, In j NJ -> (j < na)%nat.

Lemma tally_ok : tally (N:=RNum) fl ne n NI NN NJ xyz En F a = Some (mkAcc (N:=RNum)
  (if eflag_global fl then eng_vdwl a + total (firstn ne En) else eng_vdwl a)
  (if eflag_atom fl then sf (eatom a) (firstn ne En) else eatom a)
  (if vflag_global fl then vir (virial a) F xyz (list_sum NN) else virial a)
  (frc (force a) F (eow NI NN) NJ (list_sum NN))).
Proof.
  unfold tally.
  assert (RE : forall q, (q < ne)%nat -> rd (En : list RNum) q = Some (nth q En 0)) by (intros; apply (rd_some En); lia).
  assert (E1 : for_ ne (fun ii e => v <- rd (En : list RNum) ii ;; Some (nadd e v)) (eng_vdwl a) = Some (eng_vdwl a + total (firstn ne En))).
  { apply (for_trace (fun q => eng_vdwl a + total (firstn q En))).
    - cbn. symmetry. apply Rplus_0_r.
    - reflexivity.
    - intros q Hq. rewrite RE by exact Hq. cbn [bind]. f_equal.
      assert (G : nth_error En q = Some (nth q En 0)) by (apply nth_error_nth'; lia).
      rewrite (firstn_S_nth En q _ G). unfold total. rewrite fold_right_app.
      assert (G2 : forall (l : list R) b, fold_right Rplus b l = fold_right Rplus 0 l + b).
      { clear. induction l as [|x l IH]; intros b; cbn; [ring|]. rewrite IH. ring. }
      cbn [fold_right]. rewrite Rplus_0_r, (G2 _ (nth q En 0)). apply Rplus_assoc. }
  assert (E2 : eflag_atom fl = true -> for_ ne (fun ii ea => v <- rd (En : list RNum) ii ;; wr ea ii v) (eatom a) = Some (sf (eatom a) (firstn ne En))).
  { intros He. specialize (Hea He). apply (for_trace (fun q => sf (eatom a) (firstn q En))); [reflexivity|reflexivity|].
    intros q Hq. rewrite RE by exact Hq. cbn [bind].
    assert (G : nth_error En q = Some (nth q En 0)) by (apply nth_error_nth'; lia).
    rewrite (firstn_S_nth En q _ G). apply wr_sf; rewrite firstn_length; lia. }
  replace (if eflag_global fl then for_ ne (fun ii e => v <- rd (En : list RNum) ii ;; Some (nadd e v)) (eng_vdwl a) else Some (eng_vdwl a))
    with (Some (if eflag_global fl then eng_vdwl a + total (firstn ne En) else eng_vdwl a)) by (destruct (eflag_global fl); [symmetry; exact E1|reflexivity]).
  cbn [bind].
  replace (if eflag_atom fl then for_ ne (fun ii ea => v <- rd (En : list RNum) ii ;; wr ea ii v) (eatom a) else Some (eatom a))
    with (Some (if eflag_atom fl then sf (eatom a) (firstn ne En) else eatom a)) by (destruct (eflag_atom fl); [symmetry; auto|reflexivity]).
  cbn [bind].
  assert (RF : forall q, (q < 3 * list_sum NN)%nat -> rd (F : list RNum) q = Some (nth q F 0)) by (intros; apply (@rd_some R); lia).
  assert (RX : forall q, (q < 3 * list_sum NN)%nat -> rd (xyz : list RNum) q = Some (nth q xyz 0)) by (intros; apply (@rd_some R); lia).
  rewrite (for_trace (fun ii => (frc (force a) F (eow NI NN) NJ (list_sum (firstn ii NN)), list_sum (firstn ii NN))) n _ _
     (frc (force a) F (eow NI NN) NJ (list_sum NN), list_sum NN)).
  2: reflexivity.
  2: rewrite <- Hn, firstn_all; reflexivity.
  2:{ intros ii Hii. assert (Hi' : (nth ii NI 0 < na)%nat) by (apply HI; apply nth_In; lia).
      rewrite (rd_some NI ii 0%nat) by lia. cbn [bind]. rewrite (rd_some NN ii 0%nat) by lia. cbn [bind].
      pose proof (psum_le NN ii ltac:(lia)) as Hs. rewrite psum_S by lia. set (o := list_sum (firstn ii NN)) in *.
      apply (for_trace (fun jj => (frc (force a) F (eow NI NN) NJ (o + jj), (o + jj)%nat))).
      - rewrite Nat.add_0_r. reflexivity.
      - reflexivity.
      - intros jj Hjj. assert (Hq : (o + jj < list_sum NN)%nat) by lia. assert (Hj' : (nth (o + jj) NJ 0 < na)%nat) by (apply HJ; apply nth_In; lia).
        rewrite (rd_some NJ (o + jj) 0%nat) by lia. cbn [bind].
        rewrite !RF by lia. cbn [bind]. set (g := frc (force a) F (eow NI NN) NJ (o + jj)).
        assert (Lg : length g = (3 * na)%nat) by (unfold g; rewrite length_frc; exact Hf).
        rewrite subto_R by lia. cbn [bind]. rewrite subto_R by (rewrite !length_bump; lia). cbn [bind]. rewrite subto_R by (rewrite !length_bump; lia). cbn [bind].
        rewrite addto_R by (rewrite !length_bump; lia). cbn [bind]. rewrite addto_R by (rewrite !length_bump; lia). cbn [bind]. rewrite addto_R by (rewrite !length_bump; lia). cbn [bind].
        replace (o + S jj)%nat with (S (o + jj)) by lia. cbn [frc]. fold g. unfold o. rewrite nth_eow by lia. fold o.
        replace (o + jj + 1)%nat with (S (o + jj)) by lia. reflexivity. }
  cbn [bind]. 
  replace (if vflag_global fl then _ else Some (virial a)) with (Some (if vflag_global fl then vir (virial a) F xyz (list_sum NN) else virial a)).
  { cbn [bind]. rewrite Hva. reflexivity. }
  destruct (vflag_global fl); [|reflexivity].
  rewrite (for_trace (fun ii => (vir (virial a) F xyz (list_sum (firstn ii NN)), list_sum (firstn ii NN))) n _ _
     (vir (virial a) F xyz (list_sum NN), list_sum NN)).
  - reflexivity.
  - f_equal. cbn [firstn list_sum fold_right]. unfold vir. cbn [rsum]. rewrite !Rplus_0_r. clear - Hv.
    destruct (virial a) as [|v0 [|v1 [|v2 [|v3 [|v4 [|v5 [|v6 v]]]]]]]; try discriminate Hv. reflexivity.
  - rewrite <- Hn, firstn_all. reflexivity.
  - intros ii Hii. rewrite (rd_some NN ii 0%nat) by lia. cbn [bind].
    pose proof (psum_le NN ii ltac:(lia)) as Hs. rewrite psum_S by lia. set (o := list_sum (firstn ii NN)) in *.
    apply (for_trace (fun jj => (vir (virial a) F xyz (o + jj), (o + jj)%nat))).
    + rewrite Nat.add_0_r. reflexivity.
    + reflexivity.
    + intros jj Hjj. assert (Hq : (o + jj < list_sum NN)%nat) by lia. rewrite !RF, !RX by lia. cbn [bind]. unfold vir at 1.
      change (nlit (n:=RNum) 1 2) with (IZR 1 / IZR (Z.pos 2)). 
      rewrite addto_R by (cbn; lia). cbn [bind]. rewrite addto_R by (rewrite !length_bump; cbn; lia). cbn [bind]. rewrite addto_R by (rewrite !length_bump; cbn; lia). cbn [bind].
      rewrite addto_R by (rewrite !length_bump; cbn; lia). cbn [bind]. rewrite addto_R by (rewrite !length_bump; cbn; lia). cbn [bind]. rewrite addto_R by (rewrite !length_bump; cbn; lia). cbn [bind].
      do 2 f_equal; [|lia]. replace (o + S jj)%nat with (S (o + jj)) by lia. unfold vir, bump. cbn [nth upd rsum].
      change (nadd (n:=RNum)) with Rplus. change (nmul (n:=RNum)) with Rmult. 
      do 6 (apply (f_equal2 (@cons R)); [field|]). reflexivity.
Qed.
End Tally.
