(** Distributed evaluation without communication of features gives the serial result: whole runs. *)
From Coq Require Import List Arith ZArith Lia Bool Reals Lra Permutation.
From Verif Require Import Base BaseLemmas Segs Instances RSums RList MaceModel MaceSpec MaceSpec2 MaceGradSpec
  Sys SysLoops MaceGrid MacePure MaceStages1 MacePipe MaceHsrc MaceInert MaceLoad MaceFlat MaceThms
  AseGrad PairModel PairMpiModel PairSpec PairThms PairCommSpec PairComm PairTally DistNbr DistAlg DistSpec DistTally DistSum DistTags DistJoin DistMpi DistThms
  DistNoNbr DistNoMpi.
Import ListNotations.
Local Open Scope R_scope.

Section Thms.
Variable sph : nat -> RNum -> RNum -> RNum -> list RNum * list RNum.
Hypothesis Hsph : sph_ok (N:=RNum) sph.
Variable srt : list (list (list nat)) -> list (list (list nat)).
Hypothesis Hsrt : forall l, Permutation l (srt l).
Variable f : mace_file RNum.
Hypothesis F : file_ok f.
Variable types : list nat.
Variable rc : R.
Notation m := (ldm f).
Notation bl b := (bufs_live m (ldp0 srt f) (ldp1 srt f) (ldlive f) b).
Notation sysL L owner := (sys_on (N:=RNum) types rc L (fun j => position (owner j) (ilist L)) (ilist L)).
Notation no_ok := (step_ok f rc types (needed_no_mpi (N:=RNum) rc)).

Lemma no_one P t st : no_ok P t -> length st = P -> (forall q, In q st -> bl (fst q)) ->
  exists qs, no_mpi_run sph m rc types (d_fl t) (procs t st) = Some qs /\ length qs = P /\ (forall q, In q qs -> bl (pr_b q)) /\
  forall b p a, bl b -> acc_ok (d_L t) a -> exists b1 p1 a1,
    compute_no_domain_decomposition (N:=RNum) sph m rc types (d_fl t) (d_L t) b p a = Some (b1, p1, a1) /\
    (forall r l q, nth_error (d_ranks t) r = Some l -> nth_error qs r = Some q -> same_energies (d_fl t) (d_L t) l (pr_b q) b1 (pr_a q)) /\
    same_added (d_L t) (map (fun l : lmp RNum => atom_tag l) (d_ranks t)) (d_acc t) (map (fun q => pr_a q) qs) a a1.
Proof.
  intros [S1 S2 S3 S4 S5 S6 S7] Lst Hst. destruct t as [ranks own gs fl acc L owner]. cbn [d_ranks d_own d_msgs d_fl d_acc d_L d_owner] in *.
  assert (LA : length acc = P) by (rewrite <- S1; symmetry; eapply Forall2_len; exact S6).
  set (ps := procs (mkStep ranks own gs fl acc L owner) st).
  assert (Ep : forall r q, nth_error ps r = Some q -> exists l a bp, nth_error ranks r = Some l /\ nth_error acc r = Some a /\ nth_error st r = Some bp /\ q = mkProc l (fst bp) (snd bp) a).
  { intros r q Hq. unfold ps, procs in Hq. cbn [d_ranks d_acc] in Hq. rewrite nth_error_map, !nth_error_combine in Hq.
    destruct (nth_error ranks r) as [l|] eqn:El; [|discriminate]. destruct (nth_error acc r) as [a|] eqn:Ea; [|discriminate].
    destruct (nth_error st r) as [bp|] eqn:Eb; [|discriminate]. cbn in Hq. injection Hq as <-. exists l, a, bp. auto. }
  assert (Lp : length ps = P) by (unfold ps, procs; cbn [d_ranks d_acc]; rewrite map_length, !combine_length; lia).
  set (En := fun r => tab (nlocal (nlr L ranks r)) (fun i => resE sph srt f (sysL L owner) (ngl L ranks r (nth i (ilist (nlr L ranks r)) 0%nat)))).
  destruct (each_ok (fun q => ' (b, p, a) <- compute_no_mpi_message_passing (N:=RNum) sph m rc types fl (pr_l q) (pr_b q) (pr_p q) (pr_a q) ;; Some (mkProc (pr_l q) b p a))
    (fun r p q => (r < length ranks)%nat /\ bl (pr_b q) /\ b_node_energies (pr_b q) = En r /\
      tallied types rc (nlr L ranks r) (fun j => j) (fun j => j) (no_nodes (nlr L ranks r) rc) fl (En r) (nFr sph srt f types rc L ranks r) (pr_a p) (pr_a q)) ps) as (qs & E & Lq & HQ).
  { intros r p Hp. destruct (Ep r p Hp) as (l & a & bp & E1 & E2 & E3 & ->). cbn [pr_l pr_b pr_p pr_a].
    assert (Hr : (r < length ranks)%nat) by (apply nth_error_Some; congruence). assert (El : nlr L ranks r = l) by (apply nth_error_nth; exact E1).
    destruct (n_one sph Hsph srt f F types rc L owner S2 S3 ranks S4 S5 fl r (fst bp) (snd bp) a Hr S7) as (b' & p' & a' & C1 & C2 & C3 & C4).
    { apply Hst. eapply nth_error_In; eauto. } { rewrite El. eapply Forall2_at; eauto. }
    rewrite El in C1. rewrite C1. cbn [bind]. eexists. split; [reflexivity|]. cbn [pr_b pr_a]. auto. }
  exists qs. split; [exact E|]. split; [congruence|].
  assert (N : forall r q, nth_error qs r = Some q -> exists p, nth_error ps r = Some p).
  { intros r q Hq. assert (r < length qs)%nat by (apply nth_error_Some; congruence). destruct (nth_error ps r) as [p|] eqn:Ep'; [eauto|]. apply nth_error_None in Ep'. lia. }
  split.
  { intros q Hq. apply In_nth_error in Hq. destruct Hq as (r & Hr). destruct (N r q Hr) as (p & Hp). apply (HQ r p q Hp Hr). }
  intros b p a Hb Ha. destruct (serial_ok sph Hsph srt f F types rc L owner fl b p a S2 S3 (sp_owner _ _ _ _ _ _ S4) S5 S7 Ha Hb) as (b1 & p1 & a1 & C1 & C2 & C3 & C4).
  exists b1, p1, a1. split; [exact C1|].
  assert (LB : length (ilist L) = nlocal L) by (rewrite (il_len L types S2); apply (lo_il _ _ _ S2)).
  assert (RE : forall r i j, (r < length ranks)%nat -> (i < nlocal (nlr L ranks r))%nat -> (j < nlocal L)%nat -> tag (nlr L ranks r) i = tag L j ->
    resE sph srt f (sysL L owner) (ngl L ranks r i) = nth (position j (ilist L)) (b_node_energies b1) 0).
  { intros r i j Hr Hi Hj T. rewrite C3. assert (HjB : In j (ilist L)) by (apply (il_in L types S2); exact Hj). rewrite nth_tab by (rewrite <- LB; apply position_lt; exact HjB).
    apply (f_equal (resE _ _ _ _)). unfold ngl. rewrite T. rewrite (gslot_tag L owner S3 (sp_owner _ _ _ _ _ _ S4)) by lia. rewrite (oo_self _ _ S3) by exact Hj. reflexivity. }
  split.
  - intros r l q Hl Hq. destruct (N r q Hq) as (p0 & Hp0). destruct (HQ r p0 q Hp0 Hq) as (Hr & D1 & D2 & D3).
    assert (El : nlr L ranks r = l) by (apply nth_error_nth; exact Hl). pose proof (nrank_ok types rc L owner ranks S4 r Hr) as LO.
    assert (IL : forall i, In i (ilist (nlr L ranks r)) <-> (i < nlocal (nlr L ranks r))%nat) by (intros i; apply (no_il_in (nlr L ranks r) rc types LO)).
    assert (LE : length (ilist (nlr L ranks r)) = nlocal (nlr L ranks r)) by apply (nil_len types rc L owner ranks S4 r Hr).
    rewrite <- El. constructor.
    + intros i j Hi Hj T. rewrite D2. unfold En. assert (HiB : In i (ilist (nlr L ranks r))) by (apply IL; exact Hi). rewrite nth_tab by (rewrite <- LE; apply position_lt; exact HiB).
      rewrite nth_position by exact HiB. apply RE; auto.
    + intros He Hil i j Hi Hj T. rewrite (tl_eatom _ _ _ _ _ _ _ _ _ _ _ D3), He. unfold sf. rewrite app_nth1 by (unfold En; rewrite length_tab; exact Hi).
      unfold En. rewrite nth_tab by exact Hi. rewrite Hil, seq_nth by exact Hi. apply RE; auto.
  - set (as_ := fun r => nth r acc a). set (as' := fun r => nth r (map (fun q => pr_a q) qs) a).
    assert (TR : forall r, (r < length ranks)%nat -> tallied types rc (nth r ranks L) (fun j => j) (fun j => j) (no_nodes (nth r ranks L) rc) fl (En r) (nFr sph srt f types rc L ranks r) (as_ r) (as' r)).
    { intros r Hr. destruct (nth_error qs r) as [q|] eqn:Eq; [|apply nth_error_None in Eq; lia]. destruct (N r q Eq) as (p0 & Hp0). destruct (HQ r p0 q Hp0 Eq) as (_ & _ & _ & D5).
      destruct (Ep r p0 Hp0) as (l & a0 & bp & E1 & E2 & E3 & ->). cbn [pr_a] in D5.
      replace (as_ r) with a0 by (symmetry; apply nth_error_nth; exact E2). replace (as' r) with (pr_a q) by (symmetry; apply nth_error_nth; rewrite nth_error_map, Eq; reflexivity). exact D5. }
    assert (HE : rl (seq 0 (length ranks)) (fun r => total (En r)) = total (tab (nlocal L) (resE sph srt f (sysL L owner)))).
    { rewrite total_tab. pose proof (n_part types rc L owner S2 S3 ranks S4) as SP. rewrite length_on, LB in SP. rewrite <- (rl_perm _ _ _ SP), rl_flat_map.
      apply rl_ext. intros r Hr. apply in_seq in Hr. unfold En. rewrite rl_map, total_tab, nlen1, (nil_len types rc L owner ranks S4 r ltac:(lia)). apply rl_ext. intros i Hi. apply in_seq in Hi. unfold nphi.
      rewrite nNI_nth by (rewrite (nil_len types rc L owner ranks S4 r); lia). reflexivity. }
    pose proof (n_HT sph srt f F types rc L owner S2 S3 ranks S4 S5) as HT.
    assert (HNI : forall r i, (r < length ranks)%nat -> In i (no_nodes (nth r ranks L) rc) -> In i (needed_no_mpi (N:=RNum) rc (nth r ranks L))).
    { intros r i Hr Hi. apply (nNI types rc L owner ranks S4 r i Hr Hi). }
    rewrite <- LA, <- S1 in *. constructor.
    + split; [rewrite map_length; lia|]. intros r Hr. destruct (TR r ltac:(lia)) as [T1 T2 _ _ _ _]. split; [exact T1|exact T2].
    + rewrite total_rl. replace (length acc) with (length ranks) by lia.
      apply (join_energy types rc L owner ranks (fun r => no_nodes (nth r ranks L) rc) (fun _ j => j) (resF sph srt f (sysL L owner)) _ fl _ _ as_ as' a a1 TR C4 HE).
    + intros k Hk. rewrite total_rl. replace (length acc) with (length ranks) by lia.
      apply (join_virial types rc L owner ranks (fun r => no_nodes (nth r ranks L) rc) (fun _ j => j) (fun r => ngl L ranks r) (resF sph srt f (sysL L owner)) _ HT fl _ _ as_ as' a a1 TR C4 k Hk).
    + intros i c Hi Hc. rewrite total_rl.
      apply (join_force types rc L owner S2 S3 _ ranks S4 (fun r => no_nodes (nth r ranks L) rc) (fun _ j => j) (fun r => ngl L ranks r) HNI (fun r i j _ _ _ => eq_refl) (resF sph srt f (sysL L owner)) _ HT fl _ _ as_ as' a a1 TR C4 i c Hi Hc).
Qed.

Lemma no_many P ts : Forall (no_ok P) ts -> forall st, length st = P -> (forall q, In q st -> bl (fst q)) ->
  exists st', no_mpi_steps sph m rc types ts st = Some st' /\ length st' = P /\ forall q, In q st' -> bl (fst q).
Proof.
  induction 1 as [|t ts Ht Hts IH]; intros st Lst Hst; cbn [no_mpi_steps]; [eauto|].
  destruct (no_one P t st Ht Lst Hst) as (qs & E & Lq & Hq & _). rewrite E. cbn [bind]. apply IH; [rewrite map_length; exact Lq|].
  intros q Hi. apply in_map_iff in Hi. destruct Hi as (q' & <- & Hi). apply Hq, Hi.
Qed.

Lemma no_serial P ts t pbs hist p a : Forall (no_ok P) ts -> no_ok P t -> length pbs = P ->
  Forall (input_ok f) hist -> acc_ok (d_L t) a ->
  exists m b0 st qs bh b1 p1 a1, load_from_json srt f = Some (m, b0) /\
    no_mpi_steps sph m rc types ts (map (fun pb => (b0, pb)) pbs) = Some st /\
    no_mpi_run sph m rc types (d_fl t) (procs t st) = Some qs /\ length qs = P /\
    calls sph m b0 hist = Some bh /\
    compute_no_domain_decomposition (N:=RNum) sph m rc types (d_fl t) (d_L t) bh p a = Some (b1, p1, a1) /\
    (forall r l q, nth_error (d_ranks t) r = Some l -> nth_error qs r = Some q -> same_energies (d_fl t) (d_L t) l (pr_b q) b1 (pr_a q)) /\
    same_added (d_L t) (map (fun l : lmp RNum => atom_tag l) (d_ranks t)) (d_acc t) (map (fun q => pr_a q) qs) a a1.
Proof.
  intros Hts Ht Lp Hh Ha. destruct (load_ok srt Hsrt f F) as (b0 & E0 & L0). destruct (calls_ok sph Hsph srt f F b0 hist L0 Hh) as (bh & Eh & Lh).
  destruct (no_many P ts Hts (map (fun pb => (b0, pb)) pbs)) as (st & Es & Ls & Hs).
  { rewrite map_length. exact Lp. } { intros q Hq. apply in_map_iff in Hq. destruct Hq as (pb & <- & _). exact L0. }
  destruct (no_one P t st Ht Ls Hs) as (qs & Eq & Lq & _ & HS). destruct (HS bh p a Lh Ha) as (b1 & p1 & a1 & C1 & C2 & C3).
  exists m, b0, st, qs, bh, b1, p1, a1. auto 12.
Qed.
End Thms.
