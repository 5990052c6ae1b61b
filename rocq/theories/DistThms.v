(** Distributed evaluation gives the serial result: whole runs. *)
From Coq Require Import List Arith ZArith Lia Bool Reals Lra Permutation.
From Verif Require Import Base BaseLemmas Segs Instances RSums RList MaceModel MaceSpec MaceSpec2 MaceGradSpec
  Sys SysLoops MaceGrid MacePure MaceStages1 MacePipe MaceHsrc MaceInert MaceLoad MaceFlat MaceThms
  AseGrad PairModel PairMpiModel PairSpec PairThms PairCommSpec PairComm PairTally DistNbr DistAlg DistSpec DistTally DistSum DistTags DistJoin DistMpi.
Import ListNotations.
Local Open Scope R_scope.

Lemma Forall2_len {A C} (R : A -> C -> Prop) l l' : Forall2 R l l' -> length l = length l'.
Proof. induction 1; cbn; congruence. Qed.
Lemma Forall2_at {A C} (R : A -> C -> Prop) l l' : Forall2 R l l' -> forall r x y, nth_error l r = Some x -> nth_error l' r = Some y -> R x y.
Proof. induction 1; intros [|r] u v E1 E2; cbn in *; try discriminate; [congruence|eauto]. Qed.

Section Thms.
Variable sph : nat -> RNum -> RNum -> RNum -> list RNum * list RNum.
Hypothesis Hsph : sph_ok (N:=RNum) sph.
Variable srt : list (list (list nat)) -> list (list (list nat)).
Hypothesis Hsrt : forall l, Permutation l (srt l).
Variable f : mace_file RNum.
Hypothesis F : file_ok f.
Variable types : list nat.
Variable rc : R.
Notation m := (ldm f).
Notation bl b := (bufs_live m (ldp0 srt f) (ldp1 srt f) (ldlive f) b).
Notation sysL L owner := (sys_on (N:=RNum) types rc L (fun j => position (owner j) (ilist L)) (ilist L)).

(** the serial evaluation *)
Lemma serial_ok (L : lmp RNum) owner fl b p a : lmp_ok (length types) (ilist L) L -> owner_ok owner L ->
  (forall j, (j < nlocal L + nghost L)%nat -> tag L (owner j) = tag L j) ->
  input_ok f (nd_input (N:=RNum) types rc owner L) -> vflag_atom fl = false -> acc_ok L a -> bl b ->
  exists b1 p1 a1, compute_no_domain_decomposition (N:=RNum) sph m rc types fl L b p a = Some (b1, p1, a1) /\ bl b1 /\
    b_node_energies b1 = tab (nlocal L) (resE sph srt f (sysL L owner)) /\
    tallied types rc L (fun j => position (owner j) (ilist L)) owner (ilist L) fl (tab (nlocal L) (resE sph srt f (sysL L owner))) (resF sph srt f (sysL L owner)) a a1.
Proof.
  intros HL O HT DOM Hva A Hb. rewrite (nd_ok L rc types HL owner O). cbv zeta. pose proof (flat_S types rc L owner) as EF.
  assert (LB : length (ilist L) = nlocal L) by (rewrite (il_len L types HL); apply (lo_il _ _ _ HL)).
  destruct (call_flat sph Hsph srt f F b (sysL L owner) Hb) as (b1 & E1 & E2 & E3 & E4); [rewrite EF; exact DOM|].
  rewrite length_on, LB in E3.
  rewrite <- EF, E1. cbn [bind]. 
  destruct (tally_tallied types rc L (fun j => position (owner j) (ilist L)) owner (ilist L) fl (nlocal L) (nlocal L + nghost L)
    (tab (nlocal L) (resE sph srt f (sysL L owner))) (resF sph srt f (sysL L owner)) a Hva) as (a1 & T1 & T2).
  - rewrite length_tab. lia.
  - rewrite (ao_e _ _ A). lia.
  - apply (ao_v _ _ A).
  - apply (ao_f _ _ A).
  - intros i Hi. apply (il_in L types HL) in Hi. lia.
  - intros i j Hi Hj. assert (Hj' : (j < nlocal L + nghost L)%nat) by (apply (kept_nall types rc L HL i); [apply (il_in L types HL); exact Hi|exact Hj]).
    pose proof (oo_lt _ _ O j Hj'). lia.
  - rewrite E3, E4. unfold flat. cbn [i_num_nodes i_num_neigh i_xyz].
    rewrite <- (map_kpairs L rc (fun _ j => owner j)). rewrite <- LB in T1 at 1. rewrite <- (length_on (N:=RNum) types rc L (fun j => position (owner j) (ilist L)) (ilist L)) in T1.
    match goal with |- context [tally fl ?n ?n' ?B ?nn ?j ?x ?e ?ff a] => assert (T : tally (N:=RNum) fl n n' B nn j x e ff a = Some a1) by exact T1 end.
    rewrite T. cbn [bind]. do 3 eexists. split; [reflexivity|]. split; [exact E2|]. split; [exact E3|].
    rewrite firstn_all2 in T2 by (rewrite length_tab; lia). exact T2.
Qed.

Lemma total_tab n (g : nat -> R) : total (tab n g) = rl (seq 0 n) g.
Proof. unfold tab. apply total_rl. Qed.

(** one step of all processes in mode mpi_message_passing *)
Lemma mpi_one P t st : mpi_step_ok f rc types P t -> length st = P -> (forall q, In q st -> bl (fst q)) ->
  exists qs, mpi_run (N:=RNum) sph m rc types (d_fl t) (d_msgs t) (procs t st) = Some qs /\ length qs = P /\ (forall q, In q qs -> bl (pr_b q)) /\
  forall b p a, bl b -> acc_ok (d_L t) a -> exists b1 p1 a1,
    compute_no_domain_decomposition (N:=RNum) sph m rc types (d_fl t) (d_L t) b p a = Some (b1, p1, a1) /\
    (forall r l q, nth_error (d_ranks t) r = Some l -> nth_error qs r = Some q -> same_energies (d_fl t) (d_L t) l (pr_b q) b1 (pr_a q)) /\
    same_added (d_L t) (map (fun l : lmp RNum => atom_tag l) (d_ranks t)) (d_acc t) (map (fun q => pr_a q) qs) a a1.
Proof.
  intros [[S1 S2 S3 S4 S5 S6 S7] M1 M2] Lst Hst. destruct t as [ranks own gs fl acc L owner]. cbn [d_ranks d_own d_msgs d_fl d_acc d_L d_owner] in *.
  assert (LA : length acc = P) by (rewrite <- S1; symmetry; eapply Forall2_len; exact S6).
  set (ps := procs (mkStep ranks own gs fl acc L owner) st).
  assert (Ep : forall r q, nth_error ps r = Some q -> exists l a bp, nth_error ranks r = Some l /\ nth_error acc r = Some a /\ nth_error st r = Some bp /\ q = mkProc l (fst bp) (snd bp) a).
  { intros r q Hq. unfold ps, procs in Hq. cbn [d_ranks d_acc] in Hq. rewrite nth_error_map, !nth_error_combine in Hq.
    destruct (nth_error ranks r) as [l|] eqn:El; [|discriminate]. destruct (nth_error acc r) as [a|] eqn:Ea; [|discriminate].
    destruct (nth_error st r) as [bp|] eqn:Eb; [|discriminate]. cbn in Hq. injection Hq as <-. exists l, a, bp. auto. }
  assert (Lp : length ps = P) by (unfold ps, procs; cbn [d_ranks d_acc]; rewrite map_length, !combine_length; lia).
  assert (Hps : map (fun q => pr_l q) ps = ranks).
  { apply list_eq_nth with (d := L); [rewrite map_length; congruence|]. intros r Hr. rewrite map_length in Hr.
    destruct (nth_error ps r) as [q|] eqn:Eq; [|apply nth_error_None in Eq; lia]. destruct (Ep r q Eq) as (l & a & bp & E1 & E2 & E3 & ->).
    transitivity l; [apply nth_error_nth; rewrite nth_error_map, Eq; reflexivity|symmetry; apply nth_error_nth; exact E1]. }
  assert (Hbl : forall q, In q ps -> bl (pr_b q)).
  { intros q Hq. apply In_nth_error in Hq. destruct Hq as (r & Hr). destruct (Ep r q Hr) as (l & a & bp & E1 & E2 & E3 & ->). cbn [pr_b]. apply Hst. eapply nth_error_In; eauto. }
  assert (Hac : forall q, In q ps -> acc_ok (pr_l q) (pr_a q)).
  { intros q Hq. apply In_nth_error in Hq. destruct Hq as (r & Hr). destruct (Ep r q Hr) as (l & a & bp & E1 & E2 & E3 & ->). cbn [pr_l pr_a].
    eapply Forall2_at; eauto. }
  destruct (mpi_step sph Hsph srt f F types rc L owner S2 S3 ranks S4 S5 M1 own gs M2 fl S7 ps Hps Hbl Hac) as (qs & Fr & E & Lq & HT & HQ).
  exists qs. split; [exact E|]. split; [congruence|]. split.
  { intros q Hq. apply In_nth_error in Hq. destruct Hq as (r & Hr). apply (HQ r q Hr). }
  intros b p a Hb Ha. destruct (serial_ok L owner fl b p a S2 S3 (sp_owner _ _ _ _ _ _ S4) S5 S7 Ha Hb) as (b1 & p1 & a1 & C1 & C2 & C3 & C4).
  exists b1, p1, a1. split; [exact C1|].
  assert (LB : length (ilist L) = nlocal L) by (rewrite (il_len L types S2); apply (lo_il _ _ _ S2)).
  assert (RE : forall r i j, (r < length ranks)%nat -> (i < nlocal (nth r ranks L))%nat -> (j < nlocal L)%nat -> tag (nth r ranks L) i = tag L j ->
    pE sph m (ldp0 srt f) (ldp1 srt f) (ldfe f) (sysL L owner) (gl L ranks r i) = nth (position j (ilist L)) (b_node_energies b1) 0).
  { intros r i j Hr Hi Hj T. rewrite C3. assert (HjB : In j (ilist L)) by (apply (il_in L types S2); exact Hj). rewrite nth_tab by (rewrite <- LB; apply position_lt; exact HjB).
    unfold resE. apply (f_equal (pE _ _ _ _ _ _)). unfold gl, lr. rewrite T. rewrite (gslot_tag L owner S3 (sp_owner _ _ _ _ _ _ S4)) by lia. rewrite (oo_self _ _ S3) by exact Hj. reflexivity. }
  split.
  - intros r l q Hl Hq. destruct (HQ r q Hq) as (Hr & D1 & D2 & D3 & p0 & D4 & D5 & _).
    assert (El : nth r ranks L = l) by (apply nth_error_nth; exact Hl). unfold lr in D1, D3, D5. rewrite El in *.
    assert (Hil : ilist l = seq 0 (nlocal l)) by (apply M1; eapply nth_error_In; eauto).
    constructor.
    + intros i j Hi Hj T. rewrite D3, Hil. assert (EP : position i (seq 0 (nlocal l)) = i).
      { replace i with (nth i (seq 0 (nlocal l)) 0%nat) at 1 by (rewrite seq_nth; lia). apply position_nth; [apply seq_NoDup|rewrite seq_length; exact Hi]. }
      rewrite EP, nth_tab by exact Hi. apply RE; auto; rewrite El; auto.
    + intros He _ i j Hi Hj T. rewrite (tl_eatom _ _ _ _ _ _ _ _ _ _ _ D5), He. unfold sf. rewrite app_nth1 by (rewrite length_tab; exact Hi). rewrite nth_tab by exact Hi.
      apply RE; auto; rewrite El; auto.
  - set (as_ := fun r => nth r acc a). set (as' := fun r => nth r (map (fun q => pr_a q) qs) a).
    assert (TR : forall r, (r < length ranks)%nat -> tallied types rc (nth r ranks L) (fun j => j) (fun j => j) (ilist (nth r ranks L)) fl
       (tab (nlocal (nth r ranks L)) (fun i => pE sph m (ldp0 srt f) (ldp1 srt f) (ldfe f) (sysL L owner) (gl L ranks r i))) (Fr r) (as_ r) (as' r)).
    { intros r Hr. destruct (nth_error qs r) as [q|] eqn:Eq; [|apply nth_error_None in Eq; lia]. destruct (HQ r q Eq) as (_ & _ & _ & _ & p0 & D4 & D5 & _).
      destruct (Ep r p0 D4) as (l & a0 & bp & E1 & E2 & E3 & ->). cbn [pr_a] in D5.
      replace (as_ r) with a0 by (symmetry; apply nth_error_nth; exact E2). replace (as' r) with (pr_a q) by (symmetry; apply nth_error_nth; rewrite nth_error_map, Eq; reflexivity). exact D5. }
    assert (HNI : forall r i, (r < length ranks)%nat -> In i (ilist (nth r ranks L)) -> In i (needed_mpi (nth r ranks L))).
    { intros r i Hr Hi. rewrite M1 in Hi by (apply nth_In; exact Hr). exact Hi. }
    assert (HE : rl (seq 0 (length ranks)) (fun r => total (tab (nlocal (nth r ranks L)) (fun i => pE sph m (ldp0 srt f) (ldp1 srt f) (ldfe f) (sysL L owner) (gl L ranks r i)))) =
      total (tab (nlocal L) (resE sph srt f (sysL L owner)))).
    { rewrite total_tab. pose proof (ss_part types rc L owner S2 S3 ranks S4 M1) as SP. rewrite length_on, LB in SP. rewrite <- (rl_perm _ _ _ SP), rl_flat_map.
      apply rl_ext. intros r Hr. apply in_seq in Hr. rewrite rl_map, total_tab, (len_ss types rc L ranks M1) by lia. reflexivity. }
    rewrite <- LA, <- S1 in *. constructor.
    + split; [rewrite map_length; lia|]. intros r Hr. destruct (TR r ltac:(lia)) as [T1 T2 _ _ _ _]. split; [exact T1|exact T2].
    + rewrite total_rl. replace (length acc) with (length ranks) by lia. apply (join_energy types rc L owner ranks (fun r => ilist (nth r ranks L)) (fun _ j => j) (resF sph srt f (sysL L owner)) Fr fl _ _ as_ as' a a1 TR C4 HE).
    + intros k Hk. rewrite total_rl. replace (length acc) with (length ranks) by lia.
      apply (join_virial types rc L owner ranks (fun r => ilist (nth r ranks L)) (fun _ j => j) (fun r => gl L ranks r) (resF sph srt f (sysL L owner)) Fr HT fl _ _ as_ as' a a1 TR C4 k Hk).
    + intros i c Hi Hc. rewrite total_rl.
      apply (join_force types rc L owner S2 S3 needed_mpi ranks S4 (fun r => ilist (nth r ranks L)) (fun _ j => j) (fun r => gl L ranks r) HNI (fun r i j _ _ _ => eq_refl) (resF sph srt f (sysL L owner)) Fr HT fl _ _ as_ as' a a1 TR C4 i c Hi Hc).
Qed.

Lemma mpi_many P ts : Forall (mpi_step_ok f rc types P) ts -> forall st, length st = P -> (forall q, In q st -> bl (fst q)) ->
  exists st', mpi_steps sph m rc types ts st = Some st' /\ length st' = P /\ forall q, In q st' -> bl (fst q).
Proof.
  induction 1 as [|t ts Ht Hts IH]; intros st Lst Hst; cbn [mpi_steps]; [eauto|].
  destruct (mpi_one P t st Ht Lst Hst) as (qs & E & Lq & Hq & _). rewrite E. cbn [bind]. apply IH; [rewrite map_length; exact Lq|].
  intros q Hi. apply in_map_iff in Hi. destruct Hi as (q' & <- & Hi). apply Hq, Hi.
Qed.

Lemma mpi_serial P ts t pbs hist p a : Forall (mpi_step_ok f rc types P) ts -> mpi_step_ok f rc types P t -> length pbs = P ->
  Forall (input_ok f) hist -> acc_ok (d_L t) a ->
  exists m b0 st qs bh b1 p1 a1, load_from_json srt f = Some (m, b0) /\
    mpi_steps sph m rc types ts (map (fun pb => (b0, pb)) pbs) = Some st /\
    mpi_run (N:=RNum) sph m rc types (d_fl t) (d_msgs t) (procs t st) = Some qs /\ length qs = P /\
    calls sph m b0 hist = Some bh /\
    compute_no_domain_decomposition (N:=RNum) sph m rc types (d_fl t) (d_L t) bh p a = Some (b1, p1, a1) /\
    (forall r l q, nth_error (d_ranks t) r = Some l -> nth_error qs r = Some q -> same_energies (d_fl t) (d_L t) l (pr_b q) b1 (pr_a q)) /\
    same_added (d_L t) (map (fun l : lmp RNum => atom_tag l) (d_ranks t)) (d_acc t) (map (fun q => pr_a q) qs) a a1.
Proof.
  intros Hts Ht Lp Hh Ha. destruct (load_ok srt Hsrt f F) as (b0 & E0 & L0). destruct (calls_ok sph Hsph srt f F b0 hist L0 Hh) as (bh & Eh & Lh).
  destruct (mpi_many P ts Hts (map (fun pb => (b0, pb)) pbs)) as (st & Es & Ls & Hs).
  { rewrite map_length. exact Lp. } { intros q Hq. apply in_map_iff in Hq. destruct Hq as (pb & <- & _). exact L0. }
  destruct (mpi_one P t st Ht Ls Hs) as (qs & Eq & Lq & _ & HS). destruct (HS bh p a Lh Ha) as (b1 & p1 & a1 & C1 & C2 & C3).
  exists m, b0, st, qs, bh, b1, p1, a1. auto 12.
Qed.
End Thms.
