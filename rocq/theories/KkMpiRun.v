(** All processes of the Kokkos pair style in mode mpi_message_passing.  Used in proofs only. *)
From Coq Require Import String List Arith ZArith Bool Lia Reals Lra Permutation.
From Verif Require Import Base BaseLemmas Segs Instances RSums RList MpModel MaceModel MaceSpec MaceSpec2 MaceGradSpec MlpR Sys SysLoops MaceGrid MacePure MaceStages1 MaceStages4 MacePipe MaceHsrc MaceLoad MaceFlat MaceForces
  MaceThms AseSpec AseGrad PairModel PairMpiModel PairSpec PairThms PairTally PairCommSpec PairComm PairKokkosModel PairCoeffSpec PairCoeff DistPipe DistAlg DistSpec DistTags DistNbr DistSum DistJoin DistMpi DistThms.
From Verif Require Import KkSem KkSound KkWp KkModel KkHost KkEq KkChain KkStage1 KkSpec KkLoad1 KkLoad2 KkLoad3 KkLoad4 KkThms KkPairModel KkPairSetup KkPairKernels KkPairTally KkPairSpec
  KkPairThms KkPairMpi2Model KkPairMpi2Spec KkMpiComm KkMpiPipe KkMpiRank.
Import ListNotations.
Local Open Scope R_scope.

Lemma steps_ok {A C} (R : A -> option C -> Prop) qs : forall (Q : nat -> A -> C -> Prop),
  (forall r q, nth_error qs r = Some q -> (exists o, R q o) /\ forall o, R q o -> exists x, o = Some x /\ Q r q x) ->
  (exists os, Forall2 R qs os) /\
  forall os, Forall2 R qs os -> exists xs, all_some os = Some xs /\ length xs = length qs /\ forall r q x, nth_error qs r = Some q -> nth_error xs r = Some x -> Q r q x.
Proof.
  induction qs as [|q qs IH]; intros Q HQ.
  - split; [exists []; constructor|]. intros os H. inversion H. subst. exists []. split; [reflexivity|]. split; [reflexivity|]. intros [|r] q x E; discriminate E.
  - destruct (HQ 0%nat q eq_refl) as [(o & Ho) Hx]. destruct (IH (fun r => Q (S r))) as [(os & Hos) Hxs]; [intros r q' Hr; apply (HQ (S r)); exact Hr|].
    split; [exists (o :: os); constructor; assumption|]. intros os' H. inversion H as [|? o' ? os'' H1 H2]; subst. destruct (Hx o' H1) as (x & -> & Hq). destruct (Hxs os'' H2) as (xs & E & Len & Hall).
    exists (x :: xs). cbn [all_some bind]. rewrite E. cbn [bind]. split; [reflexivity|]. split; [cbn; lia|]. intros [|r] q' x' E1 E2; cbn in E1, E2; [congruence|eauto].
Qed.

Section Mpi.
Variable sph : nat -> RNum -> RNum -> RNum -> list RNum * list RNum.
Hypothesis Hsph : sph_ok (N:=RNum) sph.
Variable junk : mem RNum -> KkSem.cell -> RNum.
Variable srt : list (list (list nat)) -> list (list (list nat)).
Hypothesis Hsrt : forall l, Permutation l (srt l).
Variable f : mace_file RNum.
Hypothesis F : file_ok f.
Hypothesis KF : kk_file_ok f.
Variable km : kmace RNum.
Hypothesis D : kld srt f km.
Variables (types : list nat) (mt : list Z) (rc : R).
Hypothesis HT : forall k t, rd types k = Some t -> rd mt k = Some (Z.of_nat t).
Variable L : lmp RNum.
Variable owner : nat -> nat.
Hypothesis HL : lmp_ok (length types) (ilist L) L.
Hypothesis O : owner_ok owner L.
Variable ranks : list (lmp RNum).
Hypothesis SP : split_ok (length types) (rc : RNum) owner needed_mpi L ranks.
Hypothesis DOM : input_ok f (nd_input (N:=RNum) types rc owner L).
Hypothesis Hil : forall l, In l ranks -> ilist l = seq 0 (nlocal l).
Variable own : slot -> slot.
Variable gs : list msg.
Hypothesis MS : messages_ok ranks own gs.

Notation mm := (ldm f).
Notation P0 := (ldp0 srt f).
Notation P1 := (ldp1 srt f).
Notation fe := (ldfe f).
Notation fg := (ldfg f).
Notation K := (k_num_channels km).
Notation M := (k_num_LM km).
Notation P := (length ranks).
Notation S := (sys_on (N:=RNum) types rc L (fun j => position (owner j) (ilist L)) (ilist L)).
Notation lr := (lr L ranks).
Notation ss := (ss types rc L ranks).
Notation gl := (gl L ranks).
Notation mH := (mH sph srt f types rc L owner ranks).
Notation mFr := (mFr sph srt f types rc L owner ranks).
Notation nall r := (nlocal (lr r) + nghost (lr r))%nat.
Notation size := (map (fun l : lmp RNum => nlocal l + nghost l)%nat ranks).
Notation nloc := (map (fun l : lmp RNum => nlocal l) ranks).

Lemma K_eq : K = m_num_channels mm.
Proof. apply (l_K _ _ _ D). Qed.
Lemma M_eq : M = num_LM mm.
Proof. unfold k_num_LM, num_LM. rewrite (l_L _ _ _ D). reflexivity. Qed.
Lemma rank_dom r q : (r < P)%nat -> (q < length (epairs (ss r)))%nat -> in_domain f (e_r (eg (ss r) q)).
Proof.
  intros Hr Hq. pose proof (ow_lt (ss r) q Hq) as Ho. pose proof (eg_in (ss r) q Hq) as He.
  pose proof (ss_es types rc L owner HL O ranks SP Hil r _ Hr Ho) as PE.
  apply (in_map (re (gl r))) in He. apply (Permutation_in _ PE) in He.
  pose proof (ss_lt types rc L owner HL O ranks SP Hil r _ Hr Ho) as Hg.
  change (e_r (eg (ss r) q)) with (e_r (re (gl r) (eg (ss r) q))). apply (io_dom _ _ DOM). rewrite <- flat_S. cbn [flat i_r]. unfold f_r. apply in_map.
  unfold all_edges. apply in_flat_map. exists (nd_ S (gl r (ow (ss r) q))). split; [apply nth_In; exact Hg|exact He].
Qed.
Lemma rank_kin r : (r < P)%nat -> exists V0 V1, kin km mm P0 P1 fe fg 16 (ldw0 f) (ldw1 f) V0 V1 (ss r) (nall r).
Proof.
  intros Hr. destruct (l_r2 _ _ _ D) as (V0 & V1 & VV). exists V0, V1.
  apply (kin_gen srt Hsrt f F KF km D (ss r) (nall r) (ss_wf f F types rc L owner HL O ranks SP DOM Hil r Hr) (fun q Hq => rank_dom r q Hr Hq) V0 V1 VV).
Qed.

Section Run.
Variable fl : ev.
Hypothesis Hva : vflag_atom fl = false.
Variable qs : list (kdproc RNum).
Hypothesis Hqs : map kd_l qs = ranks.
Hypothesis Hgood : forall q, In q qs -> dgood km (kd_st q).
Hypothesis Hacc : forall q, In q qs -> acc_ok (kd_l q) (kd_a q).
Hypothesis Hmax : forall q, In q qs -> (nlocal (kd_l q) <= kd_max q)%nat.
Lemma qs_len : length qs = P.
Proof. rewrite <- Hqs, map_length. reflexivity. Qed.
Lemma qs_l r q : nth_error qs r = Some q -> (r < P)%nat /\ kd_l q = lr r.
Proof.
  intros H. assert (Hr : (r < P)%nat) by (rewrite <- qs_len; apply nth_error_Some; congruence). split; [exact Hr|].
  pose proof (lr_err L ranks r Hr) as E. rewrite <- Hqs, nth_error_map, H in E. cbn in E. congruence.
Qed.
Notation bgn r q := (begun sph km mm P0 types rc (kd_max q) fl (lr r) (kd_a q) (kd_st q)).
Notation wr r := (mkKV (ilist (lr r)) (f_node_types (ss r)) (f_num_neigh (ss r)) (tab (length (ss r)) (fun ii => list_sum (firstn ii (f_num_neigh (ss r))))) (f_neigh_indices (ss r)) (f_neigh_types (ss r)) (f_xyz (ss r)) (f_r (ss r))).
Notation mdl r q := (middled sph km mm P0 P1 fe fg types rc (kd_max q) fl (lr r) (kd_a q) (mH r) (kd_st q)).
Notation qH r := (fun i => qH1 (N:=RNum) sph mm P0 P1 fg S (gl r i)).

(** forward communication *)
Lemma fwd_ok host ords (x1 : list (kpaird RNum)) : length x1 = P -> (forall r q x, nth_error qs r = Some q -> nth_error x1 r = Some x -> bgn r q x) -> ords_ok (M * K) gs ords ->
  exists hs, forward host ords (M * K) gs (map (fun x => elements km (kpd_mem x) (own_H1 (kpd_shared x))) x1) = Some hs /\ length hs = P /\
    forall r h, nth_error hs r = Some h -> forall j LM k, (j < nall r)%nat -> (LM < M)%nat -> (k < K)%nat -> nth (j * (M * K) + (LM * K + k)) h (0 : R) = mH r j LM k.
Proof.
  intros Len1 H1 HO. rewrite forward_any by exact HO.
  set (hs0 := map (fun x => elements km (kpd_mem x) (own_H1 (kpd_shared x))) x1). set (size' := map (fun x => extent (kpd_mem x) (own_H1 (kpd_shared x)) 0%nat) x1).
  assert (N1 : forall r, (r < P)%nat -> exists q x, nth_error qs r = Some q /\ nth_error x1 r = Some x /\ bgn r q x).
  { intros r Hr. destruct (nth_error qs r) as [q|] eqn:E; [|apply nth_error_None in E; rewrite qs_len in E; lia].
    destruct (nth_error x1 r) as [x|] eqn:E'; [|apply nth_error_None in E'; lia]. exists q, x. eauto. }
  assert (Enh : forall r x, nth_error x1 r = Some x -> @eq (list R) (nth r hs0 []) (elements km (kpd_mem x) (own_H1 (kpd_shared x)))).
  { intros r x Hx. apply nth_error_nth. unfold hs0. rewrite nth_error_map, Hx. reflexivity. }
  assert (Ens : forall r x, nth_error x1 r = Some x -> nth r size' 0%nat = extent (kpd_mem x) (own_H1 (kpd_shared x)) 0).
  { intros r x Hx. apply nth_error_nth. unfold size'. rewrite nth_error_map, Hx. reflexivity. }
  assert (EL : length size' = length size) by (unfold size'; rewrite !map_length; exact Len1).
  assert (LE : forall r, (nth r size 0 <= nth r size' 0)%nat).
  { intros r. destruct (le_lt_dec P r) as [Hc|Hr]; [rewrite !nth_overflow by (rewrite ?EL, map_length; lia); lia|].
    rewrite (size_nth L ranks r Hr). destruct (N1 r Hr) as (q & x & _ & Hx & Hb). rewrite (Ens r x Hx). apply (bg_ext _ _ _ _ _ _ _ _ _ _ _ _ Hb). }
  assert (A1 : arrays_ok (M * K) size' (hs0 : list (list R))).
  { split; [unfold hs0, size'; rewrite !map_length; reflexivity|]. rewrite EL, map_length. intros r Hr. destruct (N1 r Hr) as (q & x & _ & Hx & Hb).
    rewrite (Ens r x Hx). etransitivity; [apply (f_equal (@length R)), (Enh r x Hx)|]. apply length_elements. }
  destruct (forward_more (M * K) size size' own EL LE nloc gs hs0 (ms_plan _ _ _ MS) A1) as (hs & E & A2 & V). exists hs. split; [exact E|].
  split; [destruct A2 as [A2 _]; rewrite EL, map_length in A2; exact A2|].
  intros r h Hh j LM k Hj HLM Hk.
  assert (Hr : (r < P)%nat). { destruct A2 as [A2 _]. rewrite EL, map_length in A2. rewrite <- A2. apply nth_error_Some. congruence. }
  specialize (V (r, j) (LM * K + k)%nat (proj2 (atoms_in L ranks r j) (conj Hr Hj)) ltac:(nia)).
  unfold at_slot at 1 in V. cbn [fst snd] in V. change (carrier RNum) with R in *. rewrite (nth_error_nth hs r (@nil R) Hh) in V. etransitivity; [exact V|]. clear V.
  destruct (own_gl L ranks own gs MS r j Hr Hj) as (r' & i' & Eo & Hr' & Hi' & T). rewrite Eo. unfold DistMpi.mH, DistMpi.gl. rewrite <- T. fold (gl r' i').
  destruct (N1 r' Hr') as (q & x & Hq & Hx & Hb). unfold at_slot. cbn [fst snd].
  etransitivity; [apply (f_equal (fun a : list R => nth _ a _)), (Enh r' x Hx)|].
  assert (Hin : (i' < length (ss r'))%nat) by (rewrite (len_ss types rc L ranks Hil r' Hr'); exact Hi').
  etransitivity; [apply (nth_elements km (kpd_mem x) (own_H1 (kpd_shared x)) i' LM k); auto; pose proof (bg_ext _ _ _ _ _ _ _ _ _ _ _ _ Hb); lia|].
  rewrite (bg_val _ _ _ _ _ _ _ _ _ _ _ _ Hb) by auto.
  apply (pH1_0 sph mm P0 S (ss r') (gl r') (fun i => ss_ty types rc L owner HL O ranks SP Hil r' i Hr')); [|exact Hin].
  intros i Hi. apply Hes0 with (psi := gl r'); [|exact Hi]. intros; apply ss_es; auto.
Qed.

(** reverse communication *)
Lemma rev_ok host ords (x2 : list (kpaird RNum)) : length x2 = P -> (forall r q x, nth_error qs r = Some q -> nth_error x2 r = Some x -> mdl r q x) -> ords_ok (M * K) gs ords ->
  exists hs, reverse host ords (M * K) gs (map (fun x => elements km (kpd_mem x) bH1a) x2) = Some hs /\ length hs = P /\
    forall r h, nth_error hs r = Some h -> forall j LM k, (j < length (ss r))%nat -> (LM < M)%nat -> (k < K)%nat -> nth (j * (M * K) + (LM * K + k)) h (0 : R) = qH r j LM k.
Proof.
  intros Len1 H1 HO. rewrite reverse_any by exact HO.
  set (hs0 := map (fun x => elements km (kpd_mem x) bH1a) x2). set (size' := map (fun x => extent (kpd_mem x) bH1a 0%nat) x2).
  assert (N1 : forall r, (r < P)%nat -> exists q x, nth_error qs r = Some q /\ nth_error x2 r = Some x /\ mdl r q x).
  { intros r Hr. destruct (nth_error qs r) as [q|] eqn:E; [|apply nth_error_None in E; rewrite qs_len in E; lia].
    destruct (nth_error x2 r) as [x|] eqn:E'; [|apply nth_error_None in E'; lia]. exists q, x. eauto. }
  assert (Enh : forall r x, nth_error x2 r = Some x -> @eq (list R) (nth r hs0 []) (elements km (kpd_mem x) bH1a)).
  { intros r x Hx. apply nth_error_nth. unfold hs0. rewrite nth_error_map, Hx. reflexivity. }
  assert (Ens : forall r x, nth_error x2 r = Some x -> nth r size' 0%nat = extent (kpd_mem x) bH1a 0).
  { intros r x Hx. apply nth_error_nth. unfold size'. rewrite nth_error_map, Hx. reflexivity. }
  assert (EL : length size' = length size) by (unfold size'; rewrite !map_length; exact Len1).
  assert (LE : forall r, (nth r size 0 <= nth r size' 0)%nat).
  { intros r. destruct (le_lt_dec P r) as [Hc|Hr]; [rewrite !nth_overflow by (rewrite ?EL, map_length; lia); lia|].
    rewrite (size_nth L ranks r Hr). destruct (N1 r Hr) as (q & x & _ & Hx & Hb). rewrite (Ens r x Hx). apply (proj1 (md_H _ _ _ _ _ _ _ _ _ _ _ _ _ _ _ _ Hb)). }
  assert (A1 : arrays_ok (M * K) size' (hs0 : list (list R))).
  { split; [unfold hs0, size'; rewrite !map_length; reflexivity|]. rewrite EL, map_length. intros r Hr. destruct (N1 r Hr) as (q & x & _ & Hx & Hb).
    rewrite (Ens r x Hx). etransitivity; [apply (f_equal (@length R)), (Enh r x Hx)|]. apply length_elements. }
  destruct (reverse_more (M * K) size size' own EL LE nloc gs hs0 (ms_plan _ _ _ MS) A1) as (hs & E & A2 & V). exists hs. split; [exact E|].
  split; [destruct A2 as [A2 _]; rewrite EL, map_length in A2; exact A2|].
  intros r h Hh i LM k Hi HLM Hk.
  assert (Hr : (r < P)%nat). { destruct A2 as [A2 _]. rewrite EL, map_length in A2. rewrite <- A2. apply nth_error_Some. congruence. }
  assert (Hi' : (i < nlocal (lr r))%nat) by (rewrite <- (len_ss types rc L ranks Hil r Hr); exact Hi).
  specialize (V (r, i) (LM * K + k)%nat (proj2 (locs_in L ranks r i) (conj Hr Hi')) ltac:(nia)).
  unfold at_slot at 1 in V. cbn [fst snd] in V. change (carrier RNum) with R in *. rewrite (nth_error_nth hs r (@nil R) Hh) in V. etransitivity; [exact V|]. clear V.
  rewrite DistTally.total_rl. unfold owned. rewrite rl_filter, (atoms_rl L ranks).
  etransitivity; [|apply (adjoint_sum sph mm (ld_wf f F) P0 P1 fg S P ss gl gl (ss_lt types rc L owner HL O ranks SP Hil) (ss_ty types rc L owner HL O ranks SP Hil) (ss_es types rc L owner HL O ranks SP Hil)
     (ss_part types rc L owner HL O ranks SP Hil) (fun r => nall r) mH (fun r i _ _ => eq_refl) (ss_nloc types rc L ranks Hil) (kept_ss types rc L owner ranks SP Hil))].
  - apply rl_ext. intros r' Hr'. apply in_seq in Hr'. apply rl_ext. intros j Hj. apply in_seq in Hj.
    rewrite (own_eqb types rc L owner HL O ranks SP Hil own gs MS r i r' j) by (auto; lia).
    destruct (gl r' j =? gl r i)%nat; [|reflexivity]. unfold at_slot. cbn [fst snd]. destruct (N1 r' ltac:(lia)) as (q & x & Hq & Hx & Hb).
    etransitivity; [apply (f_equal (fun a : list R => nth _ a _)), (Enh r' x Hx)|].
    pose proof (md_H _ _ _ _ _ _ _ _ _ _ _ _ _ _ _ _ Hb) as [X1 X2].
    etransitivity; [apply (nth_elements km (kpd_mem x) bH1a j LM k); auto; lia|]. rewrite X2 by (auto; lia). reflexivity.
  - reflexivity.
  - reflexivity.
  - apply (sw_idx _ _ _ (SW_S f F types rc L owner DOM)).
  - apply ss_lt; auto.
  - rewrite <- M_eq. exact HLM.
  - rewrite <- K_eq. exact Hk.
Qed.

Variable ac : nat -> accum RNum.
Hypothesis Hac : forall r q, nth_error qs r = Some q ->
  tally (N:=RNum) fl (length (ss r)) (length (ss r)) (ilist (lr r)) (f_num_neigh (ss r)) (f_neigh_indices (ss r)) (f_xyz (ss r))
    (tab (nlocal (lr r)) (fun i => pE sph mm P0 P1 fe S (gl r i))) (eb (ss r) 3 (mFr r)) (kd_a q) = Some (ac r).
Lemma En_eq r : (r < P)%nat -> tab (length (ss r)) (hE (N:=RNum) sph mm P1 fe (ss r) (mH r)) = tab (nlocal (lr r)) (fun i => pE (N:=RNum) sph mm P0 P1 fe S (gl r i)).
Proof.
  intros Hr. rewrite (len_ss types rc L ranks Hil r Hr). apply tab_ext. intros i Hi. rewrite <- (len_ss types rc L ranks Hil r Hr) in Hi.
  apply (hE_1 sph mm (ld_wf f F) P0 P1 fe S (ss r) (gl r) (gl r) (fun i => ss_ty types rc L owner HL O ranks SP Hil r i Hr) (fun i => ss_es types rc L owner HL O ranks SP Hil r i Hr) (mH r)); auto.
Qed.
Lemma run_ok host :
  (exists o, kk_mpi_run sph junk km rc mt fl gs host qs o) /\
  forall o, kk_mpi_run sph junk km rc mt fl gs host qs o -> exists rs, o = Some rs /\ length rs = P /\
    forall r q x, nth_error qs r = Some q -> nth_error rs r = Some x -> dgood km (fst x) /\
      eng_vdwl (snd x) = eng_vdwl (ac r) /\ virial (snd x) = virial (ac r) /\ force (snd x) = force (ac r) /\
      (eflag_atom fl = true -> eatom_added (nlocal (lr r)) (seq 0 (nlocal (lr r))) (tab (nlocal (lr r)) (fun i => pE (N:=RNum) sph mm P0 P1 fe S (gl r i)))
         (eatom_before_mpi (kd_max q) (kd_st q)) (eatom (snd x))).
Proof.
  assert (EXO : ords_ok (M * K) gs (fun g => (list_prod (seq 0 (length (g_list g))) (seq 0 (M * K)), list_prod (seq 0 (length (g_list g))) (seq 0 (M * K))))).
  { intros g _. split; apply Permutation_refl. }
  (* begin *)
  destruct (steps_ok (fun q o1 => kk_mpi_begin sph junk km rc mt (kd_max q) fl (kd_l q) (kd_st q) (kd_a q) o1) qs
    (fun r q x => bgn r q (fst x) /\ snd x = wr r)) as [EX1 ALL1].
  { intros r q Hq. destruct (qs_l r q Hq) as [Hr El]. assert (Hin : In q qs) by (eapply nth_error_In; eauto). pose proof (Hacc q Hin) as HA. pose proof (Hmax q Hin) as HM. rewrite El in *.
    destruct (rank_kin r Hr) as (V0 & V1 & KI). destruct (rank_ok types rc L owner ranks SP Hil r Hr) as [LO _].
    destruct (begin_ok sph junk km mm P0 P1 fe fg 16 (ldw0 f) (ldw1 f) V0 V1 types mt rc HT (kd_max q) fl (lr r) (kd_a q) LO (il_r L ranks Hil r Hr) HA HM KI (kd_st q) (Hgood q Hin)) as [E1 E2].
    split; [exact E1|]. intros o Ho. destruct (E2 o Ho) as (x & -> & Hb). eexists. split; [reflexivity|]. split; [exact Hb|reflexivity]. }
  (* middle *)
  assert (MID : forall x1 (hs1 : list (list RNum)), length x1 = P -> (forall r q x, nth_error qs r = Some q -> nth_error x1 r = Some x -> bgn r q (fst x) /\ snd x = wr r) -> length hs1 = P ->
    (forall r h, nth_error hs1 r = Some h -> forall j LM k, (j < nall r)%nat -> (LM < M)%nat -> (k < K)%nat -> nth (j * (M * K) + (LM * K + k)) h (0 : R) = mH r j LM k) ->
    (exists os2, Forall2 (fun y o2 => let '(q, x, h) := y in kk_mpi_middle junk km (inum (kd_l q)) (fst x) (snd x) h o2) (combine (combine qs x1) hs1) os2) /\
    forall os2, Forall2 (fun y o2 => let '(q, x, h) := y in kk_mpi_middle junk km (inum (kd_l q)) (fst x) (snd x) h o2) (combine (combine qs x1) hs1) os2 ->
      exists x2, all_some os2 = Some x2 /\ length x2 = P /\ forall r q x, nth_error qs r = Some q -> nth_error x2 r = Some x -> mdl r q x).
  { intros x1 hs1 L1 HX1 LH HV.
    destruct (steps_ok (fun y o2 => let '(q, x, h) := y in kk_mpi_middle junk km (inum (kd_l q)) (fst x) (snd x) h o2) (combine (combine qs x1) hs1)
      (fun r y x' => mdl r (fst (fst y)) x')) as [EX2 ALL2].
    { intros r [[q x] h] Hy. rewrite !nth_error_combine in Hy. destruct (nth_error qs r) as [q'|] eqn:Eq; [|discriminate]. destruct (nth_error x1 r) as [x'|] eqn:Ex; [|discriminate].
      destruct (nth_error hs1 r) as [h'|] eqn:Eh; [|discriminate]. injection Hy as -> -> ->. destruct (qs_l r q Eq) as [Hr El]. assert (Hin : In q qs) by (eapply nth_error_In; eauto). pose proof (Hmax q Hin) as HM.
      destruct (rank_kin r Hr) as (V0 & V1 & KI). destruct (rank_ok types rc L owner ranks SP Hil r Hr) as [LO _]. destruct (HX1 r q x Eq Ex) as [Hb Ew]. rewrite Ew. rewrite El in *. cbn [fst].
      destruct (middle_ok sph junk km mm P0 P1 fe fg 16 (ldw0 f) (ldw1 f) V0 V1 (ld_wf f F) types rc (kd_max q) fl (lr r) (kd_a q) LO (il_r L ranks Hil r Hr) HM KI (mH r) (kd_st q) (fst x) h Hb
        (HV r h Eh)) as (x' & E1 & E2).
      split; [exists (Some x'); apply E1; reflexivity|]. intros o Ho. apply E1 in Ho. eauto. }
    split; [exact EX2|]. intros os2 H2. destruct (ALL2 os2 H2) as (x2 & E & Len & HQ). exists x2. split; [exact E|].
    assert (LC : length (combine (combine qs x1) hs1) = P) by (rewrite !combine_length, qs_len; lia). split; [congruence|].
    intros r q x Hq Hx. destruct (qs_l r q Hq) as [Hr El].
    destruct (nth_error x1 r) as [x'|] eqn:Ex; [|apply nth_error_None in Ex; lia]. destruct (nth_error hs1 r) as [h'|] eqn:Eh; [|apply nth_error_None in Eh; lia].
    apply (HQ r (q, x', h') x); [|exact Hx]. rewrite !nth_error_combine, Hq, Ex, Eh. reflexivity. }
  (* end *)
  assert (FIN : forall x1 x2 (hs2 : list (list RNum)), length x1 = P -> (forall r q x, nth_error qs r = Some q -> nth_error x1 r = Some x -> bgn r q (fst x) /\ snd x = wr r) ->
    length x2 = P -> (forall r q x, nth_error qs r = Some q -> nth_error x2 r = Some x -> mdl r q x) -> length hs2 = P ->
    (forall r h, nth_error hs2 r = Some h -> forall j LM k, (j < length (ss r))%nat -> (LM < M)%nat -> (k < K)%nat -> nth (j * (M * K) + (LM * K + k)) h (0 : R) = qH r j LM k) ->
    (exists os3, Forall2 (fun y o3 => let '(q, x, x2, h) := y in kk_mpi_end junk km (inum (kd_l q)) fl (kd_a q) x2 (snd x) h o3) (combine (combine (combine qs x1) x2) hs2) os3) /\
    forall os3, Forall2 (fun y o3 => let '(q, x, x2, h) := y in kk_mpi_end junk km (inum (kd_l q)) fl (kd_a q) x2 (snd x) h o3) (combine (combine (combine qs x1) x2) hs2) os3 ->
      exists rs, all_some os3 = Some rs /\ length rs = P /\ forall r q x, nth_error qs r = Some q -> nth_error rs r = Some x -> dgood km (fst x) /\
      eng_vdwl (snd x) = eng_vdwl (ac r) /\ virial (snd x) = virial (ac r) /\ force (snd x) = force (ac r) /\
      (eflag_atom fl = true -> eatom_added (nlocal (lr r)) (seq 0 (nlocal (lr r))) (tab (nlocal (lr r)) (fun i => pE (N:=RNum) sph mm P0 P1 fe S (gl r i)))
         (eatom_before_mpi (kd_max q) (kd_st q)) (eatom (snd x)))).
  { intros x1 x2 hs2 L1 HX1 L2 HX2 LH HV.
    destruct (steps_ok (fun y o3 => let '(q, x, x2, h) := y in kk_mpi_end junk km (inum (kd_l q)) fl (kd_a q) x2 (snd x) h o3) (combine (combine (combine qs x1) x2) hs2)
      (fun r y x => let q := fst (fst (fst y)) in dgood km (fst x) /\ eng_vdwl (snd x) = eng_vdwl (ac r) /\ virial (snd x) = virial (ac r) /\ force (snd x) = force (ac r) /\
      (eflag_atom fl = true -> eatom_added (nlocal (lr r)) (seq 0 (nlocal (lr r))) (tab (nlocal (lr r)) (fun i => pE (N:=RNum) sph mm P0 P1 fe S (gl r i)))
         (eatom_before_mpi (kd_max q) (kd_st q)) (eatom (snd x))))) as [EX3 ALL3].
    { intros r [[[q x] y] h] Hy. rewrite !nth_error_combine in Hy. destruct (nth_error qs r) as [q'|] eqn:Eq; [|discriminate]. destruct (nth_error x1 r) as [x'|] eqn:Ex; [|discriminate].
      destruct (nth_error x2 r) as [y'|] eqn:Ey; [|discriminate].
      destruct (nth_error hs2 r) as [h'|] eqn:Eh; [|discriminate]. injection Hy as -> -> -> ->. destruct (qs_l r q Eq) as [Hr El]. assert (Hin : In q qs) by (eapply nth_error_In; eauto). pose proof (Hmax q Hin) as HM. pose proof (Hacc q Hin) as HA.
      destruct (rank_kin r Hr) as (V0 & V1 & KI). destruct (rank_ok types rc L owner ranks SP Hil r Hr) as [LO _]. destruct (HX1 r q x Eq Ex) as [_ Ew]. rewrite Ew. rewrite El in *. cbn [fst].
      pose proof (Hac r q Eq) as CE. rewrite <- (En_eq r Hr) in CE |- *.
      destruct (end_ok sph junk km mm P0 P1 fe fg 16 (ldw0 f) (ldw1 f) V0 V1 types rc (kd_max q) fl (lr r) (kd_a q) LO (il_r L ranks Hil r Hr) HA Hva HM KI (mH r) (qH r) (kd_st q) y h (ac r)
        (HX2 r q y Eq Ey) (HV r h Eh) CE) as (x' & ak & E1 & E2).
      split; [exists (Some (x', ak)); apply E1; reflexivity|]. intros o Ho. apply E1 in Ho. exists (x', ak). split; [exact Ho|exact E2]. }
    split; [exact EX3|]. intros os3 H3. destruct (ALL3 os3 H3) as (rs & E & Len & HQ). exists rs. split; [exact E|].
    assert (LC : length (combine (combine (combine qs x1) x2) hs2) = P) by (rewrite !combine_length, qs_len; lia). split; [congruence|].
    intros r q x Hq Hx. destruct (qs_l r q Hq) as [Hr El].
    destruct (nth_error x1 r) as [x'|] eqn:Ex; [|apply nth_error_None in Ex; lia]. destruct (nth_error x2 r) as [y'|] eqn:Ey; [|apply nth_error_None in Ey; lia].
    destruct (nth_error hs2 r) as [h'|] eqn:Eh; [|apply nth_error_None in Eh; lia].
    apply (HQ r (q, x', y', h') x); [|exact Hx]. rewrite !nth_error_combine, Hq, Ex, Ey, Eh. reflexivity. }
  assert (FW : forall ords x1, length x1 = P -> (forall r q x, nth_error qs r = Some q -> nth_error x1 r = Some x -> bgn r q (fst x) /\ snd x = wr r) -> ords_ok (M * K) gs ords ->
    exists hs, forward host ords (M * K) gs (map (fun x : kpaird RNum * kviews RNum => elements km (kpd_mem (fst x)) (own_H1 (kpd_shared (fst x)))) x1) = Some hs /\ length hs = P /\
    forall r h, nth_error hs r = Some h -> forall j LM k, (j < nall r)%nat -> (LM < M)%nat -> (k < K)%nat -> nth (j * (M * K) + (LM * K + k)) h (0 : R) = mH r j LM k).
  { intros ords x1 L1 HX1 HO. rewrite <- (map_map fst (fun x => elements km (kpd_mem x) (own_H1 (kpd_shared x)))). apply fwd_ok; [rewrite map_length; exact L1| |exact HO].
    intros r q x Hq Hx. rewrite nth_error_map in Hx. destruct (nth_error x1 r) as [x'|] eqn:Ex; [|discriminate]. injection Hx as <-. apply (HX1 r q x' Hq Ex). }
  unfold kk_mpi_run. cbv zeta. split.
  - destruct EX1 as (os1 & O1). destruct (ALL1 os1 O1) as (x1 & E1 & L1 & HX1). rewrite qs_len in L1.
    destruct (FW _ x1 L1 HX1 EXO) as (hs1 & F1 & LH1 & HV1). destruct (MID x1 hs1 L1 HX1 LH1 HV1) as [(os2 & O2) ALL2]. destruct (ALL2 os2 O2) as (x2 & E2 & L2 & HX2).
    destruct (rev_ok host _ x2 L2 HX2 EXO) as (hs2 & F2 & LH2 & HV2). destruct (FIN x1 x2 hs2 L1 HX1 L2 HX2 LH2 HV2) as [(os3 & O3) _].
    eexists. exists os1. split; [exact O1|]. rewrite E1. eexists. split; [exact EXO|]. rewrite F1. exists os2. split; [exact O2|]. rewrite E2. eexists. split; [exact EXO|]. rewrite F2. exists os3. split; [exact O3|reflexivity].
  - intros o (os1 & O1 & X). destruct (ALL1 os1 O1) as (x1 & E1 & L1 & HX1). rewrite qs_len in L1. rewrite E1 in X. destruct X as (ords1 & OK1 & X).
    destruct (FW _ x1 L1 HX1 OK1) as (hs1 & F1 & LH1 & HV1). rewrite F1 in X. destruct X as (os2 & O2 & X). destruct (MID x1 hs1 L1 HX1 LH1 HV1) as [_ ALL2]. destruct (ALL2 os2 O2) as (x2 & E2 & L2 & HX2).
    rewrite E2 in X. destruct X as (ords2 & OK2 & X). destruct (rev_ok host _ x2 L2 HX2 OK2) as (hs2 & F2 & LH2 & HV2). rewrite F2 in X. destruct X as (os3 & O3 & ->).
    destruct (FIN x1 x2 hs2 L1 HX1 L2 HX2 LH2 HV2) as [_ ALL3]. destruct (ALL3 os3 O3) as (rs & E3 & L3 & HR). exists rs. split; [exact E3|]. split; [exact L3|exact HR].
Qed.
End Run.
End Mpi.
