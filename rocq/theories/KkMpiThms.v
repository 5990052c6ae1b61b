(** The Kokkos pair style in mode mpi_message_passing against the CPU pair style.  Used in proofs only. *)
From Coq Require Import String List Arith ZArith Bool Lia Reals Lra Permutation.
From Verif Require Import Base BaseLemmas Segs Instances RSums MpModel MaceModel MaceSpec MaceSpec2 MaceGradSpec Sys SysLoops MacePure MaceStages1 MacePipe MaceLoad
  MaceThms PairModel PairMpiModel PairSpec PairKokkosModel PairCoeffSpec PairCoeff DistSpec DistMpi DistThms.
From Verif Require Import KkSem KkModel KkSpec KkLoad2 KkLoad4 KkThms KkPairModel KkPairSpec KkPairThms KkPairMpiModel KkPairMpiSpec KkNoThms KkPairMpi2Model KkPairMpi2Spec KkMpiRank KkMpiRun.
Import ListNotations.
Local Open Scope R_scope.

Section L.
Variable sph : nat -> RNum -> RNum -> RNum -> list RNum * list RNum.
Hypothesis Hsph : sph_ok sph.
Variable junk : mem RNum -> KkSem.cell -> RNum.
Variable srt : list (list (list nat)) -> list (list (list nat)).
Hypothesis Hsrt : forall l, Permutation l (srt l).
Variable f : mace_file RNum.
Hypothesis F : file_ok f.
Hypothesis KF : kk_file_ok f.
Variables (arg : list string) (types : list nat).
Hypothesis ND : NoDup (f_atomic_numbers f).
Hypothesis HC : coeff_types (f_atomic_numbers f) arg = Some types.
Hypothesis HL : (length types <= length (f_atomic_numbers f))%nat.
Notation mt := (mt_of f types).
Notation bl b := (bufs_live (ldm f) (ldp0 srt f) (ldp1 srt f) (ldlive f) b).

Lemma kd_gen km rc host t qs st : kld srt f km -> kd_ok f rc types t qs -> (forall q, In q qs -> dgood km (kd_st q)) ->
  length st = length qs -> (forall q, In q st -> bl (fst q)) ->
  exists cs, mpi_run (N:=RNum) sph (ldm f) rc types (d_fl t) (d_msgs t) (procs t st) = Some cs /\ length cs = length qs /\
    (exists o, kk_mpi_run sph junk km rc mt (d_fl t) (d_msgs t) host qs o) /\
    forall o, kk_mpi_run sph junk km rc mt (d_fl t) (d_msgs t) host qs o -> exists rs, o = Some rs /\ length rs = length qs /\
      forall r q x c, nth_error qs r = Some q -> nth_error rs r = Some x -> nth_error cs r = Some c -> dgood km (fst x) /\
        eng_vdwl (snd x) = eng_vdwl (pr_a c) /\ virial (snd x) = virial (pr_a c) /\ force (snd x) = force (pr_a c) /\
        (eflag_atom (d_fl t) = true -> eatom_added (nlocal (kd_l q)) (seq 0 (nlocal (kd_l q))) (b_node_energies (pr_b c)) (eatom_before_mpi (kd_max q) (kd_st q)) (eatom (snd x))).
Proof.
  intros D [[[S1 S2 S3 S4 S5 S6 S7] M1 M2] K2 K3 K4] Hg Lst Hst. destruct t as [ranks own gs fl acc L owner]. cbn [d_ranks d_own d_msgs d_fl d_acc d_L d_owner] in *.
  set (P := length qs) in *.
  assert (LA : length acc = P) by (rewrite <- S1; symmetry; eapply Forall2_len; exact S6).
  set (ps := procs (mkStep ranks own gs fl acc L owner) st).
  assert (Ep : forall r q, nth_error ps r = Some q -> exists l a bp, nth_error ranks r = Some l /\ nth_error acc r = Some a /\ nth_error st r = Some bp /\ q = mkProc l (fst bp) (snd bp) a).
  { intros r q Hq. unfold ps, procs in Hq. cbn [d_ranks d_acc] in Hq. rewrite nth_error_map, !nth_error_combine in Hq.
    destruct (nth_error ranks r) as [l|] eqn:El; [|discriminate]. destruct (nth_error acc r) as [a|] eqn:Ea; [|discriminate].
    destruct (nth_error st r) as [bp|] eqn:Eb; [|discriminate]. cbn in Hq. injection Hq as <-. exists l, a, bp. auto. }
  assert (Lp : length ps = P) by (unfold ps, procs; cbn [d_ranks d_acc]; rewrite map_length, !combine_length; lia).
  assert (Hps : map (fun q => pr_l q) ps = ranks).
  { apply list_eq_nth with (d := L); [rewrite map_length; congruence|]. intros r Hr. rewrite map_length in Hr.
    destruct (nth_error ps r) as [q|] eqn:Eq; [|apply nth_error_None in Eq; lia]. destruct (Ep r q Eq) as (l & a & bp & E1 & E2 & E3 & ->).
    transitivity l; [apply nth_error_nth; rewrite nth_error_map, Eq; reflexivity|symmetry; apply nth_error_nth; exact E1]. }
  assert (Hbl : forall q, In q ps -> bl (pr_b q)).
  { intros q Hq. apply In_nth_error in Hq. destruct Hq as (r & Hr). destruct (Ep r q Hr) as (l & a & bp & E1 & E2 & E3 & ->). cbn [pr_b]. apply Hst. eapply nth_error_In; eauto. }
  assert (Hac : forall q, In q ps -> acc_ok (pr_l q) (pr_a q)).
  { intros q Hq. apply In_nth_error in Hq. destruct Hq as (r & Hr). destruct (Ep r q Hr) as (l & a & bp & E1 & E2 & E3 & ->). cbn [pr_l pr_a].
    eapply Forall2_at; eauto. }
  assert (Hacq : forall q, In q qs -> acc_ok (kd_l q) (kd_a q)).
  { intros q Hq. apply In_nth_error in Hq. destruct Hq as (r & Hr). apply (Forall2_at _ _ _ S6 r); [rewrite <- K2|rewrite <- K3]; rewrite nth_error_map, Hr; reflexivity. }
  destruct (mpi_step sph Hsph srt f F types rc L owner S2 S3 ranks S4 S5 M1 own gs M2 fl S7 ps Hps Hbl Hac) as (cs & Fr & E & Lq & _ & HQ).
  exists cs. split; [exact E|]. split; [congruence|].
  destruct (run_ok sph junk srt Hsrt f F KF km D types mt rc (mt_rd f types) L owner S2 S3 ranks S4 S5 M1 own gs M2 fl S7 qs K2 Hg Hacq K4
    (fun r => match nth_error cs r with Some c => pr_a c | None => mkAcc (N:=RNum) 0 [] [] [] end)) with (host := host) as [X1 X2].
  { intros r q Hq. assert (Hr : (r < P)%nat) by (apply nth_error_Some; congruence).
    destruct (nth_error cs r) as [c|] eqn:Ec; [|apply nth_error_None in Ec; lia]. destruct (HQ r c Ec) as (_ & _ & _ & _ & p & E1 & _ & E3).
    destruct (Ep r p E1) as (l & a & bp & _ & E4 & _ & ->). cbn [pr_a] in E3. rewrite <- K3, nth_error_map, Hq in E4. cbn in E4. injection E4 as ->. exact E3. }
  split; [exact X1|]. intros o Ho. destruct (X2 o Ho) as (rs & -> & Lr & HR). exists rs. split; [reflexivity|]. split; [congruence|].
  intros r q x c Hq Hx Hc. specialize (HR r q x Hq Hx). cbv beta in HR. rewrite Hc in HR. destruct HR as (R0 & R1 & R2 & R3 & R4).
  split; [exact R0|]. split; [exact R1|]. split; [exact R2|]. split; [exact R3|]. intros He. specialize (R4 He).
  destruct (HQ r c Hc) as (_ & A1 & _ & A2 & _). rewrite A2.
  assert (El : kd_l q = lr L ranks r). { symmetry. apply nth_error_nth. rewrite <- K2, nth_error_map, Hq. reflexivity. }
  rewrite El. exact R4.
Qed.

Lemma reach_good_mpi km rc host ss : kld srt f km -> kd_reach sph junk km f rc types mt host ss -> forall s, In s ss -> dgood km s.
Proof.
  intros D H. induction H as [P|t qs rs H IH OK HK]; intros s Hs.
  - apply repeat_spec in Hs. subst s. apply dgood_fresh.
  - destruct (load_ok srt Hsrt f F) as (b0 & _ & LV). set (pb := mkPB (N:=RNum) [] [] [] [] [] [] [] [] [] [] [] [] []).
    destruct (kd_gen km rc host t qs (repeat (b0, pb) (length qs)) D OK) as (cs & _ & Lc & _ & X).
    + intros q Hq. apply IH. apply in_map. exact Hq.
    + apply repeat_length.
    + intros q Hq. apply repeat_spec in Hq. subst q. exact LV.
    + destruct (X _ HK) as (rs' & E & Lr & HR). injection E as <-. apply in_map_iff in Hs. destruct Hs as (x & <- & Hx). apply In_nth_error in Hx. destruct Hx as (r & Hr).
      assert (r < length rs)%nat by (apply nth_error_Some; congruence).
      destruct (nth_error qs r) as [q|] eqn:Eq; [|apply nth_error_None in Eq; lia]. destruct (nth_error cs r) as [c|] eqn:Ec; [|apply nth_error_None in Ec; lia].
      apply (HR r q x c Eq Hr Ec).
Qed.

Lemma lemma_C62 rc host : exists km mt m b0, kk_load_from_json srt f = Some km /\ coeff_types_kk (f_atomic_numbers f) arg = Some mt /\
  load_from_json srt f = Some (m, b0) /\
  forall t qs, kd_reach sph junk km f rc types mt host (map kd_st qs) -> kd_ok f rc types t qs ->
  forall ts pbs, Forall (mpi_step_ok f rc types (length qs)) ts -> length pbs = length qs ->
  exists st cs, mpi_steps sph m rc types ts (map (fun pb => (b0, pb)) pbs) = Some st /\
    mpi_run (N:=RNum) sph m rc types (d_fl t) (d_msgs t) (procs t st) = Some cs /\ length cs = length qs /\
    (exists o, kk_mpi_run sph junk km rc mt (d_fl t) (d_msgs t) host qs o) /\
    forall o, kk_mpi_run sph junk km rc mt (d_fl t) (d_msgs t) host qs o -> exists rs, o = Some rs /\ length rs = length qs /\
      forall r q x c, nth_error qs r = Some q -> nth_error rs r = Some x -> nth_error cs r = Some c ->
        eng_vdwl (snd x) = eng_vdwl (pr_a c) /\ virial (snd x) = virial (pr_a c) /\ force (snd x) = force (pr_a c) /\
        (eflag_atom (d_fl t) = true -> eatom_added (nlocal (kd_l q)) (ilist (kd_l q)) (b_node_energies (pr_b c)) (eatom_before_mpi (kd_max q) (kd_st q)) (eatom (snd x))).
Proof.
  destruct (kk_load_ok srt Hsrt f F KF) as (km & EL & D). destruct (load_ok srt Hsrt f F) as (b0 & EC & LV).
  exists km, mt, (ldm f), b0. split; [exact EL|]. split; [apply mt_load; assumption|]. split; [exact EC|].
  intros t qs HR OK ts pbs Hts Lp.
  destruct (mpi_many sph Hsph srt f F types rc (length qs) ts Hts (map (fun pb => (b0, pb)) pbs)) as (st & Es & Ls & Hs).
  { rewrite map_length. exact Lp. } { intros q Hq. apply in_map_iff in Hq. destruct Hq as (pb & <- & _). exact LV. }
  destruct (kd_gen km rc host t qs st D OK) as (cs & E1 & E2 & E3 & E4).
  { intros q Hq. apply (reach_good_mpi km rc host _ D HR). apply in_map. exact Hq. } { exact Ls. } { exact Hs. }
  exists st, cs. split; [exact Es|]. split; [exact E1|]. split; [exact E2|]. split; [exact E3|]. intros o Ho. destruct (E4 o Ho) as (rs & -> & Lr & X). exists rs.
  split; [reflexivity|]. split; [exact Lr|]. intros r q x c Hq Hx Hc. destruct (X r q x c Hq Hx Hc) as (_ & R1 & R2 & R3 & R4).
  split; [exact R1|]. split; [exact R2|]. split; [exact R3|].
  rewrite (mo_ilist _ _ _ _ _ (kd_step _ _ _ _ _ OK) (kd_l q)); [exact R4|]. rewrite <- (kd_ranks _ _ _ _ _ OK). apply in_map. eapply nth_error_In; exact Hq.
Qed.

Lemma lemma_C62_serial rc host : exists km mt m b0, kk_load_from_json srt f = Some km /\ coeff_types_kk (f_atomic_numbers f) arg = Some mt /\
  load_from_json srt f = Some (m, b0) /\
  forall hist, Forall (input_ok f) hist -> exists bh, calls sph m b0 hist = Some bh /\
  forall t qs, kd_reach sph junk km f rc types mt host (map kd_st qs) -> kd_ok f rc types t qs -> forall p a, acc_ok (d_L t) a ->
  exists b1 p1 a1, compute_no_domain_decomposition (N:=RNum) sph m rc types (d_fl t) (d_L t) bh p a = Some (b1, p1, a1) /\
    (exists o, kk_mpi_run sph junk km rc mt (d_fl t) (d_msgs t) host qs o) /\
    forall o, kk_mpi_run sph junk km rc mt (d_fl t) (d_msgs t) host qs o -> exists rs, o = Some rs /\
      same_added (d_L t) (map (fun q => atom_tag (kd_l q)) qs) (map kd_a qs) (map snd rs) a a1 /\
      forall r q x, nth_error qs r = Some q -> nth_error rs r = Some x -> eflag_atom (d_fl t) = true ->
        forall i j, (i < nlocal (kd_l q))%nat -> (j < nlocal (d_L t))%nat -> tag (kd_l q) i = tag (d_L t) j ->
        nth i (eatom (snd x)) 0 = nth i (eatom_before_mpi (kd_max q) (kd_st q)) 0 + nth (position j (ilist (d_L t))) (b_node_energies b1) 0.
Proof.
  destruct (kk_load_ok srt Hsrt f F KF) as (km & EL & D). destruct (load_ok srt Hsrt f F) as (b0 & EC & LV).
  exists km, mt, (ldm f), b0. split; [exact EL|]. split; [apply mt_load; assumption|]. split; [exact EC|].
  intros hist Hh. destruct (calls_ok sph Hsph srt f F b0 hist LV Hh) as (bh & Eh & Lh). exists bh. split; [exact Eh|].
  intros t qs HR OK p a Ha. set (P := length qs). set (pb := mkPB (N:=RNum) [] [] [] [] [] [] [] [] [] [] [] [] []). set (st := repeat (b0, pb) P).
  assert (Hst : forall q, In q st -> bl (fst q)) by (intros q Hq; apply repeat_spec in Hq; subst q; exact LV).
  destruct (mpi_one sph Hsph srt f F types rc P t st (kd_step _ _ _ _ _ OK) (repeat_length _ _) Hst) as (cs & EP & Lc & _ & HS).
  destruct (HS bh p a Lh Ha) as (b1 & p1 & a1 & C1 & C2 & C3). exists b1, p1, a1. split; [exact C1|].
  destruct (kd_gen km rc host t qs st D OK) as (cs' & E1 & _ & E3 & E4); [| apply repeat_length|exact Hst|].
  { intros q Hq. apply (reach_good_mpi km rc host _ D HR). apply in_map. exact Hq. }
  change (carrier RNum) with R in *. rewrite EP in E1. injection E1 as <-. split; [exact E3|]. intros o Ho. destruct (E4 o Ho) as (rs & -> & Lr & X). exists rs. split; [reflexivity|].
  pose proof (kd_ranks _ _ _ _ _ OK) as K2. pose proof (kd_acc _ _ _ _ _ OK) as K3. fold P in Lr. split.
  - replace (map (fun q => atom_tag (kd_l q)) qs) with (map (fun l : lmp RNum => atom_tag l) (d_ranks t)) by (rewrite <- K2, map_map; reflexivity). rewrite K3.
    eapply same_added_ext; [|intros r|exact C3]; [rewrite !map_length; congruence|].
    destruct (nth_error qs r) as [q|] eqn:Hq.
    + assert (Hr : (r < P)%nat) by (apply nth_error_Some; congruence). destruct (nth_error rs r) as [x|] eqn:Hx; [|apply nth_error_None in Hx; lia].
      destruct (nth_error cs r) as [c|] eqn:Hc; [|apply nth_error_None in Hc; lia].
      destruct (X r q x c Hq Hx Hc) as (_ & R1 & R2 & R3 & _).
      rewrite (nth_error_nth (map snd rs) r a (map_nth_error snd r rs Hx)), (nth_error_nth (map (fun q => pr_a q) cs) r a (map_nth_error (fun q => pr_a q) r cs Hc)). auto.
    + apply nth_error_None in Hq. fold P in Hq. rewrite !nth_overflow by (rewrite map_length; lia). auto.
  - intros r q x Hq Hx He i j Hi Hj T. assert (Hr : (r < P)%nat) by (apply nth_error_Some; congruence). destruct (nth_error cs r) as [c|] eqn:Hc; [|apply nth_error_None in Hc; lia].
    destruct (X r q x c Hq Hx Hc) as (_ & _ & _ & _ & R4).
    assert (Rl : nth_error (d_ranks t) r = Some (kd_l q)) by (rewrite <- K2, nth_error_map, Hq; reflexivity).
    assert (HO : ilist (kd_l q) = seq 0 (nlocal (kd_l q))) by (apply (mo_ilist _ _ _ _ _ (kd_step _ _ _ _ _ OK)); eapply nth_error_In; exact Rl).
    refine (eq_trans (R4 He i Hi) _). rewrite <- HO. apply (f_equal (Rplus _)). apply (se_node _ _ _ _ _ _ (C2 r (kd_l q) c Rl Hc) i j Hi Hj T).
Qed.
End L.
