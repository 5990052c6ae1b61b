(** The Kokkos pair style in mode no_mpi_message_passing against the CPU pair style.  Used in proofs only. *)
From Coq Require Import String List Arith ZArith Bool Lia Reals Lra Permutation.
From Verif Require Import Base BaseLemmas Segs Instances RSums MpModel MaceModel MaceSpec MaceSpec2 MaceGradSpec MlpR Sys SysLoops MacePure MaceStages1 MacePipe MaceLoad MaceFlat MaceForces
  MaceThms AseSpec AseGrad PairModel PairMpiModel PairSpec PairThms PairTally PairKokkosModel PairCoeffSpec PairCoeff DistPipe DistSpec DistTags DistNbr DistNo DistNoNbr DistNoMpi DistNoThms DistMpi.
From Verif Require Import KkSem KkSound KkWp KkModel KkHost KkEq KkChain KkStage1 KkSpec KkLoad1 KkLoad2 KkLoad3 KkLoad4 KkThms KkPairModel KkPairSetup KkPairKernels KkPairTally KkPairSpec
  KkPairThms KkPairMpiModel KkNoSim KkNoEval KkNoPipe KkNoList KkPairMpiSpec.
Import ListNotations.
Local Open Scope R_scope.

(** ** systems within the domain *)
Section Ok.
Variable f : mace_file RNum.
Hypothesis F : file_ok f.
Definition eok (nH : nat) (e : edge RNum) : Prop := (e_type e < length (f_atomic_numbers f))%nat /\ (e_idx e < nH)%nat /\ in_domain f (e_r e).
Definition nok (nH : nat) (x : node RNum) : Prop := (n_type x < length (f_atomic_numbers f))%nat /\ forall e, In e (n_edges x) -> eok nH e.
Definition sok (nH : nat) (s : sys RNum) : Prop := forall x, In x s -> nok nH x.
Lemma sok_app nH s1 s2 : sok nH (s1 ++ s2) <-> sok nH s1 /\ sok nH s2.
Proof.
  unfold sok. split; [intros H; split; intros x Hx; apply H, in_or_app; auto|]. intros [H1 H2] x Hx. apply in_app_or in Hx. destruct Hx; auto.
Qed.
Lemma sok_fake nH s1 s2 : sok nH (s1 ++ s2) -> s1 <> [] -> sok nH (fake s1 s2).
Proof.
  intros H Hn. apply sok_app in H. destruct H as [H1 H2]. unfold fake. apply sok_app. split; [exact H1|]. intros x [<-|[]]. split; cbn [n_type n_edges].
  - unfold ty, nd_. apply H1. apply nth_In. destruct s1; [congruence|cbn; lia].
  - intros e He. unfold all_edges in He. apply in_flat_map in He. destruct He as (x & Hx & He). apply (H2 x Hx). exact He.
Qed.
Lemma sok_wf nH s : sok nH s -> sys_wf (ldm f) s nH.
Proof.
  intros H. apply (ld_sys_wf_gen f F).
  - intros i Hi. apply (H (nd_ s i)). apply nth_In. exact Hi.
  - intros i e Hi He. apply (H (nd_ s i)); [apply nth_In; exact Hi|exact He].
Qed.
Lemma sok_dom nH s : sok nH s -> forall q, (q < length (epairs s))%nat -> in_domain f (e_r (eg s q)).
Proof.
  intros H q Hq. apply (H (nd_ s (ow s q))); [apply nth_In, ow_lt; exact Hq|apply eg_in; exact Hq].
Qed.
End Ok.

Definition sgoodm (km : kmace RNum) (s : kpairm RNum) : Prop := sgood km (mkKP (kpm_mem s) (kpm_views s)).

Section T.
Variable sph : nat -> RNum -> RNum -> RNum -> list RNum * list RNum.
Hypothesis Hsph : sph_ok sph.
Variable junk : mem RNum -> KkSem.cell -> RNum.
Variable srt : list (list (list nat)) -> list (list (list nat)).
Hypothesis Hsrt : forall l, Permutation l (srt l).
Variable f : mace_file RNum.
Hypothesis F : file_ok f.
Hypothesis KF : kk_file_ok f.
Variable km : kmace RNum.
Hypothesis D : kld srt f km.
Variables (types : list nat) (mt : list Z) (rc : R).
Hypothesis HT : forall k t, rd types k = Some t -> rd mt k = Some (Z.of_nat t).
Hypothesis HTy : forall t, In t types -> (t < length (f_atomic_numbers f))%nat.

Variables (maxe : nat) (fl : ev) (l : lmp RNum) (a : accum RNum).
Hypothesis OK : no_call_ok f types rc maxe fl l a.
Notation L := (no_lmp _ _ _ _ _ _ _ OK).
Notation B := (ilist l).
Notation A := (needed_no_mpi (N:=RNum) rc l).
Notation NI := (no_nodes (N:=RNum) l rc).
Notation G := (ghosts (N:=RNum) l rc).
Notation ix := (no_ix (N:=RNum) l rc).
Notation s1 := (sys_on (N:=RNum) types rc l ix B).
Notation s2 := (sys_on (N:=RNum) types rc l ix G).
Notation s := (s1 ++ s2).
Notation nall := (nlocal l + nghost l)%nat.

Lemma ss_eq : sys_on (N:=RNum) types rc l ix NI = s.
Proof. unfold no_nodes, sys_on. apply map_app. Qed.
Lemma spec_lt i : (i < nall)%nat -> (spec_of types l i < length (f_atomic_numbers f))%nat.
Proof.
  intros Hi. destruct L as [_ L2 L3 _ _]. apply HTy. unfold spec_of. apply nth_In.
  assert (T : In (nth i (atom_type l) 0%nat) (atom_type l)) by (apply nth_In; lia). specialize (L3 _ T). lia.
Qed.
Lemma kept_all_lt i j : In i A -> In j (kept (N:=RNum) rc l i) -> (j < nall)%nat.
Proof. intros Hi Hj. unfold kept in Hj. apply filter_In in Hj. apply (lo_A _ _ _ L i Hi). apply Hj. Qed.
Lemma s_ok : sok f (length s) s.
Proof.
  rewrite <- ss_eq. rewrite length_on. intros x Hx. unfold sys_on in Hx. apply in_map_iff in Hx. destruct Hx as (i & <- & Hi).
  pose proof (nodes_A l rc types L i Hi) as HiA. split; cbn [n_type n_edges].
  - apply spec_lt. exact (proj1 (lo_A _ _ _ L i HiA)).
  - intros e He. apply in_map_iff in He. destruct He as (j & <- & Hj). split; [|split]; cbn [nbr_edge e_type e_idx e_r].
    + apply spec_lt. apply (kept_all_lt i j HiA Hj).
    + apply no_ix_lt. intros E. rewrite E in Hi. destruct Hi.
    + apply (no_dom _ _ _ _ _ _ _ OK i j HiA Hj).
Qed.
Lemma no_ghosts : B = [] -> G = [].
Proof.
  intros E. destruct G as [|g g'] eqn:EG; [reflexivity|exfalso]. assert (H : In g (ghosts (N:=RNum) l rc)) by (rewrite EG; left; reflexivity).
  apply (in_ghosts l rc types L) in H. destruct H as (_ & i & Hi & _). apply (no_il_in l rc types L) in Hi. rewrite E in Hi. destruct Hi.
Qed.

Notation mm := (ldm f).
Notation P0 := (ldp0 srt f).
Notation P1 := (ldp1 srt f).
Notation HH := (pH1 (N:=RNum) sph mm P0 s).
Notation En := (hE (N:=RNum) sph mm P1 (ldfe f) s1 HH).
Notation Fo := (rrF (N:=RNum) sph mm P0 s (noHa (N:=RNum) sph mm P0 P1 (ldfg f) s1 s2) (noF2 (N:=RNum) sph mm P0 P1 (ldfg f) s1 s2)).
Lemma kk_eval m : good km m -> exists m', (forall o, hexec (kk_no_mpi_evaluation sph junk km (length s1) (length s) (length (epairs s)) (f_node_types s) (f_num_neigh s)
    (f_neigh_indices s1) (f_neigh_types s) (f_xyz s) (f_r s)) m o <-> o = Some m') /\
  good km m' /\ has1 m' bE (length s1) En /\ has1 m' bF (3 * length (epairs s)) (eflat s 3 Fo) /\ lsame m m'.
Proof.
  intros Gm. destruct (l_r2 _ _ _ D) as (V0 & V1 & VV). pose proof s_ok as SO. destruct (proj1 (sok_app _ _ _ _) SO) as [SO1 SO2].
  assert (KG : forall t, sok f (length s) t -> kin km mm P0 P1 (ldfe f) (ldfg f) 16 (ldw0 f) (ldw1 f) V0 V1 t (length s)).
  { intros t Ht. apply (kin_gen srt Hsrt f F KF km D t (length s) (sok_wf f F _ _ Ht) (sok_dom f _ _ Ht) V0 V1 VV). }
  assert (KF' : s2 = [] \/ (s1 <> [] /\ kin km mm P0 P1 (ldfe f) (ldfg f) 16 (ldw0 f) (ldw1 f) V0 V1 (fake s1 s2) (length s))).
  { destruct B as [|b0 B'] eqn:EB; [left; rewrite (no_ghosts EB); reflexivity|]. right. assert (N1 : sys_on (N:=RNum) types rc l ix (b0 :: B') <> []) by discriminate.
    split; [exact N1|]. apply KG. apply sok_fake; [exact SO|exact N1]. }
  exact (hok_exec _ _ _ (no_full sph junk km mm P0 P1 (ldfe f) (ldfg f) 16 (ldw0 f) (ldw1 f) V0 V1 s1 s2 (KG _ SO) (KG _ SO1) KF' (ld_wf f F) m Gm)).
Qed.

Notation NN := (f_num_neigh s).
Notation NJ := (map snd (kpairs (N:=RNum) l rc NI)).
Lemma NN_eq : NN = map (fun i => length (kept (N:=RNum) rc l i)) NI.
Proof. rewrite <- ss_eq. apply nn_on. Qed.
Lemma NN_sum : list_sum NN = length (kpairs (N:=RNum) l rc NI).
Proof.
  rewrite NN_eq. unfold kpairs. rewrite length_flat_map. apply (f_equal list_sum). apply map_ext. intros i. rewrite map_length. reflexivity.
Qed.
Lemma ep_len : length (epairs s) = length (kpairs (N:=RNum) l rc NI).
Proof.
  rewrite <- (map_length snd (epairs s)), (map_snd_epairs s), <- ss_eq, all_edges_on, map_length. reflexivity.
Qed.
Lemma X_len : length (f_xyz s) = (3 * list_sum NN)%nat.
Proof. rewrite length_xyz, ep_len, <- NN_sum. apply Nat.mul_comm. Qed.
Lemma NI_lt i : In i NI -> (i < nall)%nat.
Proof. intros H. exact (proj1 (lo_A _ _ _ L i (nodes_A l rc types L i H))). Qed.
Lemma NJ_lt j : In j NJ -> (j < nall)%nat.
Proof.
  intros Hj. apply in_map_iff in Hj. destruct Hj as (q & <- & Hq). unfold kpairs in Hq. apply in_flat_map in Hq. destruct Hq as (i & Hi & Hq).
  apply in_map_iff in Hq. destruct Hq as (j & <- & Hj). cbn [snd]. apply (kept_all_lt i j); [apply (nodes_A l rc types L i Hi)|exact Hj].
Qed.
Lemma B_len : length B = nlocal l.
Proof. rewrite (no_il_len l rc types L). apply (lo_il _ _ _ L). Qed.

Lemma kn_gen st b p : sgoodm km st -> bufs_live mm P0 P1 (ldlive f) b ->
  exists b1 p1 ac, compute_no_mpi_message_passing (N:=RNum) sph mm rc types fl l b p a = Some (b1, p1, ac) /\ bufs_live mm P0 P1 (ldlive f) b1 /\
    (exists o, kk_no_mpi sph junk km rc mt maxe fl l st a o) /\
    forall o, kk_no_mpi sph junk km rc mt maxe fl l st a o -> exists st' ak, o = Some (st', ak) /\ sgoodm km st' /\
    eng_vdwl ak = eng_vdwl ac /\ virial ak = virial ac /\ force ak = force ac /\
    (eflag_atom fl = true -> eatom_added (nlocal l) (seq 0 (nlocal l)) (b_node_energies b1) (eatom_before_no maxe st) (eatom ak)).
Proof.
  intros SG LV. destruct (no_acc _ _ _ _ _ _ _ OK) as [Af Ae Av]. pose proof (no_vatom _ _ _ _ _ _ _ OK) as Hva. pose proof (no_max _ _ _ _ _ _ _ OK) as Hmax.
  pose proof B_len as Hn. pose proof (no_il_len l rc types L) as Hil.
  assert (LB : length B = length s1) by (symmetry; apply length_on).
  destruct (no_eval_ok sph Hsph mm P0 P1 (ldlive f) (ldfe f) (ldfg f) s1 s2 (ld_wf f F) (ld_zbl f F) (sok_wf f F _ _ s_ok) (ld_ro f F) b LV) as (b1 & C1 & LV1 & E1 & F1).
  assert (LNN : length NN = length NI) by (rewrite NN_eq; apply map_length).
  assert (LE : length (b_node_energies b1) = length B) by (rewrite E1, LB; apply length_tab).
  assert (LF : length (b_node_forces b1) = (3 * list_sum NN)%nat) by (rewrite F1, MaceStages1.length_eb, ep_len, <- NN_sum; apply Nat.mul_comm).
  assert (LJ : length NJ = list_sum NN) by (rewrite map_length; symmetry; apply NN_sum).
  pose proof (no_mpi_eq sph mm l rc types L fl b p a) as CE. rewrite ss_eq in CE. rewrite LB in CE. rewrite C1 in CE. cbn [bind] in CE. rewrite <- LB in CE.
  assert (LS : length s = length NI) by (rewrite <- ss_eq; apply length_on).
  rewrite LS in CE.
  rewrite (tally_ok fl (length B) (length NI) nall NI NN NJ (f_xyz s) (b_node_energies b1) (b_node_forces b1) a) in CE; auto using NI_lt, NJ_lt, X_len;
    [|change (carrier RNum) with R in *; lia|intros _; rewrite Ae; lia].
  cbn [bind] in CE. eexists b1, _, _. split; [exact CE|]. clear CE. split; [exact LV1|].
  (* Kokkos *)
  set (m0 := lammps_views (N:=RNum) fl maxe a (kpm_mem st)).
  destruct (lammps_views_ok km fl maxe a (mkKP (kpm_mem st) (kpm_views st)) nall SG Af) as (SG0 & DL0 & VL0 & DE0 & VE0). cbn [kp_mem kp_views] in *. fold m0 in SG0, DL0, VL0, DE0, VE0.
  destruct (kk_eval m0 (proj1 SG0)) as (m1 & K1 & G1 & KE & KFo & LS1).
  rewrite LS, <- LB in K1.
  assert (HE1 : has1 m1 bE (length B) (fun i => nth i (b_node_energies b1) 0)).
  { rewrite LB. eapply has1_eq; [|exact KE]. intros i Hi. rewrite E1. symmetry. apply nth_tab. exact Hi. }
  assert (HF1 : has1 m1 bF (3 * list_sum NN) (fun i => nth i (b_node_forces b1) 0)).
  { rewrite NN_sum, <- ep_len. eapply has1_eq; [|exact KFo]. intros i Hi. rewrite F1, eb_tab. symmetry. apply nth_tab. lia. }
  assert (DL1 : dims m1 bLf = [nall; 3%nat]) by (rewrite (st_dims _ _ _ (LS1 bLf eq_refl)); exact DL0).
  assert (DE1 : dims m1 bLe = dims m0 bLe) by (apply (st_dims _ _ _ (LS1 bLe eq_refl))).
  assert (HN : hok (kk_tally (N:=RNum) (length NI) NI NN (tab (length NI) (fun ii => list_sum (firstn ii NN))) NJ (f_xyz s) fl (length B)) m1
     (talp km NI NN NJ (f_xyz s) (length B) fl (fun i => nth i (b_node_energies b1) 0) (fun i => nth i (b_node_forces b1) 0) m1)).
  { apply (tally_h km (length NI) NI NN NJ (f_xyz s) nall (length B)); auto using NI_lt, NJ_lt, X_len.
    intros He. apply (cov_dims m0 m1 bLe); [exact DE1|]. intros [|i [|]] Hi; cbn in Hi; try tauto. apply (DE0 He). cbn. lia. }
  destruct (hok_exec _ _ _ HN) as (m2 & K2 & TP).
  assert (KK : forall o, hexec ([hop (lammps_views fl maxe a)]
     ++ kk_no_mpi_evaluation sph junk km (length B) (length NI) (length (epairs s)) (f_node_types s) NN (f_neigh_indices s1) (f_neigh_types s) (f_xyz s) (f_r s)
     ++ kk_tally (length NI) NI NN (tab (length NI) (fun ii => list_sum (firstn ii NN))) NJ (f_xyz s) fl (length B)) (kpm_mem st) o <-> o = Some m2).
  { cbn [app]. apply exec_hop. exact (exec_app _ _ _ _ _ K1 K2). }
  assert (VL1 : forall i c, (i < nall)%nat -> (c < 3)%nat -> va m1 (bLf, [i; c]) = nth (3 * i + c) (force a) 0).
  { intros i c _ _. rewrite (st_va _ _ _ _ (LS1 bLf eq_refl)). apply VL0. }
  pose proof (results_ok km (length NI) NI NN NJ (f_xyz s) nall (length B) eq_refl LNN LJ X_len NI_lt NJ_lt fl a m1 m2
    (fun i => nth i (b_node_energies b1) 0) (b_node_forces b1) LF TP Hva Av Af DL1 VL1) as RO.
  assert (RR : forall o, kk_no_mpi sph junk km rc mt maxe fl l st a o <-> exists ordL ordG ord1 ord2 ord3 v ii, order ordL /\ order ordG /\ order ord1 /\ order ord2 /\ order ord3 /\
     no_mpi_lists (N:=RNum) rc mt l (ordL (inum l)) (ordG (inum l)) ord1 ord2 ord3 st = Some (length NI, length (kpairs (N:=RNum) l rc B), (length (kpairs (N:=RNum) l rc NI) - length (kpairs (N:=RNum) l rc B))%nat,
        set_up l rc types NI (fun j => j), map (fun q => ix (snd q)) (kpairs (N:=RNum) l rc B), v, ii) /\
     o = (a' <- results fl a m2 ;; Some (mkKPM m2 v ii, a'))).
  { assert (KK' : forall o, hexec ([hop (lammps_views fl maxe a)]
       ++ kk_no_mpi_evaluation sph junk km (inum l) (length NI) (length (kpairs (N:=RNum) l rc B) + (length (kpairs (N:=RNum) l rc NI) - length (kpairs (N:=RNum) l rc B)))
            (kv_node_types (set_up l rc types NI (fun j => j))) (kv_num_neigh (set_up l rc types NI (fun j => j))) (map (fun q => ix (snd q)) (kpairs (N:=RNum) l rc B))
            (kv_neigh_types (set_up l rc types NI (fun j => j))) (kv_xyz (set_up l rc types NI (fun j => j))) (kv_r (set_up l rc types NI (fun j => j)))
       ++ kk_tally (length NI) (kv_node_indices (set_up l rc types NI (fun j => j))) (kv_num_neigh (set_up l rc types NI (fun j => j))) (kv_first_neigh (set_up l rc types NI (fun j => j)))
            (kv_neigh_indices (set_up l rc types NI (fun j => j))) (kv_xyz (set_up l rc types NI (fun j => j))) fl (inum l)) (kpm_mem st) o <-> o = Some m2).
    { replace (length (kpairs (N:=RNum) l rc B) + (length (kpairs (N:=RNum) l rc NI) - length (kpairs (N:=RNum) l rc B)))%nat with (length (epairs s))
        by (rewrite ep_len, (kp_app l rc), app_length; lia).
      rewrite <- (ix_on types rc l ix B).
      cbn [set_up kv_node_types kv_num_neigh kv_neigh_types kv_xyz kv_r kv_node_indices kv_first_neigh kv_neigh_indices].
      rewrite <- NN_eq, <- Hil.
      rewrite <- (map_kpairs l rc (fun _ j => j)), <- (map_kpairs l rc (fun _ j => spec_of types l j)),
        <- (map_kpairs l rc (fun i j => nsqrt (sep2 (atom_x l) i j))), <- (flat_kpairs l rc (fun i j => [sep (atom_x l) i j 0; sep (atom_x l) i j 1; sep (atom_x l) i j 2])).
      rewrite <- (nt_on types rc l ix NI), <- (et_on types rc l ix NI), <- (r_on types rc l ix NI), <- (xyz_on types rc l ix NI : _ = flat_map (fun q => [_; _; _]) _), ss_eq.
      unfold eoff. rewrite <- NN_eq. exact KK. }
    intros o. unfold kk_no_mpi. split.
    - intros (oL & oG & o1 & o2 & o3 & QL & QG & Q1 & Q2 & Q3 & H). destruct (lists_ok l rc types L mt HT oL oG o1 o2 o3 st QL QG Q1 Q2 Q3) as (v & ii & ES).
      change (carrier RNum) with R in *. rewrite ES in H. destruct H as (o' & H1 & ->).
      apply KK' in H1. subst o'. exists oL, oG, o1, o2, o3, v, ii. auto 12.
    - intros (oL & oG & o1 & o2 & o3 & v & ii & QL & QG & Q1 & Q2 & Q3 & ES & ->). exists oL, oG, o1, o2, o3. do 5 (split; [assumption|]). rewrite ES. exists (Some m2). split; [apply KK'; reflexivity|reflexivity]. }
  rewrite RO in RR. cbn [bind] in RR. clear RO.
  assert (G2 : forall v ii, sgoodm km (mkKPM m2 v ii)).
  { intros v ii. destruct TP as (T1 & _ & _ & _ & T2 & _). split; cbn [kp_mem kpm_mem]; [exact T1|]. rewrite T2, DE1. apply (proj2 SG0). }
  assert (ET : total (firstn (length B) (b_node_energies b1)) = rsum (length B) (fun i => nth i (b_node_energies b1) 0)).
  { rewrite firstn_all2 by (rewrite LE; lia). rewrite (tab_nth (b_node_energies b1) (0:R)) at 1. rewrite <- LE. apply total_tab. }
  split.
  - assert (OS : order (fun n => seq 0 n)) by (intros n; apply Permutation_refl).
    destruct (lists_ok l rc types L mt HT _ _ _ _ _ st OS OS OS OS OS) as (v & ii & ES). eexists. apply RR. do 7 eexists. do 5 (split; [exact OS|]). split; [exact ES|reflexivity].
  - intros o Ho. apply RR in Ho. destruct Ho as (oL & oG & o1 & o2 & o3 & v & ii & _ & _ & _ & _ & _ & _ & ->). eexists _, _. split; [reflexivity|].
    split; [apply G2|]. cbn [eng_vdwl virial force eatom].
    split; [destruct (eflag_global fl); [exact (f_equal (Rplus (eng_vdwl a)) (eq_sym ET))|reflexivity]|]. split; [reflexivity|]. split; [reflexivity|].
    intros He. rewrite He. intros i Hi. rewrite position_seq by lia. rewrite Nat.sub_0_r.
    assert (Hx : (i < extent m1 bLe 0)%nat).
    { pose proof (DE0 He [i] ltac:(cbn; lia)) as AA. unfold alloc in AA. cbn [fst snd] in AA. unfold extent. rewrite DE1.
      destruct (proj2 SG0) as [Z|(e & Z)]; cbn [kp_mem] in Z; rewrite Z in AA |- *; cbn in AA |- *; [discriminate|].
      rewrite andb_true_r in AA. apply Nat.ltb_lt in AA. exact AA. }
    rewrite nth_tab by exact Hx. rewrite (proj2 (Nat.ltb_lt i (length B))) by lia.
    apply (f_equal2 Rplus); [|reflexivity]. rewrite (st_va _ _ _ _ (LS1 bLe eq_refl)). destruct (VE0 He i) as [V|V]; [exact V|].
    exfalso. unfold extent in *. rewrite DE1 in Hx. lia.
Qed.
End T.

(** ** The property lemmas *)
Lemma same_added_ext L tags as_ as1 as2 a a' : length as1 = length as2 ->
  (forall r, eng_vdwl (nth r as2 a) = eng_vdwl (nth r as1 a) /\ virial (nth r as2 a) = virial (nth r as1 a) /\ force (nth r as2 a) = force (nth r as1 a)) ->
  same_added L tags as_ as1 a a' -> same_added L tags as_ as2 a a'.
Proof.
  intros EL EQ [[S0 S1] S2 S3 S4]. constructor.
  - split; [congruence|]. intros r Hr. destruct (EQ r) as (_ & -> & ->). apply S1. exact Hr.
  - rewrite <- S2. f_equal. apply map_ext. intros r. destruct (EQ r) as (-> & _). reflexivity.
  - intros k Hk. rewrite <- S3 by exact Hk. f_equal. apply map_ext. intros r. destruct (EQ r) as (_ & -> & _). reflexivity.
  - intros i c Hi Hc. rewrite <- S4 by assumption. f_equal. apply map_ext. intros z. destruct (EQ (fst z)) as (_ & _ & ->). reflexivity.
Qed.
Lemma each_at {X Y} (g : X -> option Y) ps qs : each g ps = Some qs -> forall r p, nth_error ps r = Some p -> exists q, nth_error qs r = Some q /\ g p = Some q.
Proof.
  revert qs. induction ps as [|p ps IH]; intros qs E r p' Hp; [destruct r; discriminate|]. cbn [each] in E. destruct (g p) as [q|] eqn:Eg; [|discriminate]. cbn [bind] in E.
  destruct (each g ps) as [qs'|] eqn:Ee; [|discriminate]. injection E as <-. destruct r as [|r]; cbn [nth_error] in Hp |- *; [injection Hp as <-; eauto|]. apply (IH qs' eq_refl r p' Hp).
Qed.

Section L.
Variable sph : nat -> RNum -> RNum -> RNum -> list RNum * list RNum.
Hypothesis Hsph : sph_ok sph.
Variable junk : mem RNum -> KkSem.cell -> RNum.
Variable srt : list (list (list nat)) -> list (list (list nat)).
Hypothesis Hsrt : forall l, Permutation l (srt l).
Variable f : mace_file RNum.
Hypothesis F : file_ok f.
Hypothesis KF : kk_file_ok f.
Variables (arg : list string) (types : list nat).
Hypothesis ND : NoDup (f_atomic_numbers f).
Hypothesis HC : coeff_types (f_atomic_numbers f) arg = Some types.
Hypothesis HL : (length types <= length (f_atomic_numbers f))%nat.
Notation mt := (mt_of f types).
Lemma types_lt t : In t types -> (t < length (f_atomic_numbers f))%nat.
Proof.
  intros Ht. destruct (PairCoeff.coeff_ok _ _ _ HC) as [_ V]. apply In_nth_error in Ht. destruct Ht as (k & Hk). destruct (V k t Hk) as (s & z & _ & _ & H).
  apply nth_error_Some. rewrite H. discriminate.
Qed.
Notation gen km D rc maxe fl l a OK := (kn_gen sph Hsph junk srt Hsrt f F KF km D types mt rc (mt_rd f types) types_lt maxe fl l a OK).

Lemma reach_good_no km rc s : kld srt f km -> kn_reach sph junk km f rc types mt s -> sgoodm km s.
Proof.
  intros D H. induction H as [|s maxe fl l a s' a' H IH OK HK]; [apply sgood_fresh|].
  destruct (load_ok srt Hsrt f F) as (b0 & _ & LV).
  destruct (gen km D rc maxe fl l a OK s b0 (mkPB (N:=RNum) [] [] [] [] [] [] [] [] [] [] [] [] []) IH LV) as (b1 & p1 & ac & _ & _ & _ & Q).
  destruct (Q _ HK) as (s2 & ak & E & Gd & _). injection E as <- _. exact Gd.
Qed.
Lemma reach_live km rc b0 b : kld srt f km -> bufs_live (ldm f) (ldp0 srt f) (ldp1 srt f) (ldlive f) b0 -> cn_reach sph (ldm f) b0 f rc types b ->
  bufs_live (ldm f) (ldp0 srt f) (ldp1 srt f) (ldlive f) b.
Proof.
  intros D L0 H. induction H as [|b p maxe fl l a b' p' a' H IH OK HK]; [exact L0|].
  destruct (gen km D rc maxe fl l a OK kpm_fresh b p (sgood_fresh km) IH) as (b1 & p1 & ac & E & LV & _). rewrite HK in E. injection E as -> _ _. exact LV.
Qed.

Lemma lemma_C61 rc : exists km mt m b0, kk_load_from_json srt f = Some km /\ coeff_types_kk (f_atomic_numbers f) arg = Some mt /\
  load_from_json srt f = Some (m, b0) /\
  forall b, cn_reach sph m b0 f rc types b -> forall s, kn_reach sph junk km f rc types mt s ->
  forall maxeatom fl l a, no_call_ok f types rc maxeatom fl l a -> forall p,
  exists b1 p1 ac, compute_no_mpi_message_passing (N:=RNum) sph m rc types fl l b p a = Some (b1, p1, ac) /\
    (exists o, kk_no_mpi sph junk km rc mt maxeatom fl l s a o) /\
    forall o, kk_no_mpi sph junk km rc mt maxeatom fl l s a o -> exists s' ak, o = Some (s', ak) /\
      eng_vdwl ak = eng_vdwl ac /\ virial ak = virial ac /\ force ak = force ac /\
      (eflag_atom fl = true -> ilist l = seq 0 (nlocal l) ->
       eatom_added (nlocal l) (ilist l) (b_node_energies b1) (eatom_before_no maxeatom s) (eatom ak)).
Proof.
  destruct (kk_load_ok srt Hsrt f F KF) as (km & EL & D). destruct (load_ok srt Hsrt f F) as (b0 & EC & LV).
  exists km, mt, (ldm f), b0. split; [exact EL|]. split; [apply mt_load; assumption|]. split; [exact EC|].
  intros b Hb s Hs maxe fl l a OK p.
  destruct (gen km D rc maxe fl l a OK s b p (reach_good_no km rc s D Hs) (reach_live km rc b0 b D LV Hb)) as (b1 & p1 & ac & Q1 & _ & Q2 & Q3).
  exists b1, p1, ac. split; [exact Q1|]. split; [exact Q2|]. intros o Ho. destruct (Q3 o Ho) as (s' & ak & -> & _ & R1 & R2 & R3 & R4). exists s', ak.
  split; [reflexivity|]. split; [exact R1|]. split; [exact R2|]. split; [exact R3|]. intros He HO. rewrite HO. apply R4. exact He.
Qed.

(** the processes of a step make admissible calls *)
Lemma step_call rc P t r l a maxe : step_ok f rc types (needed_no_mpi (N:=RNum) rc) P t -> nth_error (d_ranks t) r = Some l -> nth_error (d_acc t) r = Some a ->
  (nlocal l <= maxe)%nat -> no_call_ok f types rc maxe (d_fl t) l a.
Proof.
  intros [S1 S2 S3 S4 S5 S6 S7] Hl Ha Hm. assert (Hin : In l (d_ranks t)) by (eapply nth_error_In; exact Hl). constructor; auto.
  - apply (sp_rank _ _ _ _ _ _ S4 l Hin).
  - clear - S6 Hl Ha. revert r Hl Ha. induction S6 as [|x y xs ys Hxy S6 IH]; intros [|r] Hl Ha; try discriminate; cbn [nth_error] in *.
    + injection Hl as <-. injection Ha as <-. exact Hxy.
    + eapply IH; eauto.
  - intros i j Hi Hj. destruct (proj1 (sp_rank _ _ _ _ _ _ S4 l Hin)) as [_ _ _ _ LA]. destruct (LA i Hi) as (Hi1 & _).
    assert (HT : In (tag l i) (local_tags (d_L t))) by (apply (sp_ghost _ _ _ _ _ _ S4 l i Hin Hi1)). unfold local_tags in HT.
    assert (LT : length (atom_tag (d_L t)) = (nlocal (d_L t) + nghost (d_L t))%nat) by apply (oo_tag _ _ S3).
    apply (In_nth _ _ 0%nat) in HT. destruct HT as (k & Hk & Ek). rewrite firstn_length in Hk. rewrite nth_firstn_lt in Ek by lia.
    destruct (sp_env _ _ _ _ _ _ S4 l i k Hin Hi ltac:(lia) (eq_sym Ek)) as [_ PE].
    assert (HI : In (tag l j, nth j (atom_type l) 0%nat, (sep (atom_x l) i j 0, sep (atom_x l) i j 1, sep (atom_x l) i j 2)) (env (N:=RNum) rc (d_L t) k)).
    { apply (Permutation_in _ PE). unfold env. apply (in_map (fun j => (tag l j, nth j (atom_type l) 0%nat, (sep (atom_x l) i j 0, sep (atom_x l) i j 1, sep (atom_x l) i j 2)))). exact Hj. }
    unfold env in HI. apply in_map_iff in HI. destruct HI as (j' & E & Hj'). pose proof (f_equal (fun q => fst (fst (snd q))) E) as E0. pose proof (f_equal (fun q => snd (fst (snd q))) E) as E1. pose proof (f_equal (fun q => snd (snd q)) E) as E2.
    cbn [fst snd] in E0, E1, E2.
    assert (Es : sep2 (N:=RNum) (atom_x l) i j = sep2 (N:=RNum) (atom_x (d_L t)) k j') by (unfold sep2; rewrite <- E0, <- E1, <- E2; reflexivity).
    rewrite Es. apply (io_dom _ _ S5). cbn [nd_input i_r]. apply in_flat_map. exists k. split.
    + destruct (lo_il _ _ _ S2) as [_ PL]. apply (Permutation_in _ (Permutation_sym PL)). apply in_seq. lia.
    + apply (in_map (fun j => nsqrt (sep2 (N:=RNum) (atom_x (d_L t)) k j))). exact Hj'.
Qed.

Lemma lemma_C61_serial rc : exists km mt m b0, kk_load_from_json srt f = Some km /\ coeff_types_kk (f_atomic_numbers f) arg = Some mt /\
  load_from_json srt f = Some (m, b0) /\
  forall hist, Forall (input_ok f) hist -> exists bh, calls sph m b0 hist = Some bh /\
  forall t qs, kprocs_ok sph junk km f rc types mt t qs -> forall p a, acc_ok (d_L t) a ->
  exists b1 p1 a1, compute_no_domain_decomposition (N:=RNum) sph m rc types (d_fl t) (d_L t) bh p a = Some (b1, p1, a1) /\
    (exists os, kk_no_run sph junk km rc mt (d_fl t) qs os) /\
    forall os, kk_no_run sph junk km rc mt (d_fl t) qs os -> exists rs, os = map Some rs /\
      same_added (d_L t) (map (fun q => atom_tag (kq_l q)) qs) (map kq_a qs) (map snd rs) a a1 /\
      forall r q x, nth_error qs r = Some q -> nth_error rs r = Some x -> eflag_atom (d_fl t) = true -> ilist (kq_l q) = seq 0 (nlocal (kq_l q)) ->
        forall i j, (i < nlocal (kq_l q))%nat -> (j < nlocal (d_L t))%nat -> tag (kq_l q) i = tag (d_L t) j ->
        nth i (eatom (snd x)) 0 = nth i (eatom_before_no (kq_max q) (kq_st q)) 0 + nth (position j (ilist (d_L t))) (b_node_energies b1) 0.
Proof.
  destruct (kk_load_ok srt Hsrt f F KF) as (km & EL & D). destruct (load_ok srt Hsrt f F) as (b0 & EC & LV).
  exists km, mt, (ldm f), b0. split; [exact EL|]. split; [apply mt_load; assumption|]. split; [exact EC|].
  intros hist Hh. destruct (calls_ok sph Hsph srt f F b0 hist LV Hh) as (bh & Eh & Lh). exists bh. split; [exact Eh|].
  intros t qs [K1 K2 K3 K4 K5] p a Ha. set (P := length qs) in *. set (pb := mkPB (N:=RNum) [] [] [] [] [] [] [] [] [] [] [] [] []).
  set (st := repeat (b0, pb) P).
  destruct (no_one sph Hsph srt f F types rc P t st K1 (repeat_length _ _)) as (cs & EP & Lc & _ & HS).
  { intros q Hq. apply repeat_spec in Hq. subst q. exact LV. }
  destruct (HS bh p a Lh Ha) as (b1 & p1 & a1 & C1 & C2 & C3). exists b1, p1, a1. split; [exact C1|].
  (* every process *)
  assert (ON : forall r q, nth_error qs r = Some q -> exists c, nth_error cs r = Some c /\ nth_error (d_ranks t) r = Some (kq_l q) /\
    (exists o, kk_no_mpi sph junk km rc mt (kq_max q) (d_fl t) (kq_l q) (kq_st q) (kq_a q) o) /\
    forall o, kk_no_mpi sph junk km rc mt (kq_max q) (d_fl t) (kq_l q) (kq_st q) (kq_a q) o -> exists s' ak, o = Some (s', ak) /\
      eng_vdwl ak = eng_vdwl (pr_a c) /\ virial ak = virial (pr_a c) /\ force ak = force (pr_a c) /\
      (eflag_atom (d_fl t) = true -> eatom_added (nlocal (kq_l q)) (seq 0 (nlocal (kq_l q))) (b_node_energies (pr_b c)) (eatom_before_no (kq_max q) (kq_st q)) (eatom ak))).
  { intros r q Hq. assert (Hin : In q qs) by (eapply nth_error_In; exact Hq).
    assert (Hr : (r < P)%nat) by (apply nth_error_Some; congruence).
    assert (Rl : nth_error (d_ranks t) r = Some (kq_l q)) by (rewrite <- K2, nth_error_map, Hq; reflexivity).
    assert (Ra : nth_error (d_acc t) r = Some (kq_a q)) by (rewrite <- K3, nth_error_map, Hq; reflexivity).
    assert (Rs : nth_error st r = Some (b0, pb)) by (apply nth_error_repeat; exact Hr).
    assert (Rp : nth_error (procs t st) r = Some (mkProc (N:=RNum) (kq_l q) b0 pb (kq_a q))).
    { unfold procs. rewrite nth_error_map, !nth_error_combine, Rl, Ra, Rs. reflexivity. }
    destruct (each_at _ _ _ EP r _ Rp) as (c & Hc & Ec). cbn [pr_l pr_b pr_p pr_a] in Ec. exists c. split; [exact Hc|]. split; [exact Rl|].
    pose proof (step_call rc P t r (kq_l q) (kq_a q) (kq_max q) K1 Rl Ra (K5 q Hin)) as OK.
    destruct (gen km D rc (kq_max q) (d_fl t) (kq_l q) (kq_a q) OK (kq_st q) b0 pb (reach_good_no km rc _ D (K4 q Hin)) LV) as (b1r & p1r & acr & Q1 & _ & Q2 & Q3).
    change (carrier RNum) with R in *. rewrite Q1 in Ec. cbn [bind] in Ec. injection Ec as <-. cbn [pr_a pr_b]. split; [exact Q2|].
    intros o Ho. destruct (Q3 o Ho) as (s' & ak & -> & _ & Q). exists s', ak. split; [reflexivity|exact Q]. }
  split.
  - assert (EX : forall q, In q qs -> exists o, kk_no_mpi sph junk km rc mt (kq_max q) (d_fl t) (kq_l q) (kq_st q) (kq_a q) o).
    { intros q Hq. apply In_nth_error in Hq. destruct Hq as (r & Hr). destruct (ON r q Hr) as (c & _ & _ & X & _). exact X. }
    clear - EX. unfold kk_no_run. induction qs as [|q qs IH]; [exists []; constructor|].
    destruct (EX q (or_introl eq_refl)) as (o & Ho). destruct IH as (os & Hos); [intros; apply EX; right; assumption|]. exists (o :: os). constructor; assumption.
  - intros os Hos.
    assert (RS : exists rs, os = map Some rs).
    { assert (X : forall o, In o os -> exists x, o = Some x).
      { intros o Ho. apply In_nth_error in Ho. destruct Ho as (r & Hr).
        assert (HQ : exists q, nth_error qs r = Some q /\ kk_no_mpi sph junk km rc mt (kq_max q) (d_fl t) (kq_l q) (kq_st q) (kq_a q) o).
        { clear - Hos Hr. revert r Hr. induction Hos as [|q o' qs os Hq Hos IH]; intros [|r] Hr; try discriminate; cbn [nth_error] in *; [injection Hr as <-; eauto|]. apply IH. exact Hr. }
        destruct HQ as (q & Hq & Hk). destruct (ON r q Hq) as (c & _ & _ & _ & X). destruct (X o Hk) as (s' & ak & -> & _). eauto. }
      clear - X. induction os as [|o os IH]; [exists []; reflexivity|]. destruct (X o (or_introl eq_refl)) as (x & ->). destruct IH as (rs & ->); [intros; apply X; right; assumption|].
      exists (x :: rs). reflexivity. }
    destruct RS as (rs & ->). exists rs. split; [reflexivity|].
    assert (LR : length rs = P).
    { unfold P. rewrite <- (map_length Some rs). clear - Hos. unfold kk_no_run in Hos. induction Hos; cbn [length]; congruence. }
    assert (AT : forall r q x, nth_error qs r = Some q -> nth_error rs r = Some x -> kk_no_mpi sph junk km rc mt (kq_max q) (d_fl t) (kq_l q) (kq_st q) (kq_a q) (Some x)).
    { clear - Hos. unfold kk_no_run in Hos. remember (map Some rs) as os eqn:E. revert rs E. induction Hos as [|q o qs os Hq Hos IH]; intros rs E r q' x H1 H2; [destruct r; discriminate|].
      destruct rs as [|x' rs]; [discriminate|]. injection E as -> ->. destruct r as [|r]; cbn [nth_error] in *; [injection H1 as <-; injection H2 as <-; exact Hq|]. eapply IH; eauto. }
    split.
    + replace (map (fun q => atom_tag (kq_l q)) qs) with (map (fun l : lmp RNum => atom_tag l) (d_ranks t)) by (rewrite <- K2, map_map; reflexivity). rewrite K3.
      eapply same_added_ext; [|intros r|exact C3]; [rewrite !map_length; congruence|].
      destruct (nth_error qs r) as [q|] eqn:Hq.
      * assert (Hr : (r < P)%nat) by (apply nth_error_Some; congruence). destruct (nth_error rs r) as [x|] eqn:Hx; [|apply nth_error_None in Hx; lia].
        destruct (ON r q Hq) as (c & Hc & _ & _ & X). destruct (X _ (AT r q x Hq Hx)) as (s' & ak & E & R1 & R2 & R3 & _). injection E as ->.
        rewrite (nth_error_nth (map snd rs) r a (map_nth_error snd r rs Hx)), (nth_error_nth (map (fun q => pr_a q) cs) r a (map_nth_error (fun q => pr_a q) r cs Hc)). cbn [snd]. auto.
      * apply nth_error_None in Hq. fold P in Hq. rewrite !nth_overflow by (rewrite map_length; lia). auto.
    + intros r q x Hq Hx He HO i j Hi Hj T. destruct (ON r q Hq) as (c & Hc & Rl & _ & X). destruct (X _ (AT r q x Hq Hx)) as (s' & ak & E & _ & _ & _ & R4). injection E as ->. cbn [snd].
      refine (eq_trans (R4 He i Hi) _). rewrite <- HO. apply (f_equal (Rplus _)). apply (se_node _ _ _ _ _ _ (C2 r (kq_l q) c Rl Hc) i j Hi Hj T).
Qed.
End L.
