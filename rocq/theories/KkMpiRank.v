(** One process of the Kokkos pair style in mode mpi_message_passing, between the communications.  Used in proofs only. *)
From Coq Require Import String List Arith ZArith Bool Lia Reals Lra Permutation.
From Verif Require Import Base BaseLemmas Segs Instances RSums MpModel MaceModel MaceSpec MaceSpec2 MaceGradSpec MlpR Sys SysLoops MacePure MaceStages1 MacePipe MaceLoad MaceFlat MaceForces
  MaceThms AseSpec AseGrad PairModel PairMpiModel PairSpec PairThms PairTally PairKokkosModel PairCoeffSpec PairCoeff DistPipe DistSpec DistTags DistNbr DistMpi DistThms.
From Verif Require Import KkSem KkSound KkWp KkModel KkHost KkEq KkChain KkStage1 KkSpec KkLoad1 KkLoad2 KkLoad3 KkLoad4 KkThms KkPairModel KkPairSetup KkPairKernels KkPairTally KkPairSpec
  KkPairThms KkPairMpi2Model KkPairMpi2Spec KkMpiPipe.
Import ListNotations.
Local Open Scope R_scope.

(** ** the elements of a view as a list *)
Section Elements.
Variable km : kmace RNum.
Notation K := (k_num_channels km).
Notation M := (k_num_LM km).
Lemma length_elements (m : rmem) b : length (elements km m b) = (extent m b 0 * (M * K))%nat.
Proof. unfold elements. rewrite map_length, seq_length. reflexivity. Qed.
Lemma nth_elements (m : rmem) b i j k d : (i < extent m b 0)%nat -> (j < M)%nat -> (k < K)%nat ->
  nth (i * (M * K) + (j * K + k)) (elements km m b) d = va m (b, [i; j; k]).
Proof.
  intros Hi Hj Hk. assert (Hjk : (j * K + k < M * K)%nat) by nia.
  apply nth_error_nth. unfold elements. rewrite nth_error_map.
  rewrite (nth_error_nth' _ 0%nat) by (rewrite seq_length; nia). rewrite seq_nth by nia. cbn [option_map]. rewrite Nat.add_0_l.
  assert (E1 : ((i * (M * K) + (j * K + k)) / (M * K) = i)%nat) by (rewrite Nat.div_add_l by lia; rewrite Nat.div_small by lia; lia).
  assert (E2 : ((i * (M * K) + (j * K + k)) mod (M * K) = j * K + k)%nat) by (rewrite Nat.add_comm, Nat.mod_add by lia; apply Nat.mod_small; lia).
  assert (E3 : ((i * (M * K) + (j * K + k)) mod K = k)%nat).
  { replace (i * (M * K) + (j * K + k))%nat with (k + (i * M + j) * K)%nat by ring. rewrite Nat.mod_add by lia. apply Nat.mod_small. exact Hk. }
  assert (E4 : ((j * K + k) / K = j)%nat) by (rewrite Nat.div_add_l by lia; rewrite Nat.div_small by lia; lia).
  rewrite E1, E2, E3, E4. reflexivity.
Qed.
Lemma set_elements_has m b ext h n g : (n <= nth 0 ext 0%nat)%nat ->
  (forall i j k, (i < n)%nat -> (j < M)%nat -> (k < K)%nat -> nth (i * (M * K) + (j * K + k)) h (0 : R) = g i j k) ->
  has3 (set_elements km m b ext h) b n M K g.
Proof.
  intros Hn Hv. split; [unfold extent, set_elements; rewrite dims_set_eq; exact Hn|]. intros i j k Hi Hj Hk. unfold set_elements. rewrite va_set_eq, RNum_zero. apply Hv; auto.
Qed.
End Elements.

(** extents of H1 of the pair style *)
Definition hshape (km : kmace RNum) (ds : list nat) : Prop := ds = [] \/ exists e, ds = [e; k_num_LM km; k_num_channels km].
(** states between calls *)
Definition dgood (km : kmace RNum) (s : kpaird RNum) : Prop :=
  good km (kpd_mem s) /\ (dims (kpd_mem s) bLe = [] \/ exists e, dims (kpd_mem s) bLe = [e]) /\ (kpd_shared s = true \/ hshape km (dims (kpd_mem s) bLh)).
Lemma dgood_fresh km : dgood km kpd_fresh.
Proof. split; [apply good_fresh|]. split; [left; reflexivity|]. right. left. reflexivity. Qed.

Section R.
Variable sph : nat -> RNum -> RNum -> RNum -> list RNum * list RNum.
Variable junk : mem RNum -> KkSem.cell -> RNum.
Variable km : kmace RNum.
Variable mm : mace_model RNum.
Variables (P0 P1 : nat -> @mpoly RNum).
Variable fe : list RNum -> RNum.
Variable fg : list RNum -> nat -> RNum.
Variable H : nat.
Variables (w0 w1 : nat -> nat -> R) (V0 V1 : view RNum).
Hypothesis W : mace_wf mm.
Variables (types : list nat) (mt : list Z) (rc : R).
Hypothesis HT : forall k t, rd types k = Some t -> rd mt k = Some (Z.of_nat t).
Variables (maxe : nat) (fl : ev) (l : lmp RNum) (a : accum RNum).
Notation B := (ilist l).
Notation nall := (nlocal l + nghost l)%nat.
Hypothesis L : lmp_ok (length types) B l.
Hypothesis Hil : B = seq 0 (nlocal l).
Hypothesis AO : acc_ok l a.
Hypothesis Hva : vflag_atom fl = false.
Hypothesis Hmax : (nlocal l <= maxe)%nat.
Notation s := (sys_on (N:=RNum) types rc l (fun j => j) B).
Hypothesis KI : kin km mm P0 P1 fe fg H w0 w1 V0 V1 s nall.
Notation n := (length s).
Notation nE := (length (epairs s)).
Notation K := (k_num_channels km).
Notation M := (k_num_LM km).
Notation NN := (f_num_neigh s).

Lemma n_loc : n = nlocal l.
Proof. rewrite length_on, Hil, seq_length. reflexivity. Qed.
Lemma inum_n : inum l = n.
Proof. rewrite n_loc. apply (lo_il _ _ _ L). Qed.
Lemma n_le : (n <= nall)%nat.
Proof. rewrite n_loc. lia. Qed.
Notation w := (mkKV B (f_node_types s) NN (tab n (fun ii => list_sum (firstn ii NN))) (f_neigh_indices s) (f_neigh_types s) (f_xyz s) (f_r s)).
Lemma w_eq : set_up l rc types B (fun j => j) = w.
Proof.
  unfold set_up. rewrite length_on. unfold eoff. rewrite nn_on, nt_on, ix_on, et_on, r_on, xyz_on.
  rewrite <- (map_kpairs l rc (fun _ j => j)), <- (map_kpairs l rc (fun _ j => spec_of types l j)),
    <- (map_kpairs l rc (fun i j => nsqrt (sep2 (atom_x l) i j))), <- (flat_kpairs l rc (fun i j => [sep (atom_x l) i j 0; sep (atom_x l) i j 1; sep (atom_x l) i j 2])).
  reflexivity.
Qed.

(** the views shared with LAMMPS *)
Record lv (q : kpaird RNum) (m : rmem) : Prop := {
  lv_f : dims m bLf = [nall; 3%nat];
  lv_fv : forall i c, va m (bLf, [i; c]) = nth (3 * i + c) (force a) 0;
  lv_e : dims m bLe = [] \/ exists e, dims m bLe = [e];
  lv_ec : eflag_atom fl = true -> cov m bLe [maxe];
  lv_ev : eflag_atom fl = true -> forall i, va m (bLe, [i]) = nth i (eatom_before_mpi maxe q) 0 \/ (extent m bLe 0 <= i)%nat }.
Lemma lv_st q m m' : st m' bLf = st m bLf -> st m' bLe = st m bLe -> lv q m -> lv q m'.
Proof.
  intros E1 E2 [A1 A2 A3 A4 A5]. pose proof (st_dims _ _ _ E1) as D1. pose proof (st_dims _ _ _ E2) as D2. constructor.
  - rewrite D1. exact A1.
  - intros i c. rewrite (st_va _ _ _ _ E1). apply A2.
  - rewrite D2. exact A3.
  - intros He. eapply cov_dims; [exact D2|auto].
  - intros He i. rewrite (st_va _ _ _ _ E2), (st_ext _ _ _ _ E2). auto.
Qed.
Lemma lv_lsame q m m' : lsame m m' -> lv q m -> lv q m'.
Proof. intros E. apply lv_st; apply E; reflexivity. Qed.

(** before the first communication *)
Record begun (q x : kpaird RNum) : Prop := {
  bg_lay : lay1 sph km mm P0 s (kpd_mem x);
  bg_zero : zero_ mm s (kpd_mem x);
  bg_shape : hshape km (dims (kpd_mem x) (own_H1 (kpd_shared x)));
  bg_ext : (nall <= extent (kpd_mem x) (own_H1 (kpd_shared x)) 0)%nat;
  bg_val : forall i j k, (i < n)%nat -> (j < M)%nat -> (k < K)%nat -> va (kpd_mem x) (own_H1 (kpd_shared x), [i; j; k]) = pH1 (N:=RNum) sph mm P0 s i j k;
  bg_lv : lv q (kpd_mem x) }.
Lemma keep_ok q : dgood km q -> let m := keep_H1 (kpd_shared q) (kpd_mem q) in good km m /\ hshape km (dims m bLh) /\ st m bLe = st (kpd_mem q) bLe.
Proof.
  intros (G & _ & HS). cbv zeta. unfold keep_H1. destruct (kpd_shared q).
  - split; [apply good_set; [reflexivity|exact Logic.I|exact G]|]. split; [rewrite dims_set_eq; exact (g_sz _ _ G bH1)|]. apply (oth_set (kpd_mem q) bLh). reflexivity.
  - split; [exact G|]. split; [|reflexivity]. destruct HS as [HS|HS]; [discriminate|exact HS].
Qed.
Lemma begin_lv q : dgood km q -> let m := lammps_views (N:=RNum) fl maxe a (keep_H1 (kpd_shared q) (kpd_mem q)) in good km m /\ hshape km (dims m bLh) /\ lv q m.
Proof.
  intros G. cbv zeta. destruct (keep_ok q G) as (G1 & HS & SE). set (m0 := keep_H1 (kpd_shared q) (kpd_mem q)) in *.
  assert (SG : sgood km (mkKP m0 (kpd_views q))).
  { split; cbn [kp_mem]; [exact G1|]. rewrite (st_dims _ _ _ SE). apply G. }
  destruct (lammps_views_ok km fl maxe a (mkKP m0 (kpd_views q)) nall SG (ao_f _ _ AO)) as ([GG DE] & DL & VL & CE & VE). cbn [kp_mem kp_views] in *.
  split; [exact GG|]. split.
  - unfold lammps_views. set (m1 := set_view m0 bLf _ _). assert (E : dims m1 bLh = dims m0 bLh) by (apply dims_set_ne; discriminate).
    destruct (eflag_atom fl && _); [unfold KkSem.realloc; rewrite dims_set_ne by discriminate|]; rewrite E; exact HS.
  - constructor; auto. intros He i. destruct (VE He i) as [V|V]; [left|right; exact V]. rewrite V. unfold eatom_before, eatom_before_mpi. cbn [kp_mem].
    replace (kk_view m0 bLe) with (kk_view (kpd_mem q) bLe); [reflexivity|]. unfold kk_view. rewrite (st_ext _ _ _ _ SE). apply map_ext. intros j. symmetry. exact (st_va _ _ _ _ SE).
Qed.
Lemma hshape_cov m b e : hshape km (dims m b) -> (e <= extent m b 0)%nat -> cov m b [e; M; K].
Proof.
  intros [E|(x & E)] He; unfold extent in He; rewrite E in He; cbn in He.
  - assert (e = 0%nat) by lia. subst e. intros [|i idx] Hi; cbn in Hi; [contradiction|]. destruct Hi; lia.
  - eapply cov_ext; eauto.
Qed.
Lemma begin_ok q : dgood km q ->
  (exists o, kk_mpi_begin sph junk km rc mt maxe fl l q a o) /\
  forall o, kk_mpi_begin sph junk km rc mt maxe fl l q a o -> exists x, o = Some (x, w) /\ begun q x.
Proof.
  intros G. destruct (begin_lv q G) as (G0 & HS0 & LV0). set (m0 := lammps_views (N:=RNum) fl maxe a (keep_H1 (kpd_shared q) (kpd_mem q))) in *.
  pose proof inum_n as En.
  assert (SU : forall ord1 ord2, Permutation (seq 0 (inum l)) ord1 -> Permutation (seq 0 (inum l)) ord2 ->
     exists v', setup l mt (nmul (rc : RNum) rc) ord1 ord2 (inum l) (rd B) (fun j => Some (Some j)) (kpd_views q) = Some (w, v')).
  { intros ord1 ord2 Q1 Q2. rewrite <- w_eq. assert (EB : inum l = length B) by (symmetry; apply (il_len l types L)).
    rewrite EB in *. apply (setup_ok l rc types B L mt HT B (incl_refl B)); auto.
    intros ii Hii. apply rd_some. exact Hii. }
  destruct (hok_exec _ _ _ (first_ok sph junk km mm P0 P1 fe fg H w0 w1 V0 V1 s nall KI n_le m0 G0)) as (m1 & K1 & Y1 & Z1 & HH1 & LS1).
  assert (K1' : forall o, hexec ([hop (keep_H1 (kpd_shared q)); hop (lammps_views fl maxe a)]
         ++ kk_mpi_first sph junk km (inum l) (length (kv_r w)) (kv_node_types w) (kv_num_neigh w) (kv_neigh_types w) (kv_xyz w) (kv_r w)) (kpd_mem q) o <-> o = Some m1).
  { rewrite En. cbn [kv_r kv_node_types kv_num_neigh kv_neigh_types kv_xyz app]. apply exec_hop, exec_hop. rewrite MaceStages1.length_r. exact K1. }
  assert (LV1 : lv q m1) by (eapply lv_lsame; eauto).
  assert (HS1 : hshape km (dims m1 bLh)) by (rewrite (st_dims _ _ _ (LS1 bLh eq_refl)); exact HS0).
  pose proof (g_sz _ _ (y_good _ _ _ _ _ _ Y1) bH1) as HSH. change (hshape km (dims m1 bH1)) in HSH.
  set (shared := kpd_shared q && (extent m1 bH1 0 =? extent m1 bLh 0)%nat) in *.
  set (rows := (inum l + nghost l)%nat) in *. assert (ER : rows = nall) by (unfold rows; rewrite En, n_loc; reflexivity).
  set (small := (extent m1 (own_H1 shared) 0 <? rows)%nat) in *. set (shared' := shared && negb small) in *.
  assert (HSo : forall b, hshape km (dims m1 (own_H1 b))) by (intros []; [exact HSH|exact HS1]).
  assert (PRE : exists m1', (forall o, hexec (if small then [hop (KkSem.realloc bLh [rows; M; K])] else []) m1 o <-> o = Some m1') /\ lay1 sph km mm P0 s m1' /\ zero_ mm s m1' /\
      has3 m1' bH1 n M K (pH1 (N:=RNum) sph mm P0 s) /\ lv q m1' /\ hshape km (dims m1' (own_H1 shared')) /\ (nall <= extent m1' (own_H1 shared') 0)%nat).
  { destruct small eqn:Es.
    - exists (KkSem.realloc bLh [rows; M; K] m1). split; [apply exec_hop; intros o; split; [intros X; inversion X; reflexivity|intros ->; constructor]|].
      assert (OT : oth (KkChain.one bLh) m1 (KkSem.realloc bLh [rows; M; K] m1)) by apply oth_set.
      split; [apply lay1_set; [reflexivity|exact Logic.I|auto|exact Y1]|]. split; [eapply zero_st; [apply (OT bE eq_refl)|apply (OT bF eq_refl)|exact Z1]|].
      split; [eapply has3_st; [apply (OT bH1 eq_refl)|exact HH1]|]. split; [eapply lv_st; [apply (OT bLf eq_refl)|apply (OT bLe eq_refl)|exact LV1]|].
      unfold shared'. rewrite andb_false_r. cbn [own_H1]. unfold extent, KkSem.realloc. rewrite dims_set_eq. split; [right; eauto|]. cbn. lia.
    - exists m1. split; [intros o; split; [intros X; inversion X; reflexivity|intros ->; constructor]|]. unfold shared'. rewrite andb_true_r.
      split; [exact Y1|]. split; [exact Z1|]. split; [exact HH1|]. split; [exact LV1|]. split; [apply HSo|]. unfold small in Es. apply Nat.ltb_ge in Es. lia. }
  destruct PRE as (m1' & K2 & Y2 & Z2 & HH2 & LV2 & HS2 & HX2).
  assert (Eo : exists b, own_H1 shared' = b /\ (b = bH1 \/ b = bLh)) by (destruct shared'; cbn; eauto).
  destruct Eo as (b & Eb & Hb). rewrite Eb in *.
  assert (HB : hok [HRun (sort_H1 km (inum l) B b)] m1' (fun m2 => begun q (mkKPD m2 (kpd_views q) shared'))).
  { rewrite En. assert (EB : forall X, X = B -> sort_H1 km n X b = sort_H1 km n (seq 0 n) b) by (intros X ->; apply (f_equal (fun X => sort_H1 km n X b)); rewrite n_loc; exact Hil).
    rewrite (EB _ eq_refl). eapply hok_k; [apply (k_sort km n b m1')|].
    - destruct Hb as [->| ->]; discriminate.
    - eapply has3_cov; [apply (y_good _ _ _ _ _ _ Y2)|reflexivity|reflexivity|exact HH2].
    - apply hshape_cov; [exact HS2|]. pose proof n_le. lia.
    - cbn beta. intros m2 KP V. apply hok_nil. pose proof (oth_keep _ _ _ KP) as OT. constructor; cbn [kpd_mem kpd_shared]; rewrite ?Eb.
      + eapply lay1_keep; [|exact Y2]. destruct Hb as [->| ->]; auto.
      + destruct Hb as [->| ->]; (eapply zero_st; [apply (OT bE eq_refl)|apply (OT bF eq_refl)|exact Z2]).
      + rewrite (proj1 KP). exact HS2.
      + rewrite (keep_ext _ _ _ _ _ KP). exact HX2.
      + intros i j k Hi Hj Hk. rewrite V by auto. apply HH2; auto.
      + destruct Hb as [->| ->]; (eapply lv_st; [apply (OT bLf eq_refl)|apply (OT bLe eq_refl)|exact LV2]). }
  destruct (hok_exec _ _ _ HB) as (m2 & K3 & BG).
  assert (RR : forall o, kk_mpi_begin sph junk km rc mt maxe fl l q a o <-> exists ord1 ord2 v, Permutation (seq 0 (inum l)) ord1 /\ Permutation (seq 0 (inum l)) ord2 /\
     setup l mt (nmul (rc : RNum) rc) ord1 ord2 (inum l) (rd B) (fun j => Some (Some j)) (kpd_views q) = Some (w, v) /\ o = Some (mkKPD m2 v shared', w)).
  { intros o. unfold kk_mpi_begin. cbv zeta. split.
    - intros (o1 & o2 & Q1 & Q2 & X). destruct (SU o1 o2 Q1 Q2) as (v & ES). rewrite ES in X. destruct X as (o' & X1 & X2).
      apply K1' in X1. subst o'. fold rows shared in X2. destruct X2 as (o'' & X2 & ->). fold small shared' in X2. rewrite Eb in X2. apply (exec_app _ _ _ _ _ K2 K3) in X2. subst o''. exists o1, o2, v. auto.
    - intros (o1 & o2 & v & Q1 & Q2 & ES & ->). exists o1, o2. split; [exact Q1|]. split; [exact Q2|]. rewrite ES. exists (Some m1). split; [apply K1'; reflexivity|].
      fold rows shared. exists (Some m2). fold small shared'. rewrite Eb. split; [apply (exec_app _ _ _ _ _ K2 K3); reflexivity|reflexivity]. }
  split.
  - destruct (SU _ _ (Permutation_refl _) (Permutation_refl _)) as (v & ES). eexists. apply RR. do 3 eexists. split; [apply Permutation_refl|]. split; [apply Permutation_refl|]. split; [exact ES|reflexivity].
  - intros o Ho. apply RR in Ho. destruct Ho as (o1 & o2 & v & _ & _ & _ & ->). eexists. split; [reflexivity|].
    destruct BG as [C1 C2 C3 C4 C5 C6]. constructor; auto.
Qed.

(** from the first to the second communication *)
Variable Hf : nat -> nat -> nat -> R.
Record middled (q x : kpaird RNum) : Prop := {
  md_lay : lay1 sph km mm P0 s (kpd_mem x);
  md_E : has1 (kpd_mem x) bE n (hE (N:=RNum) sph mm P1 fe s Hf);
  md_F : has1 (kpd_mem x) bF (3 * nE) (eflat s 3 (gF2 (N:=RNum) sph mm P1 fg s Hf));
  md_H : has3 (kpd_mem x) bH1a nall M K (fun i L k => at_ (N:=RNum) (gH1l (N:=RNum) sph mm P1 fg s Hf nall) (i * (num_LM mm * m_num_channels mm) + (L * m_num_channels mm + k)));
  md_sh : kpd_shared x = true;
  md_lv : lv q (kpd_mem x) }.
Lemma middle_ok q x h : begun q x ->
  (forall i j k, (i < nall)%nat -> (j < M)%nat -> (k < K)%nat -> nth (i * (M * K) + (j * K + k)) h (0 : R) = Hf i j k) ->
  exists x', (forall o, kk_mpi_middle junk km (inum l) x w h o <-> o = Some x') /\ middled q x'.
Proof.
  intros [C1 C2 C3 C4 C5 C6] Hh. set (m0 := set_elements km (kpd_mem x) bH1 (dims (kpd_mem x) (own_H1 (kpd_shared x))) h).
  assert (OT : oth (KkChain.one bH1) (kpd_mem x) m0) by apply oth_set.
  assert (Y0 : lay1 sph km mm P0 s m0) by (apply lay1_set; [reflexivity|exact C3|auto|exact C1]).
  assert (Z0 : zero_ mm s m0) by (eapply zero_st; [apply (OT bE eq_refl)|apply (OT bF eq_refl)|exact C2]).
  assert (H0 : has3 m0 bH1 nall M K Hf) by (apply set_elements_has; [exact C4|exact Hh]).
  destruct (hok_exec _ _ _ (second_ok sph junk km mm P0 P1 fe fg H w0 w1 V0 V1 s nall KI W n_le Hf m0 Y0 Z0 H0)) as (m1 & K1 & Y1 & HE & HF & HA & LS & _).
  exists (mkKPD m1 (kpd_views x) true). split.
  - intros o. unfold kk_mpi_middle. cbn [kv_node_types kv_num_neigh kv_neigh_indices kv_neigh_types kv_xyz kv_r]. rewrite inum_n. split.
    + intros (o' & X & ->). apply K1 in X. subst o'. reflexivity.
    + intros ->. exists (Some m1). split; [apply K1; reflexivity|reflexivity].
  - constructor; cbn [kpd_mem kpd_shared]; auto. eapply lv_lsame; [exact LS|]. eapply lv_st; [apply (OT bLf eq_refl)|apply (OT bLe eq_refl)|exact C6].
Qed.

(** after the second communication *)
Variable Had : nat -> nat -> nat -> R.
Notation En := (tab n (hE (N:=RNum) sph mm P1 fe s Hf)).
Notation Fo := (eb (N:=RNum) s 3 (rrF (N:=RNum) sph mm P0 s Had (gF2 (N:=RNum) sph mm P1 fg s Hf))).
Lemma end_ok q x h ac : middled q x ->
  (forall i j k, (i < n)%nat -> (j < M)%nat -> (k < K)%nat -> nth (i * (M * K) + (j * K + k)) h (0 : R) = Had i j k) ->
  tally (N:=RNum) fl n n B NN (f_neigh_indices s) (f_xyz s) En Fo a = Some ac ->
  exists x' ak, (forall o, kk_mpi_end junk km (inum l) fl a x w h o <-> o = Some (x', ak)) /\ dgood km x' /\
    eng_vdwl ak = eng_vdwl ac /\ virial ak = virial ac /\ force ak = force ac /\
    (eflag_atom fl = true -> eatom_added (nlocal l) (seq 0 (nlocal l)) En (eatom_before_mpi maxe q) (eatom ak)).
Proof.
  intros [C1 C2 C3 C4 Csh C5] Hh CE. destruct AO as [Af Ae Av].
  assert (HL : (k_num_LM km = num_LM mm)%nat) by (unfold k_num_LM, num_LM; rewrite (ki_L _ _ _ _ _ _ _ _ _ _ _ _ _ KI); reflexivity).
  (* CPU *)
  assert (LNN : length NN = length B) by (rewrite nn_on; apply map_length).
  assert (EPL : nE = list_sum NN).
  { rewrite <- (map_length snd (epairs s)), (map_snd_epairs s), all_edges_on, map_length, nn_on. unfold kpairs. rewrite length_flat_map. apply (f_equal list_sum). apply map_ext. intros i. rewrite map_length. reflexivity. }
  assert (LX : length (f_xyz s) = (3 * list_sum NN)%nat) by (rewrite length_xyz, EPL; apply Nat.mul_comm).
  assert (LJ : length (f_neigh_indices s) = list_sum NN) by (rewrite <- EPL, ix_on, map_length, <- (map_length snd (epairs s)), (map_snd_epairs s), all_edges_on, map_length; reflexivity).
  assert (LF : length (Fo : list R) = (3 * list_sum NN)%nat) by (etransitivity; [apply MaceStages1.length_eb|]; rewrite EPL; apply Nat.mul_comm).
  assert (LE : length (En : list R) = n) by apply length_tab.
  assert (LBn : length B = n) by (symmetry; apply length_on).
  assert (HBlt : forall i, In i B -> (i < nall)%nat) by (intros i Hi; apply (il_in l types L) in Hi; lia).
  assert (HJlt : forall j, In j (f_neigh_indices s) -> (j < nall)%nat).
  { intros j Hj. rewrite ix_on in Hj. apply in_map_iff in Hj. destruct Hj as (p & <- & Hp). unfold kpairs in Hp. apply in_flat_map in Hp. destruct Hp as (i & Hi & Hp). apply in_map_iff in Hp. destruct Hp as (j & <- & Hj). cbn [snd].
    apply (kept_nall types rc l L i); [apply (il_in l types L); exact Hi|exact Hj]. }
  pose proof n_loc as Hnl. pose proof Hmax as Hmax'.
  rewrite (tally_ok fl n n nall B NN (f_neigh_indices s) (f_xyz s) En Fo a) in CE; auto; try (change (carrier RNum) with R in *; lia); try (intros _; rewrite Ae; lia); try congruence.
  injection CE as <-.
  (* Kokkos *)
  set (m0 := set_elements km (kpd_mem x) bH1a (dims (kpd_mem x) bH1a) h).
  assert (OT : oth (KkChain.one bH1a) (kpd_mem x) m0) by apply oth_set.
  assert (Y0 : lay1 sph km mm P0 s m0) by (apply lay1_set; [reflexivity|apply (g_sz _ _ (y_good _ _ _ _ _ _ C1) bH1a)|auto|exact C1]).
  assert (H0 : has3 m0 bH1a n M K Had) by (apply set_elements_has; [pose proof (proj1 C4); pose proof n_le; unfold extent in *; lia|exact Hh]).
  assert (LV0 : lv q m0) by (eapply lv_st; [apply (OT bLf eq_refl)|apply (OT bLe eq_refl)|exact C5]).
  apply (has1_st _ m0 _ _ _ (OT bE eq_refl)) in C2. apply (has1_st _ m0 _ _ _ (OT bF eq_refl)) in C3.
  assert (HH : hok (kk_mpi_third junk km n (f_node_types s) NN (f_xyz s) (f_r s)) m0 (fun m' => good km m' /\ has1 m' bE n (fun i => nth i En 0) /\
     has1 m' bF (3 * list_sum NN) (fun i => nth i Fo 0) /\ lsame m0 m')).
  { rewrite <- (app_nil_r (kk_mpi_third _ _ _ _ _ _ _)).
    apply (third_ok sph junk km mm P0 P1 fe fg H w0 w1 V0 V1 s nall KI n_le Had (gF2 (N:=RNum) sph mm P1 fg s Hf) (hE (N:=RNum) sph mm P1 fe s Hf) m0 m0); auto; [intros b _; reflexivity|].
    intros m' G' HE' HF' LS _. apply hok_nil. split; [exact G'|]. split; [eapply has1_eq; [|exact HE']; intros i Hi; symmetry; apply nth_tab; exact Hi|]. split; [|exact LS].
    rewrite <- EPL. eapply has1_eq; [|exact HF']. intros i Hi. rewrite eb_tab. symmetry. apply nth_tab. lia. }
  destruct (hok_exec _ _ _ HH) as (m1 & K1 & G1 & HE1 & HF1 & LS1).
  assert (LV1 : lv q m1) by (eapply lv_lsame; eauto).
  assert (HN : hok (kk_tally (N:=RNum) n B NN (tab n (fun ii => list_sum (firstn ii NN))) (f_neigh_indices s) (f_xyz s) fl n) m1
     (talp km B NN (f_neigh_indices s) (f_xyz s) n fl (fun i => nth i En 0) (fun i => nth i Fo 0) m1)).
  { apply (tally_h km n B NN (f_neigh_indices s) (f_xyz s) nall n); auto; [congruence|apply LV1|].
    intros He [|i [|]] Hi; cbn in Hi; try tauto. apply (lv_ec _ _ LV1 He). cbn. split; [|exact Logic.I]. destruct Hi as [Hi _]. change (carrier RNum) with R in *. lia. }
  destruct (hok_exec _ _ _ HN) as (m2 & K2 & TP).
  pose proof (results_ok km n B NN (f_neigh_indices s) (f_xyz s) nall n LBn ltac:(congruence) LJ LX HBlt HJlt fl a m1 m2
    (fun i => nth i En 0) Fo LF TP Hva Av Af (lv_f _ _ LV1) (fun i c _ _ => lv_fv _ _ LV1 i c)) as RO.
  eexists (mkKPD m2 (kpd_views x) (kpd_shared x)), _. split.
  { intros o. unfold kk_mpi_end. cbn [kv_node_types kv_num_neigh kv_first_neigh kv_node_indices kv_neigh_indices kv_xyz kv_r]. rewrite inum_n.
    assert (X : forall o', hexec (kk_mpi_third junk km n (f_node_types s) NN (f_xyz s) (f_r s) ++ kk_tally n B NN (tab n (fun ii => list_sum (firstn ii NN))) (f_neigh_indices s) (f_xyz s) fl n)
        (set_elements km (kpd_mem x) bH1a (dims (kpd_mem x) bH1a) h) o' <-> o' = Some m2) by exact (exec_app _ _ _ _ _ K1 K2).
    split.
    - intros (o' & X1 & ->). apply X in X1. subst o'. cbn [bind]. rewrite RO. reflexivity.
    - intros ->. exists (Some m2). split; [apply X; reflexivity|]. cbn [bind]. rewrite RO. reflexivity. }
  destruct TP as (T1 & _ & _ & _ & T2 & _).
  split; [split; [exact T1|]; cbn [kpd_mem kpd_shared]; rewrite T2; split; [apply LV1|left; exact Csh]|].
  assert (ET : total (firstn n En) = rsum n (fun i => nth i En 0)).
  { rewrite firstn_all2 by (apply Nat.eq_le_incl; exact LE). etransitivity; [apply MaceForces.total_tab|]. apply rsum_ext. intros i Hi. symmetry. apply nth_tab. exact Hi. }
  cbn [eng_vdwl virial force eatom].
  split; [destruct (eflag_global fl); [exact (f_equal (Rplus (eng_vdwl a)) (eq_sym ET))|reflexivity]|]. split; [reflexivity|]. split; [reflexivity|].
  intros He. rewrite He. intros i Hi. rewrite position_seq by lia. rewrite Nat.sub_0_r.
  assert (Hx : (i < extent m1 bLe 0)%nat).
  { pose proof (lv_ec _ _ LV1 He [i] ltac:(cbn; lia)) as AA. unfold alloc in AA. cbn [fst snd] in AA. unfold extent.
    destruct (lv_e _ _ LV1) as [Z|(e & Z)]; rewrite Z in AA |- *; cbn in AA |- *; [discriminate|].
    rewrite andb_true_r in AA. apply Nat.ltb_lt in AA. exact AA. }
  rewrite nth_tab by exact Hx. rewrite (proj2 (Nat.ltb_lt i n)) by (change (carrier RNum) with R in *; lia).
  apply (f_equal2 Rplus); [|reflexivity]. destruct (lv_ev _ _ LV1 He i) as [V|V]; [exact V|]. exfalso. lia.
Qed.
End R.
