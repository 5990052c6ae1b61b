(** The Kokkos pair style without domain decomposition against the CPU pair style.  Used in proofs only. *)
From Coq Require Import String List Arith ZArith Bool Lia Reals Lra Permutation.
From Verif Require Import Base BaseLemmas Segs Instances RSums MaceModel MaceSpec MaceSpec2 MaceGradSpec MlpR Sys SysLoops MacePure MaceStages1 MacePipe MaceLoad MaceFlat MaceForces
  MaceThms AseSpec AseGrad PairModel PairSpec PairThms PairTally PairKokkosModel PairCoeff PairGrad.
From Verif Require Import KkSem KkSound KkWp KkModel KkHost KkChain KkStage1 KkSpec KkLoad1 KkLoad2 KkLoad3 KkLoad4 KkThms KkPairModel KkPairSetup KkPairKernels KkPairTally KkPairSpec.
Import ListNotations.
Local Open Scope R_scope.

Lemma position_seq k n a : (k <= a < k + n)%nat -> position a (seq k n) = (a - k)%nat.
Proof.
  revert k. induction n as [|n IH]; intros k H; [lia|]. cbn [seq position]. destruct (Nat.eqb_spec a k) as [->|]; [lia|]. rewrite IH by lia. lia.
Qed.

Lemma view_has m b k (v : list R) : firstn k (kk_view m b) = v -> length v = k -> has1 m b k (fun i => nth i v 0).
Proof.
  intros E Lv. assert (Lw : length (kk_view m b) = extent m b 0) by (unfold kk_view; rewrite map_length, seq_length; reflexivity).
  rewrite <- E, firstn_length, Lw in Lv. split; [lia|]. intros i Hi. subst v. rewrite nth_firstn_lt by exact Hi. unfold kk_view.
  symmetry. exact (nth_tab (extent m b 0) (fun i => va m (b, [i])) i 0 ltac:(lia)).
Qed.

Definition sgood (km : kmace RNum) (s : kpair RNum) : Prop := good km (kp_mem s) /\ (dims (kp_mem s) bLe = [] \/ exists e, dims (kp_mem s) bLe = [e]).
Lemma sgood_fresh km : sgood km kp_fresh.
Proof. split; [apply good_fresh|left; reflexivity]. Qed.

Lemma lammps_views_ok km fl maxe (a : accum RNum) s na : sgood km s -> length (force a) = (3 * na)%nat ->
  let m := lammps_views (N:=RNum) fl maxe a (kp_mem s) in
  sgood km (mkKP m (kp_views s)) /\ dims m bLf = [na; 3%nat] /\ (forall i c, va m (bLf, [i; c]) = nth (3 * i + c) (force a) 0) /\
  (eflag_atom fl = true -> cov m bLe [maxe]) /\
  (eflag_atom fl = true -> forall i, va m (bLe, [i]) = nth i (eatom_before maxe s) 0 \/ (extent m bLe 0 <= i)%nat).
Proof.
  intros [G D] Lf. cbv zeta. unfold lammps_views.
  set (m1 := set_view (kp_mem s) bLf _ _).
  assert (G1 : good km m1) by (apply good_set; auto; exact Logic.I).
  assert (D1 : dims m1 bLe = dims (kp_mem s) bLe) by (apply dims_set_ne; discriminate).
  assert (V1 : forall idx, va m1 (bLe, idx) = va (kp_mem s) (bLe, idx)) by (intros idx; apply st_va; apply (oth_set (kp_mem s) bLf); reflexivity).
  assert (DL : dims m1 bLf = [na; 3%nat]).
  { unfold m1. rewrite dims_set_eq. rewrite Lf. rewrite Nat.mul_comm, Nat.div_mul by lia. reflexivity. }
  assert (VL : forall i c, va m1 (bLf, [i; c]) = nth (3 * i + c) (force a) 0).
  { intros i c. unfold m1. rewrite va_set_eq. rewrite RNum_zero. reflexivity. }
  assert (EX : extent m1 bLe 0 = length (kk_view (kp_mem s) bLe)).
  { unfold kk_view. rewrite map_length, seq_length. unfold extent. rewrite D1. reflexivity. }
  destruct (eflag_atom fl) eqn:Ef; cbn [andb].
  2:{ cbn [kp_mem]. split; [split; [exact G1|cbn [kp_mem]; rewrite D1; exact D]|]. split; [exact DL|]. split; [exact VL|]. split; intros; congruence. }
  unfold eatom_before. rewrite EX. destruct (Nat.ltb_spec (length (kk_view (kp_mem s) bLe)) maxe) as [Hm|Hm].
  - assert (Dn : dims (realloc bLe [maxe] m1) bLe = [maxe]) by (unfold realloc; apply dims_set_eq).
    split; [split; cbn [kp_mem]; [apply good_set; auto; exact Logic.I|right; exists maxe; exact Dn]|].
    split; [unfold realloc; rewrite dims_set_ne by discriminate; exact DL|].
    split; [intros i c; rewrite <- VL; apply st_va; apply (oth_set m1 bLe); reflexivity|].
    split; [intros _; apply (cov_ext _ _ maxe [] maxe); [exact Dn|lia]|].
    intros _ i. left. unfold realloc. rewrite va_set_eq. rewrite RNum_zero. destruct i; reflexivity.
  - split; [split; [exact G1|cbn [kp_mem]; rewrite D1; exact D]|]. split; [exact DL|]. split; [exact VL|]. split; intros _.
    + rewrite <- EX in Hm. unfold extent in Hm. rewrite D1 in Hm. destruct D as [D|(e & D)]; rewrite D in *; cbn [nth] in Hm.
      * intros [|i idx] Hi; cbn in Hi; [contradiction|]. lia.
      * apply (cov_ext _ _ e [] maxe); [exact D1|exact Hm].
    + intros i. destruct (le_lt_dec (extent m1 bLe 0) i) as [Hi|Hi]; [right; exact Hi|left].
      rewrite V1. unfold kk_view. unfold extent in Hi. rewrite D1 in Hi.
      symmetry. exact (nth_tab (extent (kp_mem s) bLe 0) (fun i => va (kp_mem s) (bLe, [i])) i 0 Hi).
Qed.

Section T.
Variable sph : nat -> RNum -> RNum -> RNum -> list RNum * list RNum.
Hypothesis Hsph : sph_ok sph.
Variable junk : mem RNum -> KkSem.cell -> RNum.
Variable srt : list (list (list nat)) -> list (list (list nat)).
Hypothesis Hsrt : forall l, Permutation l (srt l).
Variable f : mace_file RNum.
Hypothesis F : file_ok f.
Hypothesis KF : kk_file_ok f.
Variable km : kmace RNum.
Hypothesis D : kld srt f km.
Variables (types : list nat) (mt : list Z) (rc : R).
Hypothesis HT : forall k t, rd types k = Some t -> rd mt k = Some (Z.of_nat t).

Section One.
Variables (owner : nat -> nat) (maxe : nat) (fl : ev) (l : lmp RNum) (a : accum RNum).
Hypothesis L : lmp_ok (length types) (ilist l) l.
Hypothesis OW : owner_ok owner l.
Hypothesis AC : acc_ok l a.
Hypothesis Hva : vflag_atom fl = false.
Hypothesis Hmax : (nlocal l <= maxe)%nat.
Notation B := (ilist l).
Notation NJ := (flat_map (fun i => map owner (kept (N:=RNum) rc l i)) B).
(** what the Kokkos style evaluates: the neighbours are named by the atoms *)
Definition kk_input : input RNum :=
  let x := nd_input (N:=RNum) types rc owner l in mkInput (N:=RNum) (i_num_nodes x) (i_node_types x) (i_num_neigh x) NJ (i_neigh_types x) (i_xyz x) (i_r x).
Notation x := kk_input.

Lemma kept_lt i j : In i B -> In j (kept (N:=RNum) rc l i) -> (j < nlocal l + nghost l)%nat.
Proof. intros Hi Hj. unfold kept in Hj. apply filter_In in Hj. apply (lo_A _ _ _ L i Hi). apply Hj. Qed.
Lemma ind_eq : B = seq 0 (nlocal l) -> nd_input (N:=RNum) types rc owner l = kk_input.
Proof.
  intros HO. unfold kk_input. cbn [nd_input i_num_nodes i_node_types i_num_neigh i_neigh_indices i_neigh_types i_xyz i_r]. unfold nd_input. f_equal.
  apply flat_map_ext_in. intros i Hi. apply map_ext_in. intros j Hj.
  rewrite HO. rewrite position_seq; [lia|]. pose proof (oo_lt _ _ OW j (kept_lt i j Hi Hj)). lia.
Qed.
Lemma nn_sum : list_sum (i_num_neigh x) = length NJ.
Proof.
  cbn [kk_input nd_input i_num_neigh]. rewrite length_flat_map. apply (f_equal list_sum). apply map_ext_in. intros i _. rewrite map_length. reflexivity.
Qed.
Lemma xyz_len : length (i_xyz x) = (3 * list_sum (i_num_neigh x))%nat.
Proof.
  cbn [kk_input nd_input i_num_neigh i_xyz]. generalize B as Bs. induction Bs as [|i Bs IH]; [reflexivity|].
  cbn [flat_map map]. rewrite app_length, IH. change (list_sum (?a :: ?b)) with (a + list_sum b)%nat.
  rewrite length_flat_map_const with (c := 3%nat) by reflexivity. lia.
Qed.
Lemma il_n : length B = nlocal l.
Proof.
  destruct (lo_il _ _ _ L) as [_ P]. apply Permutation_length in P. rewrite seq_length in P. exact P.
Qed.

(** the Kokkos style, whatever the order of the list *)
Lemma kk_gen s b b1 : sgood km s -> bufs_live (ldm f) (ldp0 srt f) (ldp1 srt f) (ldlive f) b -> input_ok f x -> call sph (ldm f) b x = Some b1 ->
  exists at_, tally (N:=RNum) fl (length B) (length B) B (i_num_neigh x) NJ (i_xyz x) (b_node_energies b1) (b_node_forces b1) a = Some at_ /\
    (exists o, kk_no_domain sph junk km rc mt maxe fl l s a o) /\
    forall o, kk_no_domain sph junk km rc mt maxe fl l s a o -> exists s' ak, o = Some (s', ak) /\ sgood km s' /\
      eng_vdwl ak = eng_vdwl at_ /\ virial ak = virial at_ /\ force ak = force at_ /\
      (eflag_atom fl = true -> eatom_added (nlocal l) (seq 0 (nlocal l)) (b_node_energies b1) (eatom_before maxe s) (eatom ak)).
Proof.
  intros SG LV HI HC. destruct AC as [Af Ae Av].
  pose proof (il_len l types L) as Hil. pose proof il_n as Hn.
  destruct (call_full sph Hsph srt f F b x LV HI) as (b1' & C1 & E1 & F1 & _). rewrite HC in C1. injection C1 as <-.
  set (na := (nlocal l + nghost l)%nat) in *.
  assert (HBlt : forall i, In i B -> (i < na)%nat) by (intros i Hi; exact (proj1 (lo_A _ _ _ L i Hi))).
  assert (HJlt : forall j, In j NJ -> (j < na)%nat).
  { intros j Hj. apply in_flat_map in Hj. destruct Hj as (i & Hi & Hj). apply in_map_iff in Hj. destruct Hj as (j' & <- & Hj').
    pose proof (oo_lt _ _ OW j' (kept_lt i j' Hi Hj')). unfold na. lia. }
  assert (LNN : length (i_num_neigh x) = length B) by apply map_length.
  assert (LE : length (b_node_energies b1) = length B) by (rewrite E1; apply length_tab).
  assert (LF : length (b_node_forces b1) = (3 * list_sum (i_num_neigh x))%nat).
  { rewrite <- xyz_len. rewrite F1, MaceStages1.length_eb. rewrite <- (MaceStages1.length_xyz (sys_of _)).
    pose proof (flat_sys_of f _ HI) as Ex. apply (f_equal i_xyz) in Ex. cbn [flat i_xyz] in Ex. rewrite Ex. reflexivity. }
  rewrite (tally_ok fl (length B) (length B) na B (i_num_neigh x) NJ (i_xyz x) (b_node_energies b1) (b_node_forces b1) a); auto;
    [|change (carrier RNum) with R in *; lia|intros _; rewrite Ae; lia|symmetry; apply nn_sum|apply xyz_len].
  eexists. split; [reflexivity|].
  (* Kokkos *)
  set (m0 := lammps_views (N:=RNum) fl maxe a (kp_mem s)).
  destruct (lammps_views_ok km fl maxe a s na SG Af) as (SG0 & DL0 & VL0 & DE0 & VE0). fold m0 in SG0, DL0, VL0, DE0, VE0.
  destruct (kcall_ls sph junk srt Hsrt f F KF km D m0 x (proj1 SG0) HI) as (m1 & K1 & (G1 & KE & KFo & _) & LS).
  assert (HE1 : has1 m1 bE (length B) (fun i => nth i (b_node_energies b1) 0)).
  { apply view_has; [|exact LE]. change (kk_view m1 bE) with (kk_node_energies m1). rewrite KE, E1.
    change (i_num_nodes x) with (length B). rewrite firstn_app, length_tab, Nat.sub_diag, firstn_O, app_nil_r. apply firstn_all2. rewrite length_tab. lia. }
  assert (HF1 : has1 m1 bF (3 * list_sum (i_num_neigh x)) (fun i => nth i (b_node_forces b1) 0)).
  { apply view_has; [|exact LF]. rewrite <- xyz_len, F1. exact KFo. }
  assert (DL1 : dims m1 bLf = [na; 3%nat]) by (rewrite (st_dims _ _ _ (LS bLf eq_refl)); exact DL0).
  assert (DE1 : dims m1 bLe = dims m0 bLe) by (apply (st_dims _ _ _ (LS bLe eq_refl))).
  assert (HN : hok (kk_tally (N:=RNum) (length B) B (i_num_neigh x) (tab (length B) (fun ii => list_sum (firstn ii (i_num_neigh x)))) NJ (i_xyz x) fl (length B)) m1
     (talp km B (i_num_neigh x) NJ (i_xyz x) (length B) fl (fun i => nth i (b_node_energies b1) 0) (fun i => nth i (b_node_forces b1) 0) m1)).
  { apply (tally_h km (length B) B (i_num_neigh x) NJ (i_xyz x) na (length B)); auto; [symmetry; apply nn_sum|apply xyz_len|].
    intros He. apply (cov_dims m0 m1 bLe); [exact DE1|]. intros [|i [|]] Hi; cbn in Hi; try tauto. apply (DE0 He). cbn. lia. }
  destruct (hok_exec _ _ _ HN) as (m2 & K2 & TP).
  assert (KK : forall o, hexec ([hop (lammps_views fl maxe a)]
     ++ kk_compute_node_energies_forces sph junk km (length B) (i_node_types x) (i_num_neigh x) NJ (i_neigh_types x) (i_xyz x) (i_r x)
     ++ kk_tally (length B) B (i_num_neigh x) (tab (length B) (fun ii => list_sum (firstn ii (i_num_neigh x)))) NJ (i_xyz x) fl (length B)) (kp_mem s) o <-> o = Some m2).
  { cbn [app]. apply exec_hop. exact (exec_app _ _ _ _ _ K1 K2). }
  assert (SU : forall ord1 ord2, Permutation (seq 0 (length B)) ord1 -> Permutation (seq 0 (length B)) ord2 ->
     exists v', setup l mt (nmul (rc : RNum) rc) ord1 ord2 (length B) (rd B) (map_kokkos l) (kp_views s) = Some (set_up l rc types B owner, v')).
  { intros ord1 ord2 P1 P2. apply (setup_ok l rc types B L mt HT B (incl_refl B)); auto.
    - intros ii Hii. apply rd_some. exact Hii.
    - intros j Hj. unfold map_kokkos. rewrite (rd_some _ _ 0%nat) by (rewrite (oo_tag _ _ OW); exact Hj). cbn [bind]. rewrite (oo_map _ _ OW j Hj). reflexivity. }
  assert (VL1 : forall i c, (i < na)%nat -> (c < 3)%nat -> va m1 (bLf, [i; c]) = nth (3 * i + c) (force a) 0).
  { intros i c _ _. rewrite (st_va _ _ _ _ (LS bLf eq_refl)). apply VL0. }
  pose proof (results_ok km (length B) B (i_num_neigh x) NJ (i_xyz x) na (length B) eq_refl LNN (eq_sym nn_sum) xyz_len HBlt HJlt fl a m1 m2
    (fun i => nth i (b_node_energies b1) 0) (b_node_forces b1) LF TP Hva Av Af DL1 VL1) as RO.
  assert (RR : forall o, kk_no_domain sph junk km rc mt maxe fl l s a o <-> exists ord1 ord2 v', Permutation (seq 0 (length B)) ord1 /\ Permutation (seq 0 (length B)) ord2 /\
     setup l mt (nmul (rc : RNum) rc) ord1 ord2 (length B) (rd B) (map_kokkos l) (kp_views s) = Some (set_up l rc types B owner, v') /\
     o = (a' <- results fl a m2 ;; Some (mkKP m2 v', a'))).
  { intros o. unfold kk_no_domain. cbv zeta. rewrite <- Hil. split.
    - intros (o1 & o2 & P1 & P2 & H). destruct (SU o1 o2 P1 P2) as (v' & ES). rewrite ES in H. destruct H as (o' & H1 & ->).
      apply KK in H1. subst o'. exists o1, o2, v'. auto.
    - intros (o1 & o2 & v' & P1 & P2 & ES & ->). exists o1, o2. split; [exact P1|]. split; [exact P2|]. rewrite ES. exists (Some m2). split; [apply KK; reflexivity|reflexivity]. }
  rewrite RO in RR. cbn [bind] in RR. clear RO.
  assert (G2 : sgood km (mkKP m2 (kp_views s))).
  { destruct TP as (T1 & _ & _ & _ & T2 & _). split; cbn [kp_mem]; [exact T1|]. rewrite T2, DE1. apply (proj2 SG0). }
  assert (ET : total (firstn (length B) (b_node_energies b1)) = rsum (length B) (fun i => nth i (b_node_energies b1) 0)).
  { rewrite firstn_all2 by (rewrite LE; lia). rewrite (tab_nth (b_node_energies b1) (0:R)) at 1. rewrite <- LE. apply total_tab. }
  split.
  - destruct (SU (seq 0 (length B)) (seq 0 (length B)) (Permutation_refl _) (Permutation_refl _)) as (v' & ES). eexists. apply RR. eauto 8.
  - intros o Ho. apply RR in Ho. destruct Ho as (o1 & o2 & v' & _ & _ & _ & ->). eexists _, _. split; [reflexivity|].
    split; [exact G2|]. cbn [eng_vdwl virial force eatom].
    split; [destruct (eflag_global fl); [exact (f_equal (Rplus (eng_vdwl a)) (eq_sym ET))|reflexivity]|]. split; [reflexivity|]. split; [reflexivity|].
    intros He. rewrite He. intros i Hi. rewrite position_seq by lia. rewrite Nat.sub_0_r.
    assert (Hx : (i < extent m1 bLe 0)%nat).
    { pose proof (DE0 He [i] ltac:(cbn; lia)) as A. unfold alloc in A. cbn [fst snd] in A. unfold extent. rewrite DE1.
      destruct (proj2 SG0) as [Z|(e & Z)]; cbn [kp_mem] in Z; rewrite Z in A |- *; cbn in A |- *; [discriminate|].
      rewrite andb_true_r in A. apply Nat.ltb_lt in A. exact A. }
    rewrite nth_tab by exact Hx. rewrite (proj2 (Nat.ltb_lt i (length B))) by lia.
    apply (f_equal2 Rplus); [|reflexivity]. rewrite (st_va _ _ _ _ (LS bLe eq_refl)). destruct (VE0 He i) as [V|V]; [exact V|].
    exfalso. unfold extent in *. rewrite DE1 in Hx. lia.
Qed.

(** the two evaluations *)
Lemma nd_kk (HO : B = seq 0 (nlocal l)) (HI : input_ok f (nd_input (N:=RNum) types rc owner l)) s : sgood km s -> forall b p, bufs_live (ldm f) (ldp0 srt f) (ldp1 srt f) (ldlive f) b ->
  exists b1 p1 ac, compute_no_domain_decomposition sph (ldm f) rc types fl l b p a = Some (b1, p1, ac) /\
    (exists o, kk_no_domain sph junk km rc mt maxe fl l s a o) /\
    forall o, kk_no_domain sph junk km rc mt maxe fl l s a o -> exists s' ak, o = Some (s', ak) /\ sgood km s' /\
      eng_vdwl ak = eng_vdwl ac /\ virial ak = virial ac /\ force ak = force ac /\
      (eflag_atom fl = true -> eatom_added (nlocal l) (seq 0 (nlocal l)) (b_node_energies b1) (eatom_before maxe s) (eatom ak)).
Proof.
  intros SG b p LV. rewrite (ind_eq HO) in HI. destruct (call_full sph Hsph srt f F b x LV HI) as (b1 & C1 & _).
  destruct (kk_gen s b b1 SG LV HI C1) as (at_ & T1 & T2 & T3).
  pose proof (nd_ok l rc types L owner OW sph (ldm f) fl b p a) as EC. cbv zeta in EC. rewrite (ind_eq HO) in EC. rewrite C1 in EC. cbn [bind] in EC.
  change (i_num_nodes x) with (length B) in EC. rewrite T1 in EC. cbn [bind] in EC. eexists b1, _, _. split; [exact EC|]. split; [exact T2|exact T3].
Qed.
End One.
End T.

(** ** The property lemmas *)
Section L.
Variable sph : nat -> RNum -> RNum -> RNum -> list RNum * list RNum.
Hypothesis Hsph : sph_ok sph.
Variable junk : mem RNum -> KkSem.cell -> RNum.
Variable srt : list (list (list nat)) -> list (list (list nat)).
Hypothesis Hsrt : forall l, Permutation l (srt l).
Variable f : mace_file RNum.
Hypothesis F : file_ok f.
Hypothesis KF : kk_file_ok f.
Variables (arg : list string) (types : list nat).
Hypothesis ND : NoDup (f_atomic_numbers f).
Hypothesis HC : coeff_types (f_atomic_numbers f) arg = Some types.
Hypothesis HL : (length types <= length (f_atomic_numbers f))%nat.

Definition mt_of : list Z := map Z.of_nat types ++ repeat 0%Z (length (f_atomic_numbers f) - length types).
Lemma mt_rd k t : rd types k = Some t -> rd mt_of k = Some (Z.of_nat t).
Proof.
  intros H. unfold mt_of, rd in *. rewrite nth_error_app1; [rewrite nth_error_map, H; reflexivity|].
  rewrite map_length. apply nth_error_Some. rewrite H. discriminate.
Qed.
Lemma mt_load : coeff_types_kk (f_atomic_numbers f) arg = Some mt_of.
Proof. apply coeff_kk_ok; assumption. Qed.
Lemma reach_good km rc s : kld srt f km -> kp_reach sph junk km f rc types mt_of s -> sgood km s.
Proof.
  intros D H. induction H as [|s owner maxe fl l a s' a' H IH HO HK]; [apply sgood_fresh|].
  destruct (load_ok srt Hsrt f F) as (b0 & _ & LV).
  destruct (nd_kk sph Hsph junk srt Hsrt f F KF km D types mt_of rc mt_rd owner maxe fl l a (nc_lmp _ _ _ _ _ _ _ _ HO) (nc_owner _ _ _ _ _ _ _ _ HO) (nc_acc _ _ _ _ _ _ _ _ HO) (nc_vatom _ _ _ _ _ _ _ _ HO) (nc_max _ _ _ _ _ _ _ _ HO) (nc_order _ _ _ _ _ _ _ _ HO) (nc_input _ _ _ _ _ _ _ _ HO) s IH b0 (mkPB (N:=RNum) [] [] [] [] [] [] [] [] [] [] [] [] []) LV) as (b1 & p1 & ac & _ & _ & Q).
  destruct (Q _ HK) as (s2 & ak & E & G & _). injection E as <- _. exact G.
Qed.

Lemma lemma_C59 rc : exists km mt m b0, kk_load_from_json srt f = Some km /\ coeff_types_kk (f_atomic_numbers f) arg = Some mt /\
  load_from_json srt f = Some (m, b0) /\
  forall hist, Forall (input_ok f) hist -> exists bh, calls sph m b0 hist = Some bh /\
  forall s, kp_reach sph junk km f rc types mt s -> forall owner maxe fl l a, nd_call_ok f types rc owner maxe fl l a -> forall p,
  exists b1 p1 ac, compute_no_domain_decomposition sph m rc types fl l bh p a = Some (b1, p1, ac) /\
    (exists o, kk_no_domain sph junk km rc mt maxe fl l s a o) /\
    forall o, kk_no_domain sph junk km rc mt maxe fl l s a o -> exists s' ak, o = Some (s', ak) /\
      eng_vdwl ak = eng_vdwl ac /\ virial ak = virial ac /\ force ak = force ac /\
      (eflag_atom fl = true -> eatom_added (nlocal l) (seq 0 (nlocal l)) (b_node_energies b1) (eatom_before maxe s) (eatom ak)).
Proof.
  destruct (kk_load_ok srt Hsrt f F KF) as (km & EL & D). destruct (load_ok srt Hsrt f F) as (b0 & EC & LV).
  exists km, mt_of, (ldm f), b0. split; [exact EL|]. split; [exact mt_load|]. split; [exact EC|].
  intros hist Hh. destruct (calls_ok sph Hsph srt f F b0 hist LV Hh) as (bh & Eh & Lh). exists bh. split; [exact Eh|].
  intros s Hs owner maxe fl l a HO p.
  destruct (nd_kk sph Hsph junk srt Hsrt f F KF km D types mt_of rc mt_rd owner maxe fl l a (nc_lmp _ _ _ _ _ _ _ _ HO) (nc_owner _ _ _ _ _ _ _ _ HO) (nc_acc _ _ _ _ _ _ _ _ HO) (nc_vatom _ _ _ _ _ _ _ _ HO) (nc_max _ _ _ _ _ _ _ _ HO) (nc_order _ _ _ _ _ _ _ _ HO) (nc_input _ _ _ _ _ _ _ _ HO) s (reach_good km rc s D Hs) bh p Lh) as (b1 & p1 & ac & Q1 & Q2 & Q3).
  exists b1, p1, ac. split; [exact Q1|]. split; [exact Q2|]. intros o Ho. destruct (Q3 o Ho) as (s' & ak & -> & _ & Q). exists s', ak. auto.
Qed.
End L.

(** positions of all atoms as a function of one coordinate of a local atom *)
Lemma images_d n owner sh pos q : (q < length pos)%nat -> forall k, (k < 3 * n)%nat ->
  derivable_pt_lim (fun u => nth k (images n owner sh (upd pos q u)) 0) (nth q pos 0) (ind (3 * owner (k / 3)%nat + k mod 3) q).
Proof.
  intros Hq r Hr. apply dlim_ext with (f := fun u => nth (3 * owner (r / 3)%nat + r mod 3) (upd pos q u) 0 + nth r sh 0).
  { intros u. symmetry. unfold images. apply (nth_tab (3 * n) (fun k => nth (3 * owner (k / 3)%nat + k mod 3) (upd pos q u) 0 + nth k sh 0)). exact Hr. }
  eapply dlim_eq; [|apply dlim_plus; [|apply dlim_const]]; [apply Rplus_0_r|].
  apply dlim_ext with (f := fun u => if (3 * owner (r / 3)%nat + r mod 3 =? q)%nat then u else nth (3 * owner (r / 3)%nat + r mod 3) pos 0).
  - intros u. rewrite nth_upd by lia. rewrite Nat.eqb_sym. reflexivity.
  - unfold ind. destruct (_ =? q)%nat; [apply dlim_id|apply dlim_const].
Qed.
Lemma strain_d e x k : (k < length x)%nat ->
  derivable_pt_lim (fun t => nth k (strain e t x) 0) 0 (rsum 3 (fun c => e (k mod 3)%nat c * nth (3 * (k / 3) + c) x 0)).
Proof.
  intros Hk. apply dlim_ext with (f := fun t => nth k x 0 + t * rsum 3 (fun c => e (k mod 3)%nat c * nth (3 * (k / 3) + c) x 0)).
  - intros t. symmetry. unfold strain. etransitivity; [apply (nth_tab (length x)); exact Hk|]. cbn [rsum]. rewrite Nat.add_0_r. ring.
  - eapply dlim_eq; [|apply dlim_plus; [apply dlim_const|apply dlim_mult; [apply dlim_id|apply dlim_const]]]. cbv beta. ring.
Qed.
Lemma strain_0 e (x : list R) : strain e 0 x = x.
Proof.
  apply (list_eq_nth _ _ 0); [unfold strain; rewrite map_length, seq_length; reflexivity|]. intros k Hk.
  unfold strain in *. rewrite map_length, seq_length in Hk. etransitivity; [apply (nth_tab (length x)); exact Hk|]. ring.
Qed.

Section G.
Variable sph : nat -> RNum -> RNum -> RNum -> list RNum * list RNum.
Hypothesis Hsph : sph_ok sph.
Hypothesis Hgr : sph_gradient sph.
Variable junk : mem RNum -> KkSem.cell -> RNum.
Variable srt : list (list (list nat)) -> list (list (list nat)).
Hypothesis Hsrt : forall l, Permutation l (srt l).
Variable f : mace_file RNum.
Hypothesis F : file_ok f.
Hypothesis KF : kk_file_ok f.
Hypothesis SF : smooth_ok f.
Variables (arg : list string) (types : list nat).
Hypothesis ND : NoDup (f_atomic_numbers f).
Hypothesis HC : coeff_types (f_atomic_numbers f) arg = Some types.
Hypothesis HL : (length types <= length (f_atomic_numbers f))%nat.
Variable rc : R.

Notation p0 := (mkPB (N:=RNum) [] [] [] [] [] [] [] [] [] [] [] [] []).
Lemma call_at owner maxe fl l a x : nd_call_ok f types rc owner maxe fl l a -> length x = length (atom_x l) ->
  input_ok f (nd_input (N:=RNum) types rc owner (at_x l x)) -> nd_call_ok f types rc owner maxe fl (at_x l x) a.
Proof.
  intros [C1 C2 C3 C4 C5 C6 C7] H1 H2. constructor; auto.
  - apply lmp_ok_at; auto.
  - apply owner_ok_at; auto.
  - destruct C4 as [A1 A2 A3]. constructor; auto.
Qed.

Lemma lemma_C60_forces owner maxe fl l a sh pos : nd_call_ok f types rc owner maxe fl l a -> eflag_global fl = true -> length pos = (3 * nlocal l)%nat ->
  atom_x l = images (nlocal l + nghost l) owner sh pos -> off_cutoff l rc ->
  smooth_at f (nd_input types rc owner l) (i_xyz (nd_input types rc owner l)) ->
  exists km mt, kk_load_from_json srt f = Some km /\ coeff_types_kk (f_atomic_numbers f) arg = Some mt /\
  forall s, kp_reach sph junk km f rc types mt s -> (exists o, kk_no_domain sph junk km rc mt maxe fl l s a o) /\
  forall o, kk_no_domain sph junk km rc mt maxe fl l s a o -> exists s' a1, o = Some (s', a1) /\
    length (force a1) = length (force a) /\ (forall q, (3 * nlocal l <= q)%nat -> nth q (force a1) 0 = nth q (force a) 0) /\
    forall q, (q < 3 * nlocal l)%nat -> exists E del, 0 < del /\
      (forall u, Rabs (u - nth q pos 0) < del -> let lu := at_x l (images (nlocal l + nghost l) owner sh (upd pos q u)) in
         (exists o', kk_no_domain sph junk km rc mt maxe fl lu s a o') /\
         forall o', kk_no_domain sph junk km rc mt maxe fl lu s a o' -> exists s2 a2, o' = Some (s2, a2) /\ E u = eng_vdwl a2 - eng_vdwl a) /\
      derivable_pt_lim E (nth q pos 0) (- (nth q (force a1) 0 - nth q (force a) 0)).
Proof.
  intros CO He Hp Hx HO SA. pose proof CO as [L HB OW AC HI Hva Hmax].
  destruct (lemma_C59 sph Hsph junk srt Hsrt f F KF arg types ND HC HL rc) as (km & mt & m & b0 & E1 & E2 & E3 & Q).
  exists km, mt. split; [exact E1|]. split; [exact E2|]. intros s Hs.
  destruct (Q [] (Forall_nil _)) as (bh & E4 & Q'). clear Q. specialize (Q' s Hs).
  destruct (Q' owner maxe fl l a CO p0) as (b1 & p1 & ac & K1 & K2 & K3). split; [exact K2|].
  intros o Ho. destruct (K3 o Ho) as (s' & ak & -> & _ & _ & EF & _). exists s', ak. split; [reflexivity|].
  destruct (nd_forces sph Hsph Hgr srt Hsrt f F SF l rc types L owner OW [] fl p0 a sh pos (Forall_nil _) Hva He AC Hp Hx HO SA)
    as (m' & b0' & bh' & b1' & p1' & a1' & G1 & G2 & G3 & G4 & G5 & G6).
  rewrite E3 in G1. injection G1 as <- <-. rewrite E4 in G2. injection G2 as <-. rewrite K1 in G3. injection G3 as <- <- <-.
  rewrite EF. split; [exact G4|]. split; [exact G5|]. intros q Hq. destruct (G6 q Hq) as (E & del & Hdel & HE & HD).
  destruct (nd_near f SF l rc types L owner (fun u => images (nlocal l + nghost l) owner sh (upd pos q u))
    (fun r => ind (3 * owner (r / 3)%nat + r mod 3) q) (nth q pos 0)) as (d2 & Hd2 & HN); auto.
  { rewrite upd_same. symmetry. exact Hx. } { intros; unfold images; rewrite map_length, seq_length; reflexivity. }
  { apply images_d. lia. }
  exists E, (Rmin del d2). split; [apply Rmin_case; auto|]. split; [|exact HD]. intros u Hu. cbv zeta.
  assert (M1 := Rmin_l del d2). assert (M2 := Rmin_r del d2).
  destruct (HE u ltac:(lra)) as (b & p' & a' & H1 & H2).
  assert (CU : nd_call_ok f types rc owner maxe fl (at_x l (images (nlocal l + nghost l) owner sh (upd pos q u))) a).
  { apply call_at; auto; [|apply HN; lra]. rewrite (lo_x _ _ _ L). unfold images. rewrite map_length, seq_length. reflexivity. }
  destruct (Q' owner maxe fl _ a CU p0) as (b2 & p2 & ac2 & J1 & J2 & J3). split; [exact J2|]. intros o' Ho'.
  destruct (J3 o' Ho') as (s2 & a2 & -> & EN & _). exists s2, a2. split; [reflexivity|]. rewrite H2, EN. rewrite J1 in H1. injection H1 as _ _ <-. reflexivity.
Qed.

Lemma lemma_C60_virial owner maxe fl l a e : nd_call_ok f types rc owner maxe fl l a -> eflag_global fl = true -> vflag_global fl = true ->
  (forall i c, e i c = e c i) -> off_cutoff l rc ->
  smooth_at f (nd_input types rc owner l) (i_xyz (nd_input types rc owner l)) ->
  exists km mt, kk_load_from_json srt f = Some km /\ coeff_types_kk (f_atomic_numbers f) arg = Some mt /\
  forall s, kp_reach sph junk km f rc types mt s -> (exists o, kk_no_domain sph junk km rc mt maxe fl l s a o) /\
  forall o, kk_no_domain sph junk km rc mt maxe fl l s a o -> exists s' a1 E del, o = Some (s', a1) /\ length (virial a1) = 6%nat /\ 0 < del /\
    (forall t, Rabs t < del -> let lt := at_x l (strain e t (atom_x l)) in
         (exists o', kk_no_domain sph junk km rc mt maxe fl lt s a o') /\
         forall o', kk_no_domain sph junk km rc mt maxe fl lt s a o' -> exists s2 a2, o' = Some (s2, a2) /\ E t = eng_vdwl a2 - eng_vdwl a) /\
    let v k := nth k (virial a1) 0 - nth k (virial a) 0 in
    derivable_pt_lim E 0 (- (v 0%nat * e 0%nat 0%nat + v 1%nat * e 1%nat 1%nat + v 2%nat * e 2%nat 2%nat
                               + 2 * (v 3%nat * e 0%nat 1%nat) + 2 * (v 4%nat * e 0%nat 2%nat) + 2 * (v 5%nat * e 1%nat 2%nat))).
Proof.
  intros CO He Hv Hsym HO SA. pose proof CO as [L HB OW AC HI Hva Hmax].
  destruct (lemma_C59 sph Hsph junk srt Hsrt f F KF arg types ND HC HL rc) as (km & mt & m & b0 & E1 & E2 & E3 & Q).
  exists km, mt. split; [exact E1|]. split; [exact E2|]. intros s Hs.
  destruct (Q [] (Forall_nil _)) as (bh & E4 & Q'). clear Q. specialize (Q' s Hs).
  destruct (Q' owner maxe fl l a CO p0) as (b1 & p1 & ac & K1 & K2 & K3). split; [exact K2|].
  intros o Ho. destruct (K3 o Ho) as (s' & ak & -> & _ & EV & _).
  destruct (nd_strain sph Hsph Hgr srt Hsrt f F SF l rc types L owner OW [] fl p0 a e (Forall_nil _) Hva He Hv AC Hsym HO SA)
    as (m' & b0' & bh' & b1' & p1' & a1' & E & del & G1 & G2 & G3 & G4 & G5 & G6 & G7).
  rewrite E3 in G1. injection G1 as <- <-. rewrite E4 in G2. injection G2 as <-. rewrite K1 in G3. injection G3 as <- <- <-.
  destruct (nd_near f SF l rc types L owner (fun t => strain e t (atom_x l)) (fun k => rsum 3 (fun c => e (k mod 3)%nat c * nth (3 * (k / 3) + c) (atom_x l) 0)) 0)
    as (d2 & Hd2 & HN); auto.
  { apply strain_0. } { intros t. unfold strain. rewrite map_length, seq_length. apply (lo_x _ _ _ L). }
  { intros k Hk. apply strain_d. change (carrier RNum) with R in *. pose proof (lo_x _ _ _ L). change (carrier RNum) with R in *. lia. }
  exists s', ak, E, (Rmin del d2). split; [reflexivity|]. split; [rewrite EV; exact G4|]. split; [apply Rmin_case; auto|]. rewrite EV. split; [|exact G7].
  intros t Ht. cbv zeta. assert (M1 := Rmin_l del d2). assert (M2 := Rmin_r del d2).
  destruct (G6 t ltac:(lra)) as (b & p' & a' & H1 & H2).
  assert (CU : nd_call_ok f types rc owner maxe fl (at_x l (strain e t (atom_x l))) a).
  { apply call_at; auto; [|apply HN; rewrite Rminus_0_r; lra]. unfold strain. rewrite map_length, seq_length. reflexivity. }
  destruct (Q' owner maxe fl _ a CU p0) as (b2 & p2 & ac2 & J1 & J2 & J3). split; [exact J2|]. intros o' Ho'.
  destruct (J3 o' Ho') as (s2 & a2 & -> & EN & _). exists s2, a2. split; [reflexivity|]. rewrite H2, EN. rewrite J1 in H1. injection H1 as _ _ <-. reflexivity.
Qed.
End G.
