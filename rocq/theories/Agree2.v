(** The ASE calculator and the LAMMPS pair style agree: the main lemma. *)
From Coq Require Import List Arith ZArith Lia Bool Permutation Reals Lra.
From Verif Require Import Base BaseLemmas Instances RSums RList MpSpec MaceModel MaceSpec MaceSpec2 MaceGradSpec MaceTab MaceFlat MacePipe MaceLoad MaceThms MaceForces ExportPolySpec EnergySpec EnergyProofs ExportSubset
  AseModel AseSpec AseThms AseGrad PairModel PairMpiModel PairSpec PairCommSpec PairThms PairTally PairGrad DistSpec DistThms DistNoThms DistGradSpec DistGrad DistGradThms SymSpec SymProofs SymForces SymAse SymPairSpec SymPair CoverSpec Cover CoverForces CoverAse AgreeSpec Agree.
Import ListNotations.
Local Open Scope R_scope.

Lemma nth_head {A} (l : list A) k i d : (i < k)%nat -> nth i (firstn k l) d = nth i l d.
Proof. revert l i. induction k as [|k IH]; intros [|a l] [|i] H; cbn [firstn nth]; try lia; auto. apply IH. lia. Qed.

Section Main.
Variable sph : nat -> R -> R -> R -> list R * list R.
Hypothesis Hs : sph_ok (N:=RNum) sph.
Hypothesis Hg : sph_gradient sph.
Variable srt : list (list (list nat)) -> list (list (list nat)).
Hypothesis Hp : forall l, Permutation l (srt l).
Variable f : mace_file RNum.
Hypothesis F : file_ok f.
Hypothesis S : smooth_ok f.
Hypothesis Mo : monomials_once f.

(** the evaluation of two inputs one of which renumbers the other, from any buffers *)
Lemma renumber_call x x' xs sg ep : covers sg ep x' x -> fold_of sg (i_num_nodes x') (i_num_nodes x) 1 -> smooth_at f x xs ->
  forall bh bh', bufs_live (ldm f) (ldp0 srt f) (ldp1 srt f) (ldlive f) bh -> bufs_live (ldm f) (ldp0 srt f) (ldp1 srt f) (ldlive f) bh' ->
  exists b b', call sph (ldm f) bh (with_xyz x xs) = Some b /\ call sph (ldm f) bh' (with_xyz x' (lift3 ep (list_sum (i_num_neigh x')) xs)) = Some b' /\
    b_node_energies b' = map (fun i => nth (sg i) (b_node_energies b) 0) (seq 0 (i_num_nodes x')) /\ b_node_forces b' = lift3 ep (list_sum (i_num_neigh x')) (b_node_forces b).
Proof.
  intros CV Fk SA bh bh' Lb Lb'. destruct (lemma_C86_renumber sph Hs Hg srt Hp f F S Mo [] x x' xs sg ep (Forall_nil _) CV Fk SA) as (m & b0 & bh0 & b & b' & E1 & E2 & E3 & E4 & E5 & E6).
  destruct (load_ok srt Hp f F) as (c0 & F1 & L0). rewrite E1 in F1. injection F1 as -> <-. injection E2 as <-.
  pose proof (sa_ok _ _ _ SA) as I1. pose proof (sa_ok _ _ _ (smooth_cover f sg ep x' x xs CV SA)) as I2.
  destruct (call_ok sph Hs srt f F b0 _ L0 I1) as (q1 & A1 & _ & A2 & A3). rewrite E3 in A1. injection A1 as <-.
  destruct (call_ok sph Hs srt f F b0 _ L0 I2) as (q2 & B1 & _ & B2 & B3). rewrite E4 in B1. injection B1 as <-.
  destruct (call_ok sph Hs srt f F bh _ Lb I1) as (q1 & C1 & _ & C2 & C3). destruct (call_ok sph Hs srt f F bh' _ Lb' I2) as (q2 & G1 & _ & G2 & G3).
  exists q1, q2. split; [exact C1|]. split; [exact G1|]. rewrite G2, C2, G3, C3, <- A2, <- B2, <- A3, <- B3. split; assumption.
Qed.

Variables numbers types il jl : list nat.
Hypothesis SM : species_map (f_atomic_numbers f) numbers types.
Hypothesis NL : nl_ok (length numbers) il jl.
Hypothesis Hne : il <> [].
Hypothesis FU : Datatypes.S (list_max il) = length numbers.
Variable D : list R.
Hypothesis LD : length D = (3 * length il)%nat.
Notation x := (nl_input (N:=RNum) (Datatypes.S (list_max il)) types il jl [] []).
Hypothesis SA : smooth_at f x D.

Variable l : lmp RNum.
Variable rc : R.
Variable ltypes : list nat.
Hypothesis L : lmp_ok (length ltypes) (ilist l) l.
Variable owner : nat -> nat.
Hypothesis Ow : owner_ok owner l.
Variable sg : nat -> nat.
Hypothesis SS : same_structure (f_atomic_numbers f) numbers il jl D ltypes rc owner l sg.
Notation B := (ilist l).
Notation K0 := (kpairs l rc B).
Notation x0 := (nd_input (N:=RNum) ltypes rc owner l).
Notation sgB := (fun ii => sg (nth ii B 0%nat)).

Lemma sg_lt i : (i < nlocal l)%nat -> (sg i < length numbers)%nat.
Proof. intros H. assert (Q : In (sg i) (seq 0 (length numbers))) by (eapply Permutation_in; [apply (ss_atoms _ _ _ _ _ _ _ _ _ _ SS)|]; apply in_map, in_seq; lia). apply in_seq in Q. lia. Qed.
Lemma sg_inj i j : (i < nlocal l)%nat -> (j < nlocal l)%nat -> sg i = sg j -> i = j.
Proof.
  intros Hi Hj E. assert (ND : NoDup (map sg (seq 0 (nlocal l)))) by (eapply Permutation_NoDup; [apply Permutation_sym; apply (ss_atoms _ _ _ _ _ _ _ _ _ _ SS)|apply seq_NoDup]).
  rewrite NoDup_nth with (d := sg 0%nat) in ND. apply (ND i j); rewrite ?map_length, ?seq_length; auto. rewrite !map_nth, !seq_nth by assumption. exact E.
Qed.
Lemma spec_type j : (j < nlocal l + nghost l)%nat -> spec_of ltypes l j = nth (sg (owner j)) types 0%nat.
Proof.
  intros Hj. pose proof (sg_lt _ (oo_lt _ _ Ow _ Hj)) as Hs0. apply (species_unique (f_atomic_numbers f) (nth (sg (owner j)) numbers 0%nat)); [apply (ss_species _ _ _ _ _ _ _ _ _ _ SS j Hj)|].
  apply (proj2 SM (sg (owner j))); apply nth_error_nth'; [exact Hs0|rewrite (proj1 SM); exact Hs0].
Qed.
Lemma B_nth ii : (ii < length B)%nat -> (nth ii B 0%nat < nlocal l)%nat.
Proof. intros H. apply (B_in l ltypes L). apply nth_In. exact H. Qed.

Lemma agree_cover : exists ep, covers sgB ep x0 x /\ pvec K0 (atom_x l) = lift3 ep (length K0) D.
Proof.
  rewrite <- (sum_nn0 l rc ltypes owner). apply env_cover; cbn [nd_input i_node_types i_num_nodes i_num_neigh i_neigh_indices i_neigh_types].
  - apply map_length.
  - apply map_length.
  - rewrite length_flat_map. apply f_equal, map_ext. intros i. apply map_length.
  - rewrite length_flat_map. apply f_equal, map_ext. intros i. apply map_length.
  - intros j Hj. apply in_flat_map in Hj. destruct Hj as (i & Hi & Hj). apply in_map_iff in Hj. destruct Hj as (k & <- & Hk). apply position_lt. apply (B_in l ltypes L). apply (oo_lt _ _ Ow).
    unfold kept in Hk. apply filter_In in Hk. destruct (lo_A _ _ _ L i Hi) as (_ & _ & _ & _ & A). apply A. apply Hk.
  - intros ii Hi. pose proof (B_nth ii Hi) as Hn. cbn [nl_input i_num_nodes i_node_types]. split; [rewrite FU; apply sg_lt; exact Hn|].
    rewrite (nth_indep _ 0%nat (spec_of ltypes l 0)) by (rewrite map_length; exact Hi). rewrite map_nth. rewrite spec_type by lia. rewrite (oo_self _ _ Ow _ Hn).
    symmetry. apply nth_head. rewrite FU. apply sg_lt. exact Hn.
  - rewrite length_pvec. apply f_equal. symmetry. apply (sum_nn0 l rc ltypes owner).
  - intros ii Hi. pose proof (B_nth ii Hi) as Hn. set (i := nth ii B 0%nat) in *. pose proof (sg_lt i Hn) as Hsi.
    eapply Permutation_trans; [apply Permutation_refl'; exact (edge_env l rc ltypes L owner Ow sg ii Hi)|]. fold i.
    assert (EK : map (fun j => (sg (owner j), spec_of ltypes l j, vec_to l i j)) (kept (N:=RNum) rc l i) =
                 map (fun z : nat * (R * R * R) => (fst z, nth (fst z) types 0%nat, snd z)) (map (fun j => (sg (owner j), vec_to l i j)) (kept (N:=RNum) rc l i))).
    { rewrite map_map. apply map_ext_in. intros j Hj. cbn [fst snd]. rewrite spec_type; [reflexivity|]. unfold kept in Hj. apply filter_In in Hj.
      assert (HiB : In i B) by (apply nth_In; exact Hi). destruct (lo_A _ _ _ L i HiB) as (_ & _ & _ & _ & A). apply A. apply Hj. }
    rewrite EK. eapply Permutation_trans; [apply Permutation_map; apply (ss_neigh _ _ _ _ _ _ _ _ _ _ SS i Hn)|]. rewrite map_map. cbn [fst snd].
    eapply Permutation_trans with (l' := map (fun q => (nth q jl 0%nat, nth (nth q jl 0%nat) types 0%nat, vec D q)) (edges_of x (sg i))).
    + apply Permutation_map. apply NoDup_Permutation; [apply NoDup_filter, seq_NoDup|unfold edges_of; apply seq_NoDup|].
      intros q. rewrite filter_In, in_seq, Nat.eqb_eq. rewrite (nl_edges numbers types il jl NL (sg i)) by (rewrite FU; exact Hsi). intuition lia.
    + apply Permutation_refl'. apply map_ext_in. intros q Hq. apply (nl_edges numbers types il jl NL (sg i)) in Hq; [|rewrite FU; exact Hsi]. unfold env. cbn [nl_input i_neigh_indices i_neigh_types].
      pose proof (nl_len _ _ _ NL) as Lj. rewrite (nth_indep (map _ jl) 0%nat (nth 0 types 0%nat)) by (rewrite map_length; lia). rewrite (map_nth (fun j => nth j types 0%nat)). reflexivity.
Qed.
Lemma agree_fold : fold_of sgB (length B) (length numbers) 1.
Proof.
  intros j Hj. assert (P : Permutation (map sgB (seq 0 (length B))) (seq 0 (length numbers))).
  { eapply Permutation_trans; [|apply (ss_atoms _ _ _ _ _ _ _ _ _ _ SS)]. eapply Permutation_trans; [|apply Permutation_map; apply (lo_il _ _ _ L)].
    apply Permutation_refl'. exact (map_seq_nth sg B 0%nat). }
  rewrite (Permutation_count_occ Nat.eq_dec) in P. rewrite P. apply NoDup_count_occ'; [apply seq_NoDup|apply in_seq; lia].
Qed.

Lemma first_sg ep (CV : covers sgB ep x0 x) p : (p < length K0)%nat -> nth (ep p) il 0%nat = sg (fst (nth p K0 (0, 0)%nat)) /\ (ep p < length il)%nat.
Proof.
  intros Hpk. rewrite <- (sum_nn0 l rc ltypes owner) in Hpk. destruct (edge_owner _ _ Hpk) as (ii & Hi & Hin). cbn [nd_input i_num_neigh] in Hi. rewrite map_length in Hi.
  assert (Q : In (ep p) (edges_of x (sgB ii))) by (eapply Permutation_in; [apply (cv_edges _ _ _ _ CV ii); exact Hi|]; apply in_map; exact Hin).
  apply (nl_edges numbers types il jl NL) in Q; [|rewrite FU; apply sg_lt, B_nth, Hi]. rewrite (edge_first l rc ltypes owner ii p Hi Hin). tauto.
Qed.

Lemma agree_step V fl p (a : accum RNum) bh bh' : V <> 0 -> vflag_atom fl = false -> acc_ok l a ->
  bufs_live (ldm f) (ldp0 srt f) (ldp1 srt f) (ldlive f) bh -> bufs_live (ldm f) (ldp0 srt f) (ldp1 srt f) (ldlive f) bh' ->
  exists b res b1 p1 a1, calculate sph (ldm f) bh numbers (Some V) il jl (lengths3 D) D = Some (b, res) /\
    compute_no_domain_decomposition sph (ldm f) rc ltypes fl l bh' p a = Some (b1, p1, a1) /\
    (eflag_global fl = true -> eng_vdwl a1 = eng_vdwl a + res_energy res) /\
    (forall i, (i < nlocal l)%nat -> nth (position i (ilist l)) (b_node_energies b1) 0 = nth (sg i) (res_energies res) 0) /\
    (forall i c, (i < nlocal l)%nat -> (c < 3)%nat -> nth (3 * i + c) (force a1) 0 = nth (3 * i + c) (force a) 0 + nth (3 * sg i + c) (res_forces res) 0) /\
    (vflag_global fl = true -> forall r c, (r < 3)%nat -> (c < 3)%nat ->
       lammps_tensor (fun k => nth k (virial a1) 0 - nth k (virial a) 0) r c = - V * voigt_tensor (res_stress res) r c).
Proof.
  intros HV Hv Ha Lb Lb'. destruct agree_cover as (ep & CV & EX).
  assert (Fk : fold_of sgB (i_num_nodes x0) (i_num_nodes x) 1) by (cbn [nd_input nl_input i_num_nodes]; rewrite FU; exact agree_fold).
  destruct (renumber_call x x0 D sgB ep CV Fk SA bh bh' Lb Lb') as (b & b1 & E1 & E2 & E3 & E4).
  rewrite (sum_nn0 l rc ltypes owner) in E2, E4. change (i_num_nodes x0) with (length B) in E3. rewrite <- EX in E2.
  pose proof (sa_ok _ _ _ SA) as I1. pose proof (sa_ok _ _ _ (smooth_cover f sgB ep x0 x D CV SA)) as I2. rewrite (sum_nn0 l rc ltypes owner), <- EX in I2.
  destruct (nd_step sph Hs srt f F l rc ltypes L owner Ow fl p a (atom_x l) bh' Hv Ha eq_refl (fun i _ => kept_self l rc ltypes L owner Ow i) I2 Lb') as (c1 & p1 & A1 & A2 & A3 & A4).
  rewrite E2 in A1. injection A1 as <-. assert (EL : at_x l (atom_x l) = l) by (destruct l; reflexivity). rewrite EL in A4.
  pose proof (with_nl numbers types il jl NL D LD) as W. rewrite W in I1, E1.
  destruct (calc_ok sph Hs srt f F numbers types il jl SM NL Hne bh V _ _ Lb I1) as (q & B1 & _ & LE & B2 & B3). rewrite E1 in B1. injection B1 as <-. cbv zeta in B3.
  eexists b, _, b1, p1, _. split; [exact B3|]. split; [exact A4|]. unfold acc1. cbn [eng_vdwl eatom virial force res_energy res_energies res_forces res_stress].
  set (G := b_node_forces b) in *. pose proof (nl_len _ _ _ NL) as Lj. pose proof (sum_nn numbers il jl NL) as SN.
  assert (Ln : length (i_num_neigh x) = i_num_nodes x) by (cbn [nl_input i_num_neigh i_num_nodes]; rewrite map_length, seq_length; reflexivity).
  assert (SE : forall w, rsum (length K0) (fun q => w (ep q)) = rsum (length il) w).
  { intros w. pose proof (sum_edges sgB ep x0 x CV Ln 1 Fk w) as Q. rewrite (sum_nn0 l rc ltypes owner) in Q. cbn [nl_input i_num_neigh] in Q. rewrite SN in Q. cbn [INR] in Q. rewrite Rmult_1_l in Q. exact Q. }
  split; [|split; [|split]].
  - intros ->. apply f_equal. rewrite E3.
    assert (EB : @eq R (fold_left (nadd (n:=RNum)) (b_node_energies b) (nzero (N:=RNum))) (total (b_node_energies b))) by (etransitivity; [apply fold_nadd|]; rewrite RNum_zero; apply Rplus_0_l).
    etransitivity; [|symmetry; exact EB]. change (rl (seq 0 (length B)) (fun i => nth (sgB i) (b_node_energies b) 0) = total (b_node_energies b)). rewrite rl_seq.
    etransitivity; [exact (sum_nodes sgB ep x0 x CV Ln 1 Fk (fun j => nth j (b_node_energies b) 0))|]. cbn [INR]. rewrite Rmult_1_l. cbn [nl_input i_num_nodes]. rewrite <- LE. symmetry. apply lsumR_rsum.
  - intros i Hi. assert (HB : In i B) by (apply (B_in l ltypes L); exact Hi). pose proof (position_lt i B HB) as Hq. rewrite E3.
    etransitivity; [exact (nth_tab (length B) (fun ii => nth (sgB ii) (b_node_energies b) 0) (position i B) 0 Hq)|]. cbv beta. rewrite (pos_nth l ltypes L) by exact HB. reflexivity.
  - intros i c Hi Hc. pose proof (sg_lt i Hi) as Hsi.
    etransitivity; [apply (PairTally.nth_frc (force a) (b_node_forces b1) (map fst K0) (nbr0 l rc owner) (nlocal l + nghost l)); [apply (ao_f _ _ Ha)| |exact Hc]|].
    { intros q Hq. rewrite (nbr0_K l rc owner). rewrite (nth_indep _ 0%nat (fst (0, 0)%nat)) by (rewrite map_length; exact Hq). rewrite map_nth.
      rewrite (nth_indep (map (fun p0 : nat * nat => owner (snd p0)) K0) 0%nat ((fun p0 : nat * nat => owner (snd p0)) (0, 0)%nat)) by (rewrite map_length; exact Hq). rewrite (map_nth (fun p0 : nat * nat => owner (snd p0))).
      destruct (K0_nth l rc ltypes L q Hq) as [Q1 Q2]. split; [lia|]. pose proof (oo_lt _ _ Ow _ Q2). lia. }
    apply f_equal. symmetry. etransitivity; [exact (SymAse.nth_frc (fun a c => pair_sum (N:=RNum) il G jl a c - pair_sum (N:=RNum) il G il a c) (length numbers) (sg i) c Hsi Hc)|].
    cbv beta. unfold pair_sum. rewrite !pick_R. rewrite <- rsum_minus, <- SE. apply rsum_ext. intros q Hq. rewrite RNum_zero. rewrite E4, nth_lift3 by assumption.
    destruct (first_sg ep CV q Hq) as (E5 & Hqi). destruct (K0_nth l rc ltypes L q Hq) as [Q1 Q2]. rewrite E5.
    assert (E6 : nth (ep q) jl 0%nat = sg (owner (snd (nth q K0 (0, 0)%nat)))).
    { pose proof (cv_far _ _ _ _ CV q) as Z. rewrite (sum_nn0 l rc ltypes owner) in Z. specialize (Z Hq). rewrite (pos_far l rc ltypes L owner Ow q Hq) in Z. symmetry. exact Z. }
    rewrite E6. rewrite (nbr0_K l rc owner). rewrite (nth_indep (map fst K0) 0%nat (fst (0, 0)%nat)) by (rewrite map_length; exact Hq). rewrite map_nth.
    rewrite (nth_indep (map (fun p0 : nat * nat => owner (snd p0)) K0) 0%nat ((fun p0 : nat * nat => owner (snd p0)) (0, 0)%nat)) by (rewrite map_length; exact Hq). rewrite (map_nth (fun p0 : nat * nat => owner (snd p0))).
    assert (IN : forall u v, (u < nlocal l)%nat -> (v < nlocal l)%nat -> ind (sg u) (sg v) = ind u v).
    { intros u v Hu Hv'. unfold ind. destruct (Nat.eqb_spec u v) as [->|Ne]; [rewrite Nat.eqb_refl; reflexivity|]. rewrite (proj2 (Nat.eqb_neq (sg u) (sg v))); [reflexivity|]. intros C. apply Ne, (sg_inj u v Hu Hv' C). }
    rewrite !IN by (auto; apply (oo_lt _ _ Ow); exact Q2). change (carrier RNum) with R. unfold G. symmetry. apply Rmult_minus_distr_l.
  - intros Hvf. rewrite Hvf.
    assert (SR : forall a c, @eq R (stress_sum (N:=RNum) il G D V a c) (rsum (length il) (fun q => - nth (3 * q + a) G 0 * nth (3 * q + c) D 0) / V)).
    { intros a0 c. unfold stress_sum. rewrite RNum_zero. cbn [ndiv nmul nopp RNum carrier].
      assert (E : @eq R (fold_left (nadd (n:=RNum)) (map (fun q => - nth (3 * q + a0) G 0 * nth (3 * q + c) D 0) (seq 0 (length il))) 0) (rsum (length il) (fun q => - nth (3 * q + a0) G 0 * nth (3 * q + c) D 0))).
      { etransitivity; [apply fold_nadd|]. rewrite Rplus_0_l. apply MaceForces.total_tab. }
      exact (f_equal (fun v => v / V) E). }
    set (Sg := fun a c => rsum (length il) (fun q => nth (3 * q + c) D 0 * nth (3 * q + a) G 0)).
    assert (SR2 : forall a c, @eq R (stress_sum (N:=RNum) il G D V a c) (- Sg a c / V)).
    { intros a0 c. etransitivity; [exact (SR a0 c)|]. apply (f_equal (fun v => v / V)). unfold Sg. rewrite <- rsum_opp. apply rsum_ext. intros. ring. }
    assert (VR : forall a c, (a < 3)%nat -> (c < 3)%nat -> rsum (length K0) (fun q => nth (3 * q + c) (pvec K0 (atom_x l)) 0 * nth (3 * q + a) (b_node_forces b1) 0) = Sg a c).
    { intros a0 c Ha0 Hc. unfold Sg. rewrite <- SE. apply rsum_ext. intros q Hq. rewrite EX, E4, !nth_lift3 by assumption. reflexivity. }
    assert (T : forall v G X n a c, (a < 3)%nat -> (c < 3)%nat -> lammps_tensor (fun k => nth k (vir v G X n) 0 - nth k v 0) a c =
      rsum n (fun q => / 2 * (nth (3 * q + a) X 0 * nth (3 * q + c) G 0 + nth (3 * q + c) X 0 * nth (3 * q + a) G 0))).
    { clear. intros v G X n a c Ha Hc. unfold lammps_tensor, vir.
      destruct a as [|[|[|a]]], c as [|[|[|c]]]; try lia; cbn [Nat.eqb nth Nat.add];
        match goal with |- ?p + ?q - ?p = ?r => transitivity q; [ring|] end; apply rsum_ext; intros q _; rewrite ?Nat.add_0_r; field. }
    intros r c Hr Hc. etransitivity; [exact (T (virial a) (b_node_forces b1) (pvec K0 (atom_x l)) (length K0) r c Hr Hc)|].
    rewrite rsum_scal_l, rsum_plus, !VR by assumption.
    assert (H2 : @eq R (nofZ (N:=RNum) 2) 2) by (rewrite RNum_ofZ; reflexivity).
    unfold voigt_tensor. cbn [ndiv nadd RNum carrier]. change (carrier RNum) with R in *.
    assert (HS : forall v1 v2, @eq R (- V * ((- v1 / V + - v2 / V) / 2)) (/ 2 * (v1 + v2))) by (intros; field; exact HV).
    destruct r as [|[|[|r]]], c as [|[|[|c]]]; try lia; cbn [Nat.eqb nth Nat.sub]; rewrite !SR2, ?H2, ?HS; field; exact HV.
Qed.

Lemma lemma_agree hist hist' V fl p (a : accum RNum) : List.Forall (input_ok f) hist -> List.Forall (input_ok f) hist' -> V <> 0 -> vflag_atom fl = false -> acc_ok l a ->
  exists m b0 bh bh' b res b1 p1 a1, load_from_json srt f = Some (m, b0) /\ calls sph m b0 hist = Some bh /\ calls sph m b0 hist' = Some bh' /\
    calculate sph m bh numbers (Some V) il jl (lengths3 D) D = Some (b, res) /\
    compute_no_domain_decomposition sph m rc ltypes fl l bh' p a = Some (b1, p1, a1) /\
    (eflag_global fl = true -> eng_vdwl a1 = eng_vdwl a + res_energy res) /\
    (forall i, (i < nlocal l)%nat -> nth (position i (ilist l)) (b_node_energies b1) 0 = nth (sg i) (res_energies res) 0) /\
    (forall i c, (i < nlocal l)%nat -> (c < 3)%nat -> nth (3 * i + c) (force a1) 0 = nth (3 * i + c) (force a) 0 + nth (3 * sg i + c) (res_forces res) 0) /\
    (vflag_global fl = true -> forall r c, (r < 3)%nat -> (c < 3)%nat ->
       lammps_tensor (fun k => nth k (virial a1) 0 - nth k (virial a) 0) r c = - V * voigt_tensor (res_stress res) r c).
Proof.
  intros Hh Hh' HV Hv Ha. destruct (load_ok srt Hp f F) as (b0 & E0 & L0). destruct (calls_ok sph Hs srt f F b0 hist L0 Hh) as (bh & E2 & Lh). destruct (calls_ok sph Hs srt f F b0 hist' L0 Hh') as (bh' & E2' & Lh').
  destruct (agree_step V fl p a bh bh' HV Hv Ha Lh Lh') as (b & res & b1 & p1 & a1 & Q). exists (ldm f), b0, bh, bh', b, res, b1, p1, a1. auto.
Qed.
End Main.

Section Dist.
Variable sph : nat -> R -> R -> R -> list R * list R.
Hypothesis Hs : sph_ok (N:=RNum) sph.
Hypothesis Hg : sph_gradient sph.
Variable srt : list (list (list nat)) -> list (list (list nat)).
Hypothesis Hp : forall l, Permutation l (srt l).
Variable f : mace_file RNum.
Hypothesis F : file_ok f.
Hypothesis S : smooth_ok f.
Hypothesis Mo : monomials_once f.
Variables numbers types il jl : list nat.
Hypothesis SM : species_map (f_atomic_numbers f) numbers types.
Hypothesis NL : nl_ok (length numbers) il jl.
Hypothesis Hne : il <> [].
Hypothesis FU : Datatypes.S (list_max il) = length numbers.
Variable D : list R.
Hypothesis LD : length D = (3 * length il)%nat.
Notation x := (nl_input (N:=RNum) (Datatypes.S (list_max il)) types il jl [] []).
Hypothesis SA : smooth_at f x D.
Variable V : R.
Hypothesis HV : V <> 0.
Variable rc : R.
Variable ltypes : list nat.
Variable sg : nat -> nat.

Lemma agree_dist P needed (t : dstep) qs bh : step_ok f rc ltypes needed P t -> same_structure (f_atomic_numbers f) numbers il jl D ltypes rc (d_owner t) (d_L t) sg ->
  bufs_live (ldm f) (ldp0 srt f) (ldp1 srt f) (ldlive f) bh ->
  (forall b p a, bufs_live (ldm f) (ldp0 srt f) (ldp1 srt f) (ldlive f) b -> acc_ok (d_L t) a -> exists b1 p1 a1,
    compute_no_domain_decomposition (N:=RNum) sph (ldm f) rc ltypes (d_fl t) (d_L t) b p a = Some (b1, p1, a1) /\
    (forall r l q, nth_error (d_ranks t) r = Some l -> nth_error qs r = Some q -> same_energies (d_fl t) (d_L t) l (pr_b q) b1 (pr_a q)) /\
    same_added (d_L t) (map (fun l : lmp RNum => atom_tag l) (d_ranks t)) (d_acc t) (map (fun q => pr_a q) qs) a a1) ->
  exists b res, calculate sph (ldm f) bh numbers (Some V) il jl (lengths3 D) D = Some (b, res) /\
    agrees sg V res (d_fl t) (d_L t) (d_ranks t) (d_acc t) qs.
Proof.
  intros St SS Lb H. pose proof St as [S1 S2 S3 S4 S5 S6 S7]. destruct (load_ok srt Hp f F) as (b0 & E0 & L0).
  destruct (agree_step sph Hs Hg srt Hp f F S Mo numbers types il jl SM NL Hne FU D LD SA (d_L t) rc ltypes S2 (d_owner t) S3 sg SS V (d_fl t) L0p (L0acc t) bh b0 HV S7 (L0acc_ok t) Lb L0)
    as (b & res & b1 & p1 & a1 & A1 & A2 & A3 & A4 & A5 & A6).
  destruct (H b0 L0p (L0acc t) L0 (L0acc_ok t)) as (c1 & q1 & e1 & C1 & C2 & C3). rewrite A2 in C1. injection C1 as <- <- <-.
  destruct (sums _ _ _ _ _ _ C3) as (U1 & U2 & U3).
  assert (TL : length (map (fun l : lmp RNum => atom_tag l) (d_ranks t)) = length (d_acc t)) by (rewrite map_length; eapply Forall2_len; exact S6).
  exists b, res. split; [exact A1|]. constructor.
  - intros Hf. rewrite U1, (A3 Hf). ring.
  - intros r l q i i' N1 N2 Hi Hi' T. rewrite (se_node _ _ _ _ _ _ (C2 r l q N1 N2) i i' Hi Hi' T). apply A4. exact Hi'.
  - intros i c Hi Hc. rewrite (U3 TL i c Hi Hc), (A5 i c Hi Hc). ring.
  - intros Hf a c Ha Hc. rewrite <- (A6 Hf a c Ha Hc). unfold lammps_tensor. destruct (a =? c)%nat eqn:Q; apply U2; [lia|]. apply Nat.eqb_neq in Q. lia.
Qed.

Lemma lemma_agree_mpi P ts t pbs hist : List.Forall (mpi_step_ok f rc ltypes P) ts -> mpi_step_ok f rc ltypes P t -> length pbs = P -> List.Forall (input_ok f) hist ->
  same_structure (f_atomic_numbers f) numbers il jl D ltypes rc (d_owner t) (d_L t) sg ->
  exists m b0 bh b res st qs, load_from_json srt f = Some (m, b0) /\ calls sph m b0 hist = Some bh /\ calculate sph m bh numbers (Some V) il jl (lengths3 D) D = Some (b, res) /\
    mpi_steps sph m rc ltypes ts (map (fun pb => (b0, pb)) pbs) = Some st /\ mpi_run (N:=RNum) sph m rc ltypes (d_fl t) (d_msgs t) (procs t st) = Some qs /\
    agrees sg V res (d_fl t) (d_L t) (d_ranks t) (d_acc t) qs.
Proof.
  intros Hts Ht Lp Hh SS. destruct (load_ok srt Hp f F) as (b0 & E0 & L0). destruct (calls_ok sph Hs srt f F b0 hist L0 Hh) as (bh & E2 & Lh).
  assert (B : forall (pbs : list (pair_bufs RNum)) q, In q (map (fun pb => (b0, pb)) pbs) -> bufs_live (ldm f) (ldp0 srt f) (ldp1 srt f) (ldlive f) (fst q)).
  { intros pbs0 q Hq. apply in_map_iff in Hq. destruct Hq as (pb & <- & _). exact L0. }
  destruct (mpi_many sph Hs srt f F ltypes rc P ts Hts (map (fun pb => (b0, pb)) pbs)) as (st & Es & Ls & Hst); [rewrite map_length; exact Lp|apply B|].
  destruct (mpi_one sph Hs srt f F ltypes rc P t st Ht Ls Hst) as (qs & Q1 & Q2 & Q3 & Q4).
  destruct (agree_dist P needed_mpi t qs bh (mo_step _ _ _ _ _ Ht) SS Lh Q4) as (b & res & A & G). exists (ldm f), b0, bh, b, res, st, qs. auto 10.
Qed.
Lemma lemma_agree_no_mpi P ts t pbs hist : List.Forall (step_ok f rc ltypes (needed_no_mpi (N:=RNum) rc) P) ts -> step_ok f rc ltypes (needed_no_mpi (N:=RNum) rc) P t -> length pbs = P -> List.Forall (input_ok f) hist ->
  same_structure (f_atomic_numbers f) numbers il jl D ltypes rc (d_owner t) (d_L t) sg ->
  exists m b0 bh b res st qs, load_from_json srt f = Some (m, b0) /\ calls sph m b0 hist = Some bh /\ calculate sph m bh numbers (Some V) il jl (lengths3 D) D = Some (b, res) /\
    no_mpi_steps sph m rc ltypes ts (map (fun pb => (b0, pb)) pbs) = Some st /\ no_mpi_run sph m rc ltypes (d_fl t) (procs t st) = Some qs /\
    agrees sg V res (d_fl t) (d_L t) (d_ranks t) (d_acc t) qs.
Proof.
  intros Hts Ht Lp Hh SS. destruct (load_ok srt Hp f F) as (b0 & E0 & L0). destruct (calls_ok sph Hs srt f F b0 hist L0 Hh) as (bh & E2 & Lh).
  assert (B : forall (pbs : list (pair_bufs RNum)) q, In q (map (fun pb => (b0, pb)) pbs) -> bufs_live (ldm f) (ldp0 srt f) (ldp1 srt f) (ldlive f) (fst q)).
  { intros pbs0 q Hq. apply in_map_iff in Hq. destruct Hq as (pb & <- & _). exact L0. }
  destruct (no_many sph Hs srt f F ltypes rc P ts Hts (map (fun pb => (b0, pb)) pbs)) as (st & Es & Ls & Hst); [rewrite map_length; exact Lp|apply B|].
  destruct (no_one sph Hs srt f F ltypes rc P t st Ht Ls Hst) as (qs & Q1 & Q2 & Q3 & Q4).
  destruct (agree_dist P (needed_no_mpi (N:=RNum) rc) t qs bh Ht SS Lh Q4) as (b & res & A & G). exists (ldm f), b0, bh, b, res, st, qs. auto 10.
Qed.
End Dist.
