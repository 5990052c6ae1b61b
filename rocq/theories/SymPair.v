(** Rigid motions of the atoms in the LAMMPS pair style. *)
From Coq Require Import List Arith ZArith Lia Bool Permutation Reals Lra.
From Verif Require Import Base BaseLemmas Instances RSums RList MlpR MaceModel MaceSpec MaceSpec2 MaceGradSpec MaceFlat MacePipe MaceLoad MaceThms MaceForces ExportPolySpec EnergySpec EnergyProofs
  PairModel PairMpiModel PairSpec PairCommSpec AseGrad PairThms PairTally PairGrad DistSpec DistThms DistNoThms DistGradSpec DistGrad DistGradThms SymSpec SymProofs SymForces SymAse SymPairSpec.
Import ListNotations.
Local Open Scope R_scope.

Section Rigid.
Variable g : nat -> nat -> R.
Variable d : nat -> R.
Lemma length_rigid xs : length (rigid g d xs) = length xs.
Proof. unfold rigid. rewrite map_length, seq_length. reflexivity. Qed.
Lemma nth_rigid xs q c : (c < 3)%nat -> (3 * q + c < length xs)%nat ->
  nth (3 * q + c) (rigid g d xs) 0 = g c 0%nat * nth (3 * q) xs 0 + g c 1%nat * nth (3 * q + 1) xs 0 + g c 2%nat * nth (3 * q + 2) xs 0 + d c.
Proof.
  intros Hc Hq. unfold rigid. etransitivity; [apply (nth_tab (length xs)); exact Hq|]. cbv beta.
  replace ((3 * q + c) / 3)%nat with q by (rewrite Nat.mul_comm, Nat.div_add_l, Nat.div_small by lia; lia).
  replace ((3 * q + c) mod 3)%nat with c by (rewrite Nat.add_comm, Nat.mul_comm, Nat.mod_add, Nat.mod_small by lia; lia).
  rewrite sum3, Nat.add_0_r. reflexivity.
Qed.
Lemma sep_rigid xs n i j c : length xs = (3 * n)%nat -> (i < n)%nat -> (j < n)%nat -> (c < 3)%nat ->
  @eq R (sep (N:=RNum) (rigid g d xs) i j c) (g c 0%nat * sep (N:=RNum) xs i j 0 + g c 1%nat * sep (N:=RNum) xs i j 1 + g c 2%nat * sep (N:=RNum) xs i j 2).
Proof.
  intros Lx Hi Hj Hc. rewrite !sep_R. rewrite !nth_rigid by lia. rewrite !Nat.add_0_r. ring.
Qed.
Hypothesis O : orthogonal g.
Lemma sep2_rigid xs n i j : length xs = (3 * n)%nat -> (i < n)%nat -> (j < n)%nat -> @eq R (sep2 (N:=RNum) (rigid g d xs) i j) (sep2 (N:=RNum) xs i j).
Proof.
  intros Lx Hi Hj. rewrite !sep2_R. rewrite !(sep_rigid xs n) by (auto; lia).
  pose proof (norm2_rot g O [sep (N:=RNum) xs i j 0; sep (N:=RNum) xs i j 1; sep (N:=RNum) xs i j 2] 0 ltac:(cbn; lia)) as H. unfold norm2 in H.
  change (3 * 0)%nat with 0%nat in H. cbn [Nat.add] in H.
  pose proof (nth_rotate g [sep (N:=RNum) xs i j 0; sep (N:=RNum) xs i j 1; sep (N:=RNum) xs i j 2] 0) as N3. cbn [length] in N3.
  pose proof (N3 0%nat ltac:(lia) ltac:(lia)) as E0. pose proof (N3 1%nat ltac:(lia) ltac:(lia)) as E1. pose proof (N3 2%nat ltac:(lia) ltac:(lia)) as E2. clear N3.
  change (3 * 0)%nat with 0%nat in *. cbn [Nat.add nth] in E0, E1, E2. rewrite E0, E1, E2 in H. cbn [nth] in H. exact H.
Qed.
Lemma kept_rigid nt A (l : lmp RNum) (rc : R) i : lmp_ok nt A l -> In i A -> kept (N:=RNum) rc (carried g d l) i = kept (N:=RNum) rc l i.
Proof.
  intros L Hi. unfold kept, carried. change (listed (at_x l (rigid g d (atom_x l))) i) with (listed l i). cbn [at_x atom_x].
  destruct (lo_A _ _ _ L i Hi) as (Hi1 & _ & _ & _ & A1). apply filter_ext_in. intros j Hj.
  change (carrier RNum) with R in *. rewrite (sep2_rigid (atom_x l) (nlocal l + nghost l)); [reflexivity|exact (lo_x _ _ _ L)|exact Hi1|exact (A1 j Hj)].
Qed.
Lemma pvec_rigid K xs n : length xs = (3 * n)%nat -> (forall q, (q < length K)%nat -> (fst (nth q K (0, 0)) < n)%nat /\ (snd (nth q K (0, 0)) < n)%nat) ->
  pvec K (rigid g d xs) = rotate g (pvec K xs).
Proof.
  intros Lx HK. apply rotate_ext with (n := length K); [apply length_pvec|apply length_pvec|]. intros q c Hq Hc. destruct (HK q Hq) as [H1 H2].
  rewrite !nth_pvec by (auto; lia). rewrite !nth_rigid by lia. rewrite !Nat.add_0_r. ring.
Qed.
End Rigid.

Section Tensor.
Variable g : nat -> nat -> R.
Lemma vir_rot v G X n : length G = (3 * n)%nat -> length X = (3 * n)%nat -> forall a c, (a < 3)%nat -> (c < 3)%nat ->
  lammps_tensor (fun k => nth k (vir v (rotate g G) (rotate g X) n) 0 - nth k v 0) a c =
  rotated_tensor g (lammps_tensor (fun k => nth k (vir v G X n) 0 - nth k v 0)) a c.
Proof.
  intros LG LX.
  assert (T : forall G X a c, (a < 3)%nat -> (c < 3)%nat -> lammps_tensor (fun k => nth k (vir v G X n) 0 - nth k v 0) a c =
    rsum n (fun q => / 2 * (nth (3 * q + a) X 0 * nth (3 * q + c) G 0 + nth (3 * q + c) X 0 * nth (3 * q + a) G 0))).
  { clear. intros G X a c Ha Hc. unfold lammps_tensor, vir.
    destruct a as [|[|[|a]]], c as [|[|[|c]]]; try lia; cbn [Nat.eqb nth Nat.add];
      match goal with |- ?p + ?q - ?p = ?r => transitivity q; [ring|] end; apply rsum_ext; intros q _; rewrite ?Nat.add_0_r; field. }
  intros a c Ha Hc. rewrite T by assumption. unfold rotated_tensor. rewrite !sum3. rewrite !T by lia.
  rewrite <- !rsum_scal_l, <- !rsum_plus. apply rsum_ext. intros q Hq. rewrite !nth_rotate by lia. rewrite !Nat.add_0_r. ring.
Qed.
Lemma frc_rot ff G I J na n : length ff = (3 * na)%nat -> length G = (3 * n)%nat -> (forall q, (q < n)%nat -> (nth q I 0 < na)%nat /\ (nth q J 0 < na)%nat) ->
  forall k c, (k < na)%nat -> (c < 3)%nat ->
  let df G c := nth (3 * k + c) (frc ff G I J n) 0 - nth (3 * k + c) ff 0 in
  df (rotate g G) c = g c 0%nat * df G 0%nat + g c 1%nat * df G 1%nat + g c 2%nat * df G 2%nat.
Proof.
  intros Lf LG HI k c Hk Hc df. unfold df. rewrite !(PairTally.nth_frc ff _ I J na) by (auto; lia).
  rewrite (rsum_ext n (fun q => nth (3 * q + c) (rotate g G) 0 * _)
    (fun q => g c 0%nat * (nth (3 * q + 0) G 0 * (AseGrad.ind (nth q J 0%nat) k - AseGrad.ind (nth q I 0%nat) k)) + g c 1%nat * (nth (3 * q + 1) G 0 * (AseGrad.ind (nth q J 0%nat) k - AseGrad.ind (nth q I 0%nat) k))
              + g c 2%nat * (nth (3 * q + 2) G 0 * (AseGrad.ind (nth q J 0%nat) k - AseGrad.ind (nth q I 0%nat) k)))).
  - rewrite !rsum_plus, !rsum_scal_l. ring.
  - intros q Hq. rewrite nth_rotate by lia. rewrite Nat.add_0_r. ring.
Qed.
End Tensor.

Section Serial.
Variable sph : nat -> RNum -> RNum -> RNum -> list RNum * list RNum.
Hypothesis Hsph : sph_ok (N:=RNum) sph.
Hypothesis Hgr : sph_gradient sph.
Variable srt : list (list (list nat)) -> list (list (list nat)).
Hypothesis Hsrt : forall l, Permutation l (srt l).
Variable f : mace_file RNum.
Hypothesis F : file_ok f.
Hypothesis SF : smooth_ok f.
Hypothesis Mo : monomials_once f.
Variable g : nat -> nat -> R.
Variable D : nat -> nat -> nat -> R.
Hypothesis O : orthogonal g.
Hypothesis EQ : equivariant sph f g D.
Variable d : nat -> R.

Lemma rot_call x xs : smooth_at f x xs -> forall bh, bufs_live (ldm f) (ldp0 srt f) (ldp1 srt f) (ldlive f) bh ->
  exists b b', call sph (ldm f) bh (with_xyz x xs) = Some b /\ call sph (ldm f) bh (with_xyz x (rotate g xs)) = Some b' /\
    b_node_energies b' = b_node_energies b /\ b_node_forces b' = rotate g (b_node_forces b).
Proof.
  intros SA bh Lb. destruct (lemma_C75 sph Hsph Hgr srt Hsrt f F SF Mo g D O EQ [] x xs (Forall_nil _) SA) as (m & b0 & bh0 & b & b' & E1 & E2 & E3 & E4 & E5 & E6).
  destruct (load_ok srt Hsrt f F) as (c0 & F1 & L0). rewrite E1 in F1. injection F1 as -> <-. injection E2 as <-.
  pose proof (sa_ok _ _ _ SA) as I1. pose proof (sa_ok _ _ _ (smooth_rot g O f x xs SA)) as I2.
  destruct (call_ok sph Hsph srt f F b0 _ L0 I1) as (q1 & A1 & _ & A2 & A3). rewrite E3 in A1. injection A1 as <-.
  destruct (call_ok sph Hsph srt f F b0 _ L0 I2) as (q2 & B1 & _ & B2 & B3). rewrite E4 in B1. injection B1 as <-.
  destruct (call_ok sph Hsph srt f F bh _ Lb I1) as (q1 & C1 & _ & C2 & C3). destruct (call_ok sph Hsph srt f F bh _ Lb I2) as (q2 & G1 & _ & G2 & G3).
  exists q1, q2. split; [exact C1|]. split; [exact G1|]. rewrite G2, C2, G3, C3, <- A2, <- B2, <- A3, <- B3. split; assumption.
Qed.
(** one call from given buffers *)
Lemma rigid_step (l : lmp RNum) (rc : R) types owner fl p p' (a : accum RNum) bh : lmp_ok (length types) (ilist l) l -> owner_ok owner l ->
  vflag_atom fl = false -> acc_ok l a -> smooth_at f (nd_input (N:=RNum) types rc owner l) (i_xyz (nd_input (N:=RNum) types rc owner l)) ->
  bufs_live (ldm f) (ldp0 srt f) (ldp1 srt f) (ldlive f) bh ->
  exists b1 p1 a1 b2 p2 a2, compute_no_domain_decomposition sph (ldm f) rc types fl l bh p a = Some (b1, p1, a1) /\
    compute_no_domain_decomposition sph (ldm f) rc types fl (carried g d l) bh p' a = Some (b2, p2, a2) /\
    b_node_energies b2 = b_node_energies b1 /\ eng_vdwl a2 = eng_vdwl a1 /\ eatom a2 = eatom a1 /\
    (forall i c, (i < nlocal l + nghost l)%nat -> (c < 3)%nat ->
       nth (3 * i + c) (force a2) 0 - nth (3 * i + c) (force a) 0 = sum 3 (fun c' => g c c' * (nth (3 * i + c') (force a1) 0 - nth (3 * i + c') (force a) 0))) /\
    (forall r c, (r < 3)%nat -> (c < 3)%nat -> lammps_tensor (fun k => nth k (virial a2) 0 - nth k (virial a) 0) r c =
       rotated_tensor g (lammps_tensor (fun k => nth k (virial a1) 0 - nth k (virial a) 0)) r c).
Proof.
  intros L Ow Hv Ha SA Lb. set (x0 := nd_input (N:=RNum) types rc owner l) in *. set (K0 := kpairs l rc (ilist l)).
  pose proof (xyz_x0 l rc types owner) as EX. fold x0 K0 in EX. rewrite EX in SA. pose proof (lo_x _ _ _ L) as Lx.
  assert (HK : forall q, (q < length K0)%nat -> (fst (nth q K0 (0, 0)) < nlocal l + nghost l)%nat /\ (snd (nth q K0 (0, 0)) < nlocal l + nghost l)%nat).
  { intros q Hq. destruct (K0_nth l rc types L q Hq) as [Q1 Q2]. split; [eapply Nat.lt_le_trans; [exact Q1|apply Nat.le_add_r]|exact Q2]. }
  pose proof (pvec_rigid g d K0 (atom_x l) _ Lx HK) as EP. pose proof (smooth_rot g O f x0 _ SA) as SR.
  destruct (nd_step sph Hsph srt f F l rc types L owner Ow fl p a (atom_x l) bh Hv Ha eq_refl (fun i _ => kept_self l rc types L owner Ow i) (sa_ok _ _ _ SA) Lb) as (b1 & p1 & A1 & A2 & A3 & A4).
  destruct (nd_step sph Hsph srt f F l rc types L owner Ow fl p' a (rigid g d (atom_x l)) bh Hv Ha (length_rigid g d _)) as (b2 & p2 & B1 & B2 & B3 & B4); auto.
  { intros i Hi. exact (kept_rigid g d O _ _ l rc i L Hi). }
  { fold x0 K0. rewrite EP. exact (sa_ok _ _ _ SR). }
  fold x0 K0 in A1, A2, A4, B1, B2, B4. rewrite EP in B1, B4.
  destruct (rot_call x0 _ SA bh Lb) as (c1 & c2 & C1 & C2 & C3 & C4). rewrite A1 in C1. injection C1 as <-. rewrite B1 in C2. injection C2 as <-.
  assert (EL : at_x l (atom_x l) = l) by (destruct l; reflexivity). rewrite EL in A4.
  eexists b1, p1, _, b2, p2, _. split; [exact A4|]. split; [exact B4|]. split; [exact C3|].
  unfold acc1. cbn [eng_vdwl eatom virial force]. fold K0. rewrite C3, C4. split; [reflexivity|]. split; [reflexivity|]. split.
  - intros i c Hi Hc. rewrite sum3. apply (frc_rot g (force a) (b_node_forces b1) (map fst K0) (nbr0 l rc owner) (nlocal l + nghost l) (length K0)); auto.
    + apply (ao_f _ _ Ha).
    + intros q Hq. rewrite (nbr0_K l rc owner). fold K0. 
      rewrite (nth_indep _ 0%nat (fst (0, 0)%nat)) by (rewrite map_length; exact Hq). rewrite map_nth.
      rewrite (nth_indep (map (fun p0 : nat * nat => owner (snd p0)) K0) 0%nat ((fun p0 : nat * nat => owner (snd p0)) (0, 0)%nat)) by (rewrite map_length; exact Hq). rewrite (map_nth (fun p0 : nat * nat => owner (snd p0))).
      destruct (HK q Hq) as [Q1 Q2]. split; [exact Q1|]. pose proof (oo_lt _ _ Ow _ Q2). lia.
  - intros r c Hr Hc. destruct (vflag_global fl).
    + apply (vir_rot g (virial a) (b_node_forces b1) (pvec K0 (atom_x l)) (length K0)); auto. apply length_pvec.
    + unfold rotated_tensor, lammps_tensor. rewrite !sum3. destruct (r =? c)%nat; cbn [Nat.eqb]; ring.
Qed.
Lemma lemma_C78 hist (l : lmp RNum) (rc : R) types owner fl p p' (a : accum RNum) : List.Forall (input_ok f) hist -> lmp_ok (length types) (ilist l) l -> owner_ok owner l ->
  vflag_atom fl = false -> acc_ok l a -> smooth_at f (nd_input (N:=RNum) types rc owner l) (i_xyz (nd_input (N:=RNum) types rc owner l)) ->
  exists m b0 bh b1 p1 a1 b2 p2 a2, load_from_json srt f = Some (m, b0) /\ calls sph m b0 hist = Some bh /\
    compute_no_domain_decomposition sph m rc types fl l bh p a = Some (b1, p1, a1) /\
    compute_no_domain_decomposition sph m rc types fl (carried g d l) bh p' a = Some (b2, p2, a2) /\
    b_node_energies b2 = b_node_energies b1 /\ eng_vdwl a2 = eng_vdwl a1 /\ eatom a2 = eatom a1 /\
    (forall i c, (i < nlocal l + nghost l)%nat -> (c < 3)%nat ->
       nth (3 * i + c) (force a2) 0 - nth (3 * i + c) (force a) 0 = sum 3 (fun c' => g c c' * (nth (3 * i + c') (force a1) 0 - nth (3 * i + c') (force a) 0))) /\
    (forall r c, (r < 3)%nat -> (c < 3)%nat -> lammps_tensor (fun k => nth k (virial a2) 0 - nth k (virial a) 0) r c =
       rotated_tensor g (lammps_tensor (fun k => nth k (virial a1) 0 - nth k (virial a) 0)) r c).
Proof.
  intros Hh L Ow Hv Ha SA. destruct (load_ok srt Hsrt f F) as (b0 & E0 & L0). destruct (calls_ok sph Hsph srt f F b0 hist L0 Hh) as (bh & E2 & Lh).
  destruct (rigid_step l rc types owner fl p p' a bh L Ow Hv Ha SA Lh) as (b1 & p1 & a1 & b2 & p2 & a2 & H).
  exists (ldm f), b0, bh, b1, p1, a1, b2, p2, a2. split; [exact E0|]. split; [exact E2|exact H].
Qed.

(** two distributed evaluations that agree with serial evaluations *)
Lemma carried_pair (rc : R) types P needed (t : dstep) P' needed' (t' : dstep) qs qs' :
  step_ok f rc types needed P t -> step_ok f rc types needed' P' t' -> d_L t' = carried g d (d_L t) -> d_fl t' = d_fl t ->
  smooth_at f (nd_input (N:=RNum) types rc (d_owner t) (d_L t)) (i_xyz (nd_input (N:=RNum) types rc (d_owner t) (d_L t))) ->
  (forall b p a, bufs_live (ldm f) (ldp0 srt f) (ldp1 srt f) (ldlive f) b -> acc_ok (d_L t) a -> exists b1 p1 a1,
    compute_no_domain_decomposition (N:=RNum) sph (ldm f) rc types (d_fl t) (d_L t) b p a = Some (b1, p1, a1) /\
    (forall r l q, nth_error (d_ranks t) r = Some l -> nth_error qs r = Some q -> same_energies (d_fl t) (d_L t) l (pr_b q) b1 (pr_a q)) /\
    same_added (d_L t) (map (fun l : lmp RNum => atom_tag l) (d_ranks t)) (d_acc t) (map (fun q => pr_a q) qs) a a1) ->
  (forall b p a, bufs_live (ldm f) (ldp0 srt f) (ldp1 srt f) (ldlive f) b -> acc_ok (d_L t') a -> exists b1 p1 a1,
    compute_no_domain_decomposition (N:=RNum) sph (ldm f) rc types (d_fl t') (d_L t') b p a = Some (b1, p1, a1) /\
    (forall r l q, nth_error (d_ranks t') r = Some l -> nth_error qs' r = Some q -> same_energies (d_fl t') (d_L t') l (pr_b q) b1 (pr_a q)) /\
    same_added (d_L t') (map (fun l : lmp RNum => atom_tag l) (d_ranks t')) (d_acc t') (map (fun q => pr_a q) qs') a a1) ->
  carried_results g (d_L t) (d_ranks t) (d_ranks t') (d_acc t) (d_acc t') qs qs'.
Proof.
  intros S S' EL EF SA H H'. pose proof S as [S1 S2 S3 S4 S5 S6 S7]. pose proof S' as [T1 T2 T3 T4 T5 T6 T7].
  destruct (load_ok srt Hsrt f F) as (b0 & E0 & L0).
  destruct (rigid_step (d_L t) rc types (d_owner t) (d_fl t) L0p L0p (L0acc t) b0 S2 S3 S7 (L0acc_ok t) SA L0) as (b1 & p1 & a1 & b2 & p2 & a2 & R1 & R2 & R3 & R4 & R5 & R6 & R7).
  destruct (H b0 L0p (L0acc t) L0 (L0acc_ok t)) as (c1 & q1 & e1 & C1 & C2 & C3). rewrite R1 in C1. injection C1 as <- <- <-.
  assert (Ha : acc_ok (d_L t') (L0acc t)) by (rewrite EL; destruct (L0acc_ok t); constructor; assumption).
  destruct (H' b0 L0p (L0acc t) L0 Ha) as (c1 & q1 & e1 & D1 & D2 & D3). rewrite EL, EF, R2 in D1. injection D1 as <- <- <-.
  destruct (sums _ _ _ _ _ _ C3) as (U1 & U2 & U3). destruct (sums _ _ _ _ _ _ D3) as (V1 & V2 & V3).
  assert (TL : length (map (fun l : lmp RNum => atom_tag l) (d_ranks t)) = length (d_acc t)) by (rewrite map_length; eapply Forall2_len; exact S6).
  assert (TL' : length (map (fun l : lmp RNum => atom_tag l) (d_ranks t')) = length (d_acc t')) by (rewrite map_length; eapply Forall2_len; exact T6).
  constructor.
  - rewrite U1, V1, R4. reflexivity.
  - intros r l q r' l' q' i i' N1 N2 N3 N4 Hi Hi' Tg.
    assert (TI : In (tag l i) (local_tags (d_L t))).
    { apply (Permutation_in _ (sp_part _ _ _ _ _ _ S4)). apply in_flat_map. exists l. split; [eapply nth_error_In; exact N1|].
      destruct (sp_rank _ _ _ _ _ _ S4 l (nth_error_In _ _ N1)) as [_ Lt]. unfold local_tags, tag.
      assert (E : nth i (atom_tag l) 0%nat = nth i (firstn (nlocal l) (atom_tag l)) 0%nat).
      { rewrite <- (firstn_skipn (nlocal l) (atom_tag l)) at 1. apply app_nth1. rewrite firstn_length, Lt. lia. }
      rewrite E. apply nth_In. rewrite firstn_length, Lt. lia. }
    apply (In_nth _ _ 0%nat) in TI. destruct TI as (j & Hj & Ej). unfold local_tags in Hj, Ej. rewrite firstn_length in Hj.
    assert (Hj' : (j < nlocal (d_L t))%nat) by lia.
    assert (Ej' : tag (d_L t) j = tag l i).
    { rewrite <- Ej. unfold tag. rewrite <- (firstn_skipn (nlocal (d_L t)) (atom_tag (d_L t))) at 1. apply app_nth1. rewrite firstn_length. lia. }
    rewrite (se_node _ _ _ _ _ _ (C2 r l q N1 N2) i j Hi Hj' (eq_sym Ej')).
    assert (X : (j < nlocal (d_L t'))%nat) by (rewrite EL; exact Hj').
    rewrite (se_node _ _ _ _ _ _ (D2 r' l' q' N3 N4) i' j Hi' X) by (rewrite EL; unfold tag in *; cbn [carried at_x atom_tag]; congruence).
    rewrite EL, R3. reflexivity.
  - intros i c Hi Hc. assert (X : (i < nlocal (d_L t'))%nat) by (rewrite EL; exact Hi).
    pose proof (V3 TL' i c X Hc) as V4. rewrite EL in V4. change (tag (carried g d (d_L t)) i) with (tag (d_L t) i) in V4. rewrite V4. rewrite (R6 i c) by (auto; lia).
    rewrite !sum3. rewrite !(U3 TL i) by (auto; lia). reflexivity.
  - intros r c Hr Hc. transitivity (lammps_tensor (fun k => nth k (virial a2) 0 - nth k (virial (L0acc t)) 0) r c).
    { unfold lammps_tensor. destruct (r =? c)%nat eqn:Q; apply V2; [lia|]. apply Nat.eqb_neq in Q. lia. }
    rewrite (R7 r c Hr Hc). apply rt_ext. intros i j Hi Hj. unfold lammps_tensor. destruct (i =? j)%nat eqn:Q; symmetry; apply U2; [lia|]. apply Nat.eqb_neq in Q. lia.
Qed.

Lemma lemma_C78_mpi (rc : R) types P ts t pbs P' ts' t' pbs' : List.Forall (mpi_step_ok f rc types P) ts -> mpi_step_ok f rc types P t -> length pbs = P ->
  List.Forall (mpi_step_ok f rc types P') ts' -> mpi_step_ok f rc types P' t' -> length pbs' = P' -> d_L t' = carried g d (d_L t) -> d_fl t' = d_fl t ->
  smooth_at f (nd_input (N:=RNum) types rc (d_owner t) (d_L t)) (i_xyz (nd_input (N:=RNum) types rc (d_owner t) (d_L t))) ->
  exists m b0 st qs st' qs', load_from_json srt f = Some (m, b0) /\
    mpi_steps sph m rc types ts (map (fun pb => (b0, pb)) pbs) = Some st /\ mpi_run (N:=RNum) sph m rc types (d_fl t) (d_msgs t) (procs t st) = Some qs /\
    mpi_steps sph m rc types ts' (map (fun pb => (b0, pb)) pbs') = Some st' /\ mpi_run (N:=RNum) sph m rc types (d_fl t') (d_msgs t') (procs t' st') = Some qs' /\
    carried_results g (d_L t) (d_ranks t) (d_ranks t') (d_acc t) (d_acc t') qs qs'.
Proof.
  intros Hts Ht Lp Hts' Ht' Lp' EL EF SA. destruct (load_ok srt Hsrt f F) as (b0 & E0 & L0).
  assert (B : forall (pbs : list (pair_bufs RNum)) q, In q (map (fun pb => (b0, pb)) pbs) -> bufs_live (ldm f) (ldp0 srt f) (ldp1 srt f) (ldlive f) (fst q)).
  { intros pbs0 q Hq. apply in_map_iff in Hq. destruct Hq as (pb & <- & _). exact L0. }
  destruct (mpi_many sph Hsph srt f F types rc P ts Hts (map (fun pb => (b0, pb)) pbs)) as (st & Es & Ls & Hs); [rewrite map_length; exact Lp|apply B|].
  destruct (mpi_many sph Hsph srt f F types rc P' ts' Hts' (map (fun pb => (b0, pb)) pbs')) as (st' & Es' & Ls' & Hs'); [rewrite map_length; exact Lp'|apply B|].
  destruct (mpi_one sph Hsph srt f F types rc P t st Ht Ls Hs) as (qs & Q1 & Q2 & Q3 & Q4). destruct (mpi_one sph Hsph srt f F types rc P' t' st' Ht' Ls' Hs') as (qs' & Q1' & Q2' & Q3' & Q4').
  exists (ldm f), b0, st, qs, st', qs'. do 5 (split; [assumption|]).
  exact (carried_pair rc types P needed_mpi t P' needed_mpi t' qs qs' (mo_step _ _ _ _ _ Ht) (mo_step _ _ _ _ _ Ht') EL EF SA Q4 Q4').
Qed.
Lemma lemma_C78_no_mpi (rc : R) types P ts t pbs P' ts' t' pbs' : List.Forall (step_ok f rc types (needed_no_mpi (N:=RNum) rc) P) ts -> step_ok f rc types (needed_no_mpi (N:=RNum) rc) P t -> length pbs = P ->
  List.Forall (step_ok f rc types (needed_no_mpi (N:=RNum) rc) P') ts' -> step_ok f rc types (needed_no_mpi (N:=RNum) rc) P' t' -> length pbs' = P' -> d_L t' = carried g d (d_L t) -> d_fl t' = d_fl t ->
  smooth_at f (nd_input (N:=RNum) types rc (d_owner t) (d_L t)) (i_xyz (nd_input (N:=RNum) types rc (d_owner t) (d_L t))) ->
  exists m b0 st qs st' qs', load_from_json srt f = Some (m, b0) /\
    no_mpi_steps sph m rc types ts (map (fun pb => (b0, pb)) pbs) = Some st /\ no_mpi_run sph m rc types (d_fl t) (procs t st) = Some qs /\
    no_mpi_steps sph m rc types ts' (map (fun pb => (b0, pb)) pbs') = Some st' /\ no_mpi_run sph m rc types (d_fl t') (procs t' st') = Some qs' /\
    carried_results g (d_L t) (d_ranks t) (d_ranks t') (d_acc t) (d_acc t') qs qs'.
Proof.
  intros Hts Ht Lp Hts' Ht' Lp' EL EF SA. destruct (load_ok srt Hsrt f F) as (b0 & E0 & L0).
  assert (B : forall (pbs : list (pair_bufs RNum)) q, In q (map (fun pb => (b0, pb)) pbs) -> bufs_live (ldm f) (ldp0 srt f) (ldp1 srt f) (ldlive f) (fst q)).
  { intros pbs0 q Hq. apply in_map_iff in Hq. destruct Hq as (pb & <- & _). exact L0. }
  destruct (no_many sph Hsph srt f F types rc P ts Hts (map (fun pb => (b0, pb)) pbs)) as (st & Es & Ls & Hs); [rewrite map_length; exact Lp|apply B|].
  destruct (no_many sph Hsph srt f F types rc P' ts' Hts' (map (fun pb => (b0, pb)) pbs')) as (st' & Es' & Ls' & Hs'); [rewrite map_length; exact Lp'|apply B|].
  destruct (no_one sph Hsph srt f F types rc P t st Ht Ls Hs) as (qs & Q1 & Q2 & Q3 & Q4). destruct (no_one sph Hsph srt f F types rc P' t' st' Ht' Ls' Hs') as (qs' & Q1' & Q2' & Q3' & Q4').
  exists (ldm f), b0, st, qs, st', qs'. do 5 (split; [assumption|]).
  exact (carried_pair rc types P (needed_no_mpi (N:=RNum) rc) t P' (needed_no_mpi (N:=RNum) rc) t' qs qs' Ht Ht' EL EF SA Q4 Q4').
Qed.
End Serial.

(** the atoms of every process carried along *)
Section Carried.
Variable g : nat -> nat -> R.
Variable d : nat -> R.
Hypothesis O : orthogonal g.
Lemma carried_step f (rc : R) types needed P t : (forall l x, (forall i, In i (needed l) -> kept (N:=RNum) rc (at_x l x) i = kept (N:=RNum) rc l i) -> needed (at_x l x) = needed l) ->
  step_ok f rc types needed P t -> input_ok f (nd_input (N:=RNum) types rc (d_owner t) (carried g d (d_L t))) -> step_ok f rc types needed P (moved (carried g d) t).
Proof.
  intros Hneed S K3. pose proof S as [S1 S2 S3 S4 S5 S6 S7]. pose proof S4 as [P1 P2 P3 P4 P5].
  set (L := d_L t) in *. set (owner := d_owner t) in *.
  assert (K1 : forall i, In i (ilist L) -> kept (N:=RNum) rc (carried g d L) i = kept (N:=RNum) rc L i) by (intros i Hi; exact (kept_rigid g d O _ _ L rc i S2 Hi)).
  assert (K2 : forall l, In l (d_ranks t) -> forall i, In i (needed l) -> kept (N:=RNum) rc (carried g d l) i = kept (N:=RNum) rc l i).
  { intros l Hl i Hi. exact (kept_rigid g d O _ _ l rc i (proj1 (P1 l Hl)) Hi). }
  assert (NE : forall l, In l (d_ranks t) -> needed (carried g d l) = needed l) by (intros l Hl; apply Hneed, K2, Hl).
  assert (EN : forall nt A l i, lmp_ok nt A l -> In i A -> env (N:=RNum) rc (carried g d l) i = map (fun z => match z with (tj, ty, (a, b, c)) =>
     (tj, ty, (g 0%nat 0%nat * a + g 0%nat 1%nat * b + g 0%nat 2%nat * c, g 1%nat 0%nat * a + g 1%nat 1%nat * b + g 1%nat 2%nat * c, g 2%nat 0%nat * a + g 2%nat 1%nat * b + g 2%nat 2%nat * c)) end) (env (N:=RNum) rc l i)).
  { intros nt A l i Lk Hi. unfold env. rewrite (kept_rigid g d O _ _ l rc i Lk Hi), map_map. apply map_ext_in. intros j Hj. pose proof (kept_lt rc _ _ _ _ _ Lk Hi Hj) as Hj'.
    destruct (lo_A _ _ _ Lk i Hi) as (Hi' & _). pose proof (lo_x _ _ _ Lk) as Lx. unfold carried. cbn [at_x atom_x atom_type atom_tag]. change (carrier RNum) with R in *.
    rewrite !(sep_rigid g d (atom_x l) (nlocal l + nghost l)) by (auto; lia). reflexivity. }
  constructor; cbn [moved d_ranks d_own d_msgs d_fl d_acc d_L d_owner]; fold L; fold owner.
  - rewrite map_length. exact S1.
  - apply lmp_ok_at; [exact S2|apply length_rigid].
  - apply owner_ok_at. exact S3.
  - constructor.
    + intros l' Hl'. apply in_map_iff in Hl'. destruct Hl' as (l & <- & Hl). destruct (P1 l Hl) as [A1 A2]. split; [|exact A2].
      rewrite (NE l Hl). apply lmp_ok_at; [exact A1|apply length_rigid].
    + rewrite flat_map_concat_map, map_map. cbv beta. etransitivity; [|exact P2]. rewrite flat_map_concat_map. apply Permutation_refl.
    + exact P3.
    + intros l' j Hl'. apply in_map_iff in Hl'. destruct Hl' as (l & <- & Hl). exact (P4 l j Hl).
    + intros l' i a Hl'. apply in_map_iff in Hl'. destruct Hl' as (l & <- & Hl). rewrite (NE l Hl). intros Hi Ha T.
      change (tag l i = tag L a) in T. change (a < nlocal L)%nat in Ha. destruct (P5 l i a Hl Hi Ha T) as [Q1 Q2]. split; [exact Q1|].
      assert (Ha' : In a (ilist L)) by (apply (il_in L types S2); exact Ha).
      rewrite (EN _ _ l i (proj1 (P1 l Hl)) Hi), (EN _ _ L a S2 Ha'). apply Permutation_map. exact Q2.
  - exact K3.
  - clear -S6. induction S6 as [|l a ls as_ H1 H2 IH]; cbn [map]; constructor; auto. destruct H1 as [A1 A2 A3]. constructor; assumption.
  - exact S7.
Qed.
Lemma carried_input f (l : lmp RNum) (rc : R) types owner : lmp_ok (length types) (ilist l) l -> smooth_at f (nd_input (N:=RNum) types rc owner l) (i_xyz (nd_input (N:=RNum) types rc owner l)) ->
  input_ok f (nd_input (N:=RNum) types rc owner (carried g d l)).
Proof.
  intros L SA. unfold carried. rewrite (nd_input_at l rc types owner (rigid g d (atom_x l))) by (intros i Hi; exact (kept_rigid g d O _ _ l rc i L Hi)).
  rewrite (pvec_rigid g d _ _ (nlocal l + nghost l)); [|exact (lo_x _ _ _ L)|].
  - rewrite (xyz_x0 l rc types owner) in SA. exact (sa_ok _ _ _ (smooth_rot g O f _ _ SA)).
  - intros q Hq. destruct (K0_nth l rc types L q Hq) as [Q1 Q2]. split; [eapply Nat.lt_le_trans; [exact Q1|apply Nat.le_add_r]|exact Q2].
Qed.
End Carried.

(** a translation changes nothing at all *)
Definition shifted (d : nat -> R) (xs : list R) : list R := map (fun k => nth k xs 0 + d (k mod 3)%nat) (seq 0 (length xs)).
Lemma nth_shifted d xs q c : (c < 3)%nat -> (3 * q + c < length xs)%nat -> nth (3 * q + c) (shifted d xs) 0 = nth (3 * q + c) xs 0 + d c.
Proof.
  intros Hc Hq. unfold shifted. etransitivity; [apply (nth_tab (length xs)); exact Hq|]. cbv beta.
  replace ((3 * q + c) mod 3)%nat with c by (rewrite Nat.add_comm, Nat.mul_comm, Nat.mod_add, Nat.mod_small by lia; lia). reflexivity.
Qed.
Lemma sep_shifted d xs n i j c : length xs = (3 * n)%nat -> (i < n)%nat -> (j < n)%nat -> (c < 3)%nat -> @eq R (sep (N:=RNum) (shifted d xs) i j c) (sep (N:=RNum) xs i j c).
Proof. intros Lx Hi Hj Hc. rewrite !sep_R. rewrite !nth_shifted by lia. ring. Qed.
Lemma kept_shifted d nt A (l : lmp RNum) (rc : R) i : lmp_ok nt A l -> In i A -> kept (N:=RNum) rc (at_x l (shifted d (atom_x l))) i = kept (N:=RNum) rc l i.
Proof.
  intros L Hi. unfold kept. change (listed (at_x l (shifted d (atom_x l))) i) with (listed l i). cbn [at_x atom_x].
  destruct (lo_A _ _ _ L i Hi) as (Hi1 & _ & _ & _ & A1). apply filter_ext_in. intros j Hj. pose proof (A1 j Hj) as Hj1. pose proof (lo_x _ _ _ L) as Lx.
  change (carrier RNum) with R in *. replace (sep2 (N:=RNum) (shifted d (atom_x l)) i j) with (sep2 (N:=RNum) (atom_x l) i j); [reflexivity|].
  rewrite !sep2_R. rewrite !(sep_shifted d (atom_x l) (nlocal l + nghost l)) by (auto; lia). reflexivity.
Qed.
Lemma lemma_C79 (d : nat -> R) sph (m : mace_model RNum) (rc : R) types fl (l : lmp RNum) owner b p a : lmp_ok (length types) (ilist l) l -> owner_ok owner l ->
  compute_no_domain_decomposition sph m rc types fl (at_x l (map (fun k => nth k (atom_x l) 0 + d (k mod 3)%nat) (seq 0 (length (atom_x l))))) b p a =
  compute_no_domain_decomposition sph m rc types fl l b p a.
Proof.
  intros L Ow. enough (Q : compute_no_domain_decomposition sph m rc types fl (at_x l (shifted d (atom_x l))) b p a = compute_no_domain_decomposition sph m rc types fl l b p a) by exact Q.
  set (x := shifted d (atom_x l)). assert (Lx : length x = length (atom_x l)) by (unfold x, shifted; rewrite map_length, seq_length; reflexivity).
  rewrite (nd_ok (at_x l x) rc types (lmp_ok_at _ _ _ _ L Lx) owner (owner_ok_at _ _ _ Ow) sph m fl b p a), (nd_ok l rc types L owner Ow sph m fl b p a).
  assert (HK : forall i, In i (ilist l) -> kept (N:=RNum) rc (at_x l x) i = kept (N:=RNum) rc l i) by (intros i Hi; exact (kept_shifted d _ _ l rc i L Hi)).
  assert (EX : nd_input (N:=RNum) types rc owner (at_x l x) = nd_input (N:=RNum) types rc owner l).
  { assert (EL : at_x l (atom_x l) = l) by (destruct l; reflexivity).
    rewrite (nd_input_at l rc types owner x HK). rewrite <- EL at 4. rewrite (nd_input_at l rc types owner (atom_x l)) by (intros i _; exact (kept_self l rc types L owner Ow i)).
    f_equal. unfold pvec. rewrite !flat_map_concat_map. f_equal. apply map_ext_in. intros [i j] Hp. cbn [fst snd].
    apply (In_nth _ _ (0, 0)%nat) in Hp. destruct Hp as (q & Hq & E). destruct (K0_nth l rc types L q Hq) as [Q1 Q2]. rewrite E in Q1, Q2. cbn [fst snd] in Q1, Q2.
    unfold x. rewrite !(sep_shifted d (atom_x l) (nlocal l + nghost l)); auto; try exact (lo_x _ _ _ L); lia. }
  rewrite EX. change (ilist (at_x l x)) with (ilist l).
  rewrite (flat_map_ext_in (fun i => map owner (kept (N:=RNum) rc (at_x l x) i)) (fun i => map owner (kept (N:=RNum) rc l i)) (ilist l)) by (intros i Hi; rewrite (HK i Hi); reflexivity).
  reflexivity.
Qed.
