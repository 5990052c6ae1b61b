(** A model file with one channel and no angular dependence, for which two bound atoms in the order 1, 0 get the wrong energy from
    the Kokkos pair style.  Used in the proof of C59_refuted. *)
From Coq Require Import String List Arith ZArith Reals Lia Lra Permutation.
From Verif Require Import Base BaseLemmas Instances RSums MaceModel MaceSpec MaceSpec2 MaceExamples Sys MacePure MaceStages4 MaceStages6 MacePipe MaceLoad MaceFlat MaceThms SplineR GradExamples MaceGradSpec AseSpec.
From Verif Require Import PairModel PairKokkosModel PairSpec PairThms PairTally PairCoeff PairGrad PairExamples KkSem KkModel KkSpec KkLoad1 KkLoad2 KkLoad3 KkLoad4 KkThms KkPairModel KkPairThms.
Import ListNotations.
Local Open Scope nat_scope.

Section Data.
Context {N : Num}.
Notation one := (none : N). Notation o := (nzero : N).
Definition ko_row : list N := [one; one; o; o].
Definition ko_zero : list N := [o; o; o; o].
(** the first layer sees neighbours of species 0 only; the product basis of the second layer vanishes for species 1 *)
Definition ko_file : mace_file N :=
  mkFile 1 0 0 [1; 2] [o; o]
    false o o [] [] 6
    one
    [[ko_row]; [ko_row]; [ko_row]] [[ko_zero]; [ko_zero]; [ko_zero]]
    [[ko_row]; [ko_row]; [ko_row]] [[ko_zero]; [ko_zero]; [ko_zero]]
    [one; o]
    [[[one]]; [[one]]]
    false o [] []
    (fun a lm k => [one]) (fun lm => [[0]])
    [one]
    [0] [0] [0]
    [0] [one] [0]
    [[one]]
    false o [] []
    (fun a k => [if a =? 0 then one else o]) [[0]]
    [[o]; [o]] [one]
    [o] (one :: repeat o 15) (one :: repeat o 15) one.

Definition ko_in (i0 i1 : nat) (D r : list N) : input N := mkInput 2 [1; 0] [1; 1] [i0; i1] [0; 1] D r.
End Data.

Lemma ko_file_ok {N : Num} : file_ok (ko_file (N:=N)).
Proof.
  constructor; cbn [ko_file f_num_channels f_l_max f_L_max f_atomic_numbers f_atomic_energies f_has_zbl f_zbl_c f_zbl_covalent_radii
    f_radial_spline_values_0 f_radial_spline_derivs_0 f_radial_spline_values_1 f_radial_spline_derivs_1 f_H0_weights f_A0_weights
    f_A0_scaled f_A0_spline_values f_A0_spline_derivs f_M0_weights f_M0_monomials f_H1_weights f_Phi1_l f_Phi1_l1 f_Phi1_l2 f_Phi1_lme
    f_Phi1_clebsch_gordan f_Phi1_lelm1lm2 f_A1_weights f_A1_scaled f_A1_spline_values f_A1_spline_derivs f_M1_weights f_M1_monomials
    f_H2_weights_for_H1 f_H2_weights_for_M1 f_readout_1_weights f_readout_2_weights_1 f_readout_2_weights_2];
    try (vm_compute; lia); try (vm_compute; reflexivity); try discriminate.
  - split; [vm_compute; lia|]. split; [reflexivity|]. intros q Hq. exists 4.
    assert (q < 3) as Hq' by exact Hq.
    destruct q as [|[|[|q]]]; [| | |lia]; (split; [lia|]); (split; [reflexivity|]); (split; [reflexivity|]);
      (split; intros row H; repeat (destruct H as [<-|H]; [reflexivity|]); destruct H).
  - split; [vm_compute; lia|]. split; [reflexivity|]. intros q Hq. exists 4.
    assert (q < 3) as Hq' by exact Hq.
    destruct q as [|[|[|q]]]; [| | |lia]; (split; [lia|]); (split; [reflexivity|]); (split; [reflexivity|]);
      (split; intros row H; repeat (destruct H as [<-|H]; [reflexivity|]); destruct H).
  - split; [vm_compute; lia|]. intros t Ht. cbn [length] in Ht. destruct t as [|[|t]]; [| |lia];
      (split; [vm_compute; lia|]); intros l Hl; destruct l as [|l]; [|lia| |lia]; vm_compute; lia.
  - intros a lm k Ha Hlm Hk. split; [|reflexivity]. repeat constructor; intro; discriminate.
  - intros q Hq. cbn [length] in Hq. destruct q as [|q]; vm_compute; lia.
  - intros q Hq. cbn [length] in Hq. destruct q as [|q]; vm_compute; lia.
  - intros p Hp. assert (p < 1) as Hp' by exact Hp. destruct p as [|p]; [|lia]; vm_compute; lia.
  - intros p Hp. assert (p < 1) as Hp' by exact Hp. destruct p as [|p]; [|lia]; vm_compute; lia.
  - split; [vm_compute; lia|]. intros l Hl. destruct l as [|l]; [vm_compute; lia|lia].
  - intros a k Ha Hk. split; [|reflexivity]. repeat constructor; intro; discriminate.
  - split; [vm_compute; lia|]. intros t Ht. cbn [length] in Ht. destruct t as [|[|t]]; [| |lia]; vm_compute; lia.
Qed.
Lemma ko_kk_file_ok {N : Num} : kk_file_ok (ko_file (N:=N)).
Proof.
  constructor; cbn [ko_file f_num_channels f_l_max f_L_max f_atomic_numbers f_radial_spline_values_0 f_radial_spline_values_1
    f_A0_scaled f_A0_spline_values f_M0_monomials f_A1_scaled f_A1_spline_values f_M1_monomials]; try reflexivity; try discriminate.
  - intros v row Hv Hr. repeat (destruct Hv as [<-|Hv]; [repeat (destruct Hr as [<-|Hr]; [reflexivity|]); destruct Hr|]). destruct Hv.
  - intros v row Hv Hr. repeat (destruct Hv as [<-|Hv]; [repeat (destruct Hr as [<-|Hr]; [reflexivity|]); destruct Hr|]). destruct Hv.
  - intros lm _ mo H. repeat (destruct H as [<-|H]; [cbn; lia|]). destruct H.
  - intros mo H. repeat (destruct H as [<-|H]; [cbn; lia|]). destruct H.
Qed.

Local Open Scope R_scope.
Definition ko_D : list R := [-1; 0; 0; 1; 0; 0].
Definition ko_r : list R := [1; 1].
Notation right_ := (ko_in (N:=RNum) 1 0 ko_D ko_r).
Notation wrong_ := (ko_in (N:=RNum) 0 1 ko_D ko_r).
Lemma ko_ok i0 i1 : (i0 < 2)%nat -> (i1 < 2)%nat -> input_ok ko_file (ko_in (N:=RNum) i0 i1 ko_D ko_r).
Proof.
  intros H0 H1. constructor; try reflexivity.
  - intros t H. cbn in H. cbn. lia.
  - intros t H. cbn in H. cbn. lia.
  - intros t H. cbn in H. cbn. lia.
  - intros r H. assert (r = 1) as -> by (cbn in H; intuition congruence).
    assert (T : forall n, (3 <= n)%nat -> in_cells (N:=RNum) 1 n 1).
    { intros n Hn. unfold in_cells. cbn [ntrunc ndiv RNum].
      assert (T : Rtrunc (1 / 1) = Z.of_nat 1) by (apply trunc_cell; [lra|cbn [INR Nat.add]; lra]). rewrite T. lia. }
    split; [|split; [|split]]; cbn [ko_file f_radial_spline_values_0 f_radial_spline_values_1 f_A0_scaled f_A1_scaled f_radial_spline_h]; try discriminate.
    + intros v row Hv Hr. rewrite RNum_one. apply T.
      repeat (destruct Hv as [<-|Hv]; [repeat (destruct Hr as [<-|Hr]; [cbn; lia|]); destruct Hr|]). destruct Hv.
    + intros v row Hv Hr. rewrite RNum_one. apply T.
      repeat (destruct Hv as [<-|Hv]; [repeat (destruct Hr as [<-|Hr]; [cbn; lia|]); destruct Hr|]). destruct Hv.
Qed.

Notation E_ := (resE (N:=RNum) ex_sph (fun l => l) ko_file).

Lemma ko_trunc : Rtrunc (1 / 1) = 1%Z.
Proof. apply (trunc_cell 1 1 1); [lra|cbn [INR Nat.add]; lra]. Qed.

Lemma setv_knot (S : @SplineModel.spline_set RNum) : SplineModel.css_h S = none -> SplineModel.css_num S = 1%nat ->
  nth 4 (SplineModel.css_c S) nzero = none -> setv S (1 : R) 0 = 1.
Proof.
  intros Hh Hn Hc. rewrite RNum_one in Hh. unfold setv, coef, locx, at_, MacePure.cell. rewrite Hh, Hn.
  change (ntrunc (n := RNum) (ndiv (n := RNum) (1:R) (1:R))) with (Rtrunc (1 / 1)). rewrite ko_trunc. change (Z.to_nat 1) with 1%nat. cbn [Nat.mul Nat.add]. rewrite Hc, RNum_one, RNum_ofnat.
  cbn [nadd nmul nsub RNum INR]. change (@eq (carrier RNum)) with (@eq R). ring.
Qed.
Lemma ko_R0 M (S : sys RNum) i e p : p = 0%nat -> e_r e = (1 : R) -> SplineModel.css_h (set0 M (ty S i) (e_type e)) = none -> SplineModel.css_num (set0 M (ty S i) (e_type e)) = 1%nat ->
  nth 4 (SplineModel.css_c (set0 M (ty S i) (e_type e))) nzero = none -> R0v M S i e p = 1.
Proof. intros -> E H1 H2 H3. unfold R0v. destruct e as [et ei ex ey ez er]. cbn [e_r e_type] in *. subst er. apply setv_knot; assumption. Qed.
Lemma ko_R1 M (S : sys RNum) i e p : p = 0%nat -> e_r e = (1 : R) -> SplineModel.css_h (set1 M (ty S i) (e_type e)) = none -> SplineModel.css_num (set1 M (ty S i) (e_type e)) = 1%nat ->
  nth 4 (SplineModel.css_c (set1 M (ty S i) (e_type e))) nzero = none -> R1v M S i e p = 1.
Proof. intros -> E H1 H2 H3. unfold R1v. destruct e as [et ei ex ey ez er]. cbn [e_r e_type] in *. subst er. apply setv_knot; assumption. Qed.
Lemma ko_Y M i (e : edge RNum) p : p = 0%nat -> m_l_max M = 0%nat -> Yv ex_sph M i e p = ynorm (N:=RNum).
Proof. intros -> E. unfold Yv. rewrite E. unfold ex_sph, at_. cbn [fst Nat.add Nat.mul firstn app nth]. rewrite RNum_one. apply Rmult_1_l. Qed.
Lemma ko_ynorm : 0 < ynorm (N:=RNum).
Proof. unfold ynorm. rewrite (RNum_ofZ 2). cbn [nmul nsqrt npi RNum]. pose proof (sqrt_lt_R0 PI PI_RGT_0). lra. Qed.
Ltac ko_gen t P := let H := fresh "V" in pose proof P as H; revert H; generalize t; let c := fresh "c" in intros c H; change (@eq (carrier RNum)) with (@eq R) in H.
Ltac ko_open := unfold resE; cbv -[RNum R0v R1v Yv nadd nmul nsub ndiv nopp nexp none nzero nlit nofZ ex_sph];
  repeat match goal with |- context [@R0v _ ?M ?S ?i ?e ?p] => ko_gen (@R0v RNum M S i e p) (ko_R0 M S i e p eq_refl eq_refl eq_refl eq_refl eq_refl) end;
  repeat match goal with |- context [@R1v _ ?M ?S ?i ?e ?p] => ko_gen (@R1v RNum M S i e p) (ko_R1 M S i e p eq_refl eq_refl eq_refl eq_refl eq_refl) end;
  repeat match goal with |- context [@Yv _ ex_sph ?M ?i ?e ?p] => ko_gen (@Yv RNum ex_sph M i e p) (ko_Y M i e p eq_refl eq_refl) end;
  cbn [nadd nmul nsub ndiv nopp nexp RNum]; rewrite ?RNum_zero, ?RNum_one;
  repeat (rewrite ?Rmult_0_l, ?Rmult_0_r, ?Rplus_0_l, ?Rplus_0_r, ?Rmult_1_l, ?Rmult_1_r).
Lemma ko_right1 : 0 < E_ (sys_of right_) 1.
Proof.
  ko_open. subst. pose proof ko_ynorm as Y. change (carrier RNum) with R in *. set (y := ynorm (N:=RNum)) in *.
  assert (P : 0 < 1 * y * (1 * y)) by (rewrite !Rmult_1_l; apply Rmult_lt_0_compat; exact Y).
  apply Rmult_lt_0_compat; [exact P|]. apply Rdiv_lt_0_compat; [lra|]. pose proof (exp_pos (- (1 * y * (1 * y)))). lra.
Qed.
Lemma ko_right0 : E_ (sys_of right_) 0 = 0.
Proof. ko_open. reflexivity. Qed.
Lemma ko_wrong0 : E_ (sys_of wrong_) 0 = 0.
Proof. ko_open. reflexivity. Qed.
Lemma ko_wrong1 : E_ (sys_of wrong_) 1 = 0.
Proof. ko_open. reflexivity. Qed.

(** two atoms at distance 1, listed in the order 1, 0 *)
Definition ko_x : list R := [0; 0; 0; 1; 0; 0].
Definition ko_lmp : lmp RNum := mkLmp (N:=RNum) 2 0 2 [1; 0]%nat [1; 1]%nat [[1]; [0]]%Z ko_x [1; 2]%nat [11; 12]%nat
  (fun t => match t with 11 => Some 0 | 12 => Some 1 | _ => None end)%nat.
Definition ko_types : list nat := [0; 1]%nat.
Definition ko_rc : R := 3/2.
Definition ko_own (j : nat) : nat := j.
Definition ko_acc : accum RNum := mkAcc (N:=RNum) 7 (repeat 1 2) (repeat 2 6) (repeat 3 6).
Definition ko_arg : list string := ["*"; "*"; "model.json"; "H"; "He"]%string.
Lemma ko_coeff : coeff_types (f_atomic_numbers (ko_file (N:=RNum))) ko_arg = Some ko_types.
Proof. vm_compute. reflexivity. Qed.
Lemma ko_nodup : NoDup (f_atomic_numbers (ko_file (N:=RNum))).
Proof. cbn. repeat constructor; cbn; lia. Qed.
Lemma ko_lok : lmp_ok (length ko_types) (ilist ko_lmp) ko_lmp.
Proof.
  constructor; cbn [ko_lmp atom_x atom_type nlocal nghost inum ilist numneigh firstneigh].
  - reflexivity.
  - reflexivity.
  - intros t H. cbn in *. lia.
  - split; [reflexivity|]. apply perm_swap.
  - intros i Hi. assert (D : i = 0%nat \/ i = 1%nat) by (cbn in Hi; lia).
    destruct D as [->| ->]; cbn -[listed]; repeat split; try lia; intros j Hj; vm_compute in Hj; lia.
Qed.
Lemma ko_owner : owner_ok ko_own ko_lmp.
Proof.
  constructor; cbn [ko_lmp atom_tag atom_map nlocal nghost].
  - reflexivity.
  - intros j Hj. do 2 (destruct j as [|j]; [reflexivity|]). lia.
  - intros j Hj. unfold ko_own. lia.
  - intros j Hj. reflexivity.
Qed.
Lemma ko_acc_ok : acc_ok ko_lmp ko_acc.
Proof. constructor; reflexivity. Qed.
Ltac ko_sep := rewrite sep2_R, !sep_R; cbn [ko_lmp atom_x]; unfold ko_x; cbn [Nat.mul Nat.add nth].
Lemma ko_s01 : @eq R (sep2 (N:=RNum) (atom_x ko_lmp) 0 1) 1. Proof. ko_sep. ring. Qed.
Lemma ko_s10 : @eq R (sep2 (N:=RNum) (atom_x ko_lmp) 1 0) 1. Proof. ko_sep. ring. Qed.
Lemma ko_kept : kept (N:=RNum) ko_rc ko_lmp 0 = [1]%nat /\ kept (N:=RNum) ko_rc ko_lmp 1 = [0]%nat.
Proof.
  assert (L0 : listed ko_lmp 0 = [1]%nat) by (vm_compute; reflexivity). assert (L1 : listed ko_lmp 1 = [0]%nat) by (vm_compute; reflexivity).
  unfold kept. rewrite L0, L1. cbn [filter]. rewrite ko_s01, ko_s10. cbn [nltb RNum nmul]. unfold ko_rc.
  destruct (Rlt_dec 1 (3/2 * (3/2))) as [|H]; [split; reflexivity|exfalso; lra].
Qed.
Lemma ko_nd : nd_input (N:=RNum) ko_types ko_rc ko_own ko_lmp = right_.
Proof.
  destruct ko_kept as [K0 K1]. unfold nd_input. cbn [ko_lmp ilist map flat_map length]. fold ko_lmp. rewrite K0, K1.
  cbn [map flat_map app length]. unfold ko_in. f_equal.
  - unfold ko_D. repeat (apply (f_equal2 (@cons R)); [rewrite sep_R; cbn [ko_lmp atom_x]; unfold ko_x; cbn [Nat.mul Nat.add nth]; lra|]). reflexivity.
  - rewrite ko_s01, ko_s10. cbn [nsqrt RNum]. rewrite sqrt_1. reflexivity.
Qed.
Lemma ko_kk : kk_input ko_types ko_rc ko_own ko_lmp = wrong_.
Proof.
  unfold kk_input. rewrite ko_nd. destruct ko_kept as [K0 K1]. cbn [ko_lmp ilist flat_map]. fold ko_lmp. rewrite K0, K1. reflexivity.
Qed.

Lemma lemma_C59_refuted junk p : exists km mt m b0, kk_load_from_json (fun l => l) ko_file = Some km /\
  coeff_types_kk (f_atomic_numbers (ko_file (N:=RNum))) ko_arg = Some mt /\ load_from_json (fun l => l) ko_file = Some (m, b0) /\
  exists b1 p1 ac, compute_no_domain_decomposition ex_sph m ko_rc ko_types (mkEv true false false false) ko_lmp b0 p ko_acc = Some (b1, p1, ac) /\
  (exists o, kk_no_domain ex_sph junk km ko_rc mt 2 (mkEv true false false false) ko_lmp kp_fresh ko_acc o) /\
  forall o, kk_no_domain ex_sph junk km ko_rc mt 2 (mkEv true false false false) ko_lmp kp_fresh ko_acc o ->
    exists s' ak, o = Some (s', ak) /\ eng_vdwl ak < eng_vdwl ac.
Proof.
  set (srt := fun l : list (list (list nat)) => l). assert (Hs : forall l, Permutation l (srt l)) by (intros; apply Permutation_refl).
  destruct (kk_load_ok srt Hs ko_file ko_file_ok ko_kk_file_ok) as (km & EL & D). destruct (load_ok srt Hs (ko_file (N:=RNum)) ko_file_ok) as (b0 & EC & LV).
  assert (HT : coeff_types_kk (f_atomic_numbers (ko_file (N:=RNum))) ko_arg = Some [0; 1]%Z) by (vm_compute; reflexivity).
  exists km, [0; 1]%Z, (ldm ko_file), b0. split; [exact EL|]. split; [exact HT|]. split; [exact EC|].
  destruct (call_ok ex_sph ex_sph_ok srt ko_file ko_file_ok b0 right_ LV (ko_ok 1 0 ltac:(lia) ltac:(lia))) as (b1 & C1 & _ & E1 & F1).
  destruct (call_ok ex_sph ex_sph_ok srt ko_file ko_file_ok b0 wrong_ LV (ko_ok 0 1 ltac:(lia) ltac:(lia))) as (b2 & C2 & _ & E2 & F2).
  pose proof (nd_ok ko_lmp ko_rc ko_types ko_lok ko_own ko_owner ex_sph (ldm ko_file) (mkEv true false false false) b0 p ko_acc) as EP. cbv zeta in EP.
  rewrite ko_nd in EP. rewrite C1 in EP. cbn [bind] in EP.
  destruct (kk_gen ex_sph ex_sph_ok junk srt Hs ko_file ko_file_ok ko_kk_file_ok km D ko_types [0; 1]%Z ko_rc) with
    (owner := ko_own) (maxe := 2%nat) (fl := mkEv true false false false) (l := ko_lmp) (a := ko_acc) (s := kp_fresh (N:=RNum)) (b := b0) (b1 := b2)
    as (at_ & T1 & T2 & T3).
  { intros k t H. destruct k as [|[|k]]; cbn in H; try (injection H as <-; reflexivity). destruct k; discriminate H. }
  { exact ko_lok. } { exact ko_owner. } { exact ko_acc_ok. } { reflexivity. } { cbn; lia. } { apply sgood_fresh. } { exact LV. }
  { rewrite ko_kk. apply ko_ok; lia. } { rewrite ko_kk. exact C2. }
  rewrite ko_kk in T1. cbn [ko_in i_num_nodes i_num_neigh i_xyz] in EP, T1.
  assert (LF : forall s (F : nat -> edge RNum -> nat -> RNum), s = sys_of right_ \/ s = sys_of wrong_ -> length (eb s 3 F) = 6%nat) by (intros s F0 [->| ->]; reflexivity).
  destruct ko_kept as [K0 K1].
  assert (NJ : flat_map (fun i => map ko_own (kept (N:=RNum) ko_rc ko_lmp i)) (ilist ko_lmp) = [0; 1]%nat).
  { cbn [ko_lmp ilist flat_map]. fold ko_lmp. rewrite K0, K1. reflexivity. }
  rewrite NJ in EP, T1. change (length (ilist ko_lmp)) with 2%nat in T1.
  assert (TO : forall b i0 i1, i_neigh_indices (ko_in (N:=RNum) i0 i1 ko_D ko_r) = [i0; i1] -> (i0 = 1 /\ i1 = 0 \/ i0 = 0 /\ i1 = 1)%nat ->
    b_node_energies b = tab 2 (E_ (sys_of (ko_in (N:=RNum) i0 i1 ko_D ko_r))) -> b_node_forces b = eb (sys_of (ko_in (N:=RNum) i0 i1 ko_D ko_r)) 3 (resF ex_sph srt ko_file (sys_of (ko_in (N:=RNum) i0 i1 ko_D ko_r))) ->
    exists a', tally (N:=RNum) (mkEv true false false false) 2 2 (ilist ko_lmp) [1; 1]%nat [0; 1]%nat ko_D (b_node_energies b) (b_node_forces b) ko_acc = Some a' /\
      eng_vdwl a' = 7 + (E_ (sys_of (ko_in (N:=RNum) i0 i1 ko_D ko_r)) 0%nat + (E_ (sys_of (ko_in (N:=RNum) i0 i1 ko_D ko_r)) 1%nat + 0))).
  { intros b i0 i1 _ Hi EE EF. eexists. rewrite EE, EF. split.
    - apply (tally_ok (mkEv true false false false) 2 2 2); try reflexivity; try discriminate.
      + intros i H. cbn in H. lia.
      + intros i H. cbn in H. lia.
    - cbn [eng_vdwl eflag_global]. reflexivity. }
  destruct (TO b1 1%nat 0%nat eq_refl ltac:(auto) E1 F1) as (a1 & A1 & A2). destruct (TO b2 0%nat 1%nat eq_refl ltac:(auto) E2 F2) as (a2 & A3 & A4).
  rewrite A1 in EP. cbn [bind] in EP. rewrite A3 in T1. injection T1 as <-. eexists b1, _, a1. split; [exact EP|]. split; [exact T2|].
  intros o' Ho. destruct (T3 o' Ho) as (s' & ak & -> & _ & EE & _). exists s', ak. split; [reflexivity|]. rewrite EE, A2, A4.
  rewrite ko_wrong0, ko_wrong1, ko_right0. pose proof ko_right1. lra.
Qed.

Lemma order_refuted : exists f arg types rc owner l a, file_ok f /\ kk_file_ok f /\ NoDup (f_atomic_numbers f) /\
  coeff_types (f_atomic_numbers f) arg = Some types /\ (length types <= length (f_atomic_numbers f))%nat /\
  lmp_ok (length types) (ilist l) l /\ owner_ok owner l /\ acc_ok l a /\ input_ok f (nd_input types rc owner l) /\
  forall junk p, exists km mt m b0, kk_load_from_json (fun l => l) f = Some km /\
  coeff_types_kk (f_atomic_numbers f) arg = Some mt /\ load_from_json (fun l => l) f = Some (m, b0) /\
  exists b1 p1 ac, compute_no_domain_decomposition ex_sph m rc types (mkEv true false false false) l b0 p a = Some (b1, p1, ac) /\
  (exists o, kk_no_domain ex_sph junk km rc mt (nlocal l) (mkEv true false false false) l kp_fresh a o) /\
  forall o, kk_no_domain ex_sph junk km rc mt (nlocal l) (mkEv true false false false) l kp_fresh a o ->
    exists s' ak, o = Some (s', ak) /\ eng_vdwl ak < eng_vdwl ac.
Proof.
  exists ko_file, ko_arg, ko_types, ko_rc, ko_own, ko_lmp, ko_acc. split; [exact ko_file_ok|]. split; [exact ko_kk_file_ok|]. split; [exact ko_nodup|].
  split; [exact ko_coeff|]. split; [cbn; lia|]. split; [exact ko_lok|]. split; [exact ko_owner|]. split; [exact ko_acc_ok|].
  split; [rewrite ko_nd; apply ko_ok; lia|exact lemma_C59_refuted].
Qed.
