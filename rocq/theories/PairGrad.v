(** Real-number lemmas for the pair style without domain decomposition: forces and virial as derivatives of the energy. *)
From Coq Require Import List Arith ZArith Reals Lia Lra Permutation.
From Verif Require Import Base BaseLemmas Instances RSums GradSums MlpR MaceModel MacePure MaceSpec MaceSpec2 MaceFlat MacePipe MaceLoad MaceThms
  MaceGradSpec MaceForces AseSpec AseGrad PairModel PairSpec PairThms PairTally.
Import ListNotations.
Local Open Scope R_scope.

Lemma sep_R (x : list R) i j c : @eq R (sep (N:=RNum) x i j c) (nth (3 * j + c) x 0 - nth (3 * i + c) x 0).
Proof. unfold sep. rewrite RNum_zero. reflexivity. Qed.
Lemma sep2_R (x : list R) i j : @eq R (sep2 (N:=RNum) x i j)
  (sep (N:=RNum) x i j 0 * sep (N:=RNum) x i j 0 + sep (N:=RNum) x i j 1 * sep (N:=RNum) x i j 1 + sep (N:=RNum) x i j 2 * sep (N:=RNum) x i j 2).
Proof. reflexivity. Qed.

Lemma lmp_ok_at nt A (l : lmp RNum) (x : list R) : lmp_ok nt A l -> length x = length (atom_x l) -> lmp_ok nt A (at_x l x).
Proof. intros [L1 L2 L3 L4 L5] H. constructor; cbn; auto. etransitivity; [exact H|exact L1]. Qed.
Lemma owner_ok_at owner (l : lmp RNum) (x : list R) : owner_ok owner l -> owner_ok owner (at_x l x).
Proof. intros [O1 O2 O3 O4]. constructor; cbn; auto. Qed.

(** the pairs keep their side of the cutoff *)
Lemma side_open (g : R -> R) t0 d c : derivable_pt_lim g t0 d -> g t0 <> c ->
  exists eps, 0 < eps /\ forall t, Rabs (t - t0) < eps -> nltb (n:=RNum) (g t) c = nltb (n:=RNum) (g t0) c.
Proof.
  intros D H. assert (C : continuity_pt g t0) by (apply derivable_continuous_pt; exists d; exact D).
  destruct (C (Rabs (g t0 - c))) as (eps & He & HC). { apply Rabs_pos_lt. lra. }
  exists eps. split; [exact He|]. intros t Ht.
  assert (A : Rabs (g t - g t0) < Rabs (g t0 - c)).
  { destruct (Req_dec t t0) as [->|Hn]. - rewrite Rminus_diag_eq by reflexivity. rewrite Rabs_R0. apply Rabs_pos_lt. lra.
    - apply (HC t). split; [|exact Ht]. split; [exact I|]. intro Z. apply Hn. symmetry. exact Z. }
  cbn [nltb RNum]. destruct (Rlt_dec (g t) c), (Rlt_dec (g t0) c); try reflexivity; exfalso; unfold Rabs in A; repeat destruct Rcase_abs in A; lra.
Qed.

(** edge vectors of pairs of atoms *)
Definition pvec (K : list (nat * nat)) (x : list R) : list R := flat_map (fun p => [sep (N:=RNum) x (fst p) (snd p) 0; sep (N:=RNum) x (fst p) (snd p) 1; sep (N:=RNum) x (fst p) (snd p) 2]) K.
Lemma length_pvec K x : length (pvec K x) = (3 * length K)%nat.
Proof. unfold pvec. rewrite length_flat_map_const with (c := 3%nat) by reflexivity. lia. Qed.
Lemma nth_pvec K x q c : (q < length K)%nat -> (c < 3)%nat ->
  nth (3 * q + c) (pvec K x) 0 = nth (3 * snd (nth q K (0%nat, 0%nat)) + c) x 0 - nth (3 * fst (nth q K (0%nat, 0%nat)) + c) x 0.
Proof.
  intros Hq Hc. rewrite <- sep_R. apply nth_error_nth. unfold pvec. replace (3 * q + c)%nat with (q * 3 + c)%nat by lia.
  rewrite nth_error_flat_map_const with (x := nth q K (0%nat, 0%nat)) (c := 3%nat); [|reflexivity| |exact Hc].
  - destruct c as [|[|[|c]]]; [reflexivity..|lia].
  - apply nth_error_nth'. exact Hq.
Qed.
Lemma norm2_pvec K x q : (q < length K)%nat -> @eq R (norm2 (pvec K x) q) (sep2 (N:=RNum) x (fst (nth q K (0%nat, 0%nat))) (snd (nth q K (0%nat, 0%nat)))).
Proof.
  intros H. unfold norm2. rewrite <- (Nat.add_0_r (3 * q)) at 1 2. rewrite !nth_pvec by lia. rewrite sep2_R, !sep_R. reflexivity.
Qed.

(** contraction of the virial with a symmetric strain *)
Lemma vir_strain (v G D : list R) n e : (forall i c : nat, e i c = e c i :> R) ->
  rsum 3 (fun a => rsum 3 (fun c => e a c * rsum n (fun q => nth (3 * q + a) G 0 * nth (3 * q + c) D 0))) =
  (nth 0 (vir v G D n) 0 - nth 0 v 0) * e 0%nat 0%nat + (nth 1 (vir v G D n) 0 - nth 1 v 0) * e 1%nat 1%nat + (nth 2 (vir v G D n) 0 - nth 2 v 0) * e 2%nat 2%nat
  + 2 * ((nth 3 (vir v G D n) 0 - nth 3 v 0) * e 0%nat 1%nat) + 2 * ((nth 4 (vir v G D n) 0 - nth 4 v 0) * e 0%nat 2%nat)
  + 2 * ((nth 5 (vir v G D n) 0 - nth 5 v 0) * e 1%nat 2%nat).
Proof.
  intros Hsym. unfold vir. cbn [nth].
  set (Sg := fun a c => rsum n (fun q => nth (3 * q + a) G 0 * nth (3 * q + c) D 0)).
  transitivity (rsum 3 (fun a => rsum 3 (fun c => e a c * Sg a c))); [reflexivity|].
  assert (V1 : forall c, rsum n (fun q => nth (3 * q + c) D 0 * nth (3 * q + c) G 0) = Sg c c).
  { intros c. apply rsum_ext. intros; ring. }
  assert (V2 : forall c d, rsum n (fun q => / 2 * (nth (3 * q + c) D 0 * nth (3 * q + d) G 0 + nth (3 * q + d) D 0 * nth (3 * q + c) G 0)) = / 2 * (Sg d c + Sg c d)).
  { intros c d. rewrite rsum_scal_l, rsum_plus. f_equal. f_equal; apply rsum_ext; intros; ring. }
  assert (Z0 : forall q, (3 * q + 0 = 3 * q)%nat) by (intros; lia).
  assert (U1 : rsum n (fun q => nth (3 * q) D 0 * nth (3 * q) G 0) = Sg 0%nat 0%nat) by (rewrite <- V1; apply rsum_ext; intros q _; rewrite Z0; reflexivity).
  assert (U2 : forall d, rsum n (fun q => / 2 * (nth (3 * q) D 0 * nth (3 * q + d) G 0 + nth (3 * q + d) D 0 * nth (3 * q) G 0)) = / 2 * (Sg d 0%nat + Sg 0%nat d))
    by (intros d; rewrite <- V2; apply rsum_ext; intros q _; rewrite Z0; reflexivity).
  rewrite U1, !U2, !V1, !V2. generalize Sg. intros S. cbn [rsum]. rewrite (Hsym 1%nat 0%nat), (Hsym 2%nat 0%nat), (Hsym 2%nat 1%nat). field.
Qed.

Section NoDom.
Variable sph : nat -> RNum -> RNum -> RNum -> list RNum * list RNum.
Hypothesis Hsph : sph_ok sph.
Hypothesis Hgr : sph_gradient sph.
Variable srt : list (list (list nat)) -> list (list (list nat)).
Hypothesis Hsrt : forall l, Permutation l (srt l).
Variable f : mace_file RNum.
Hypothesis F : file_ok f.
Hypothesis SF : smooth_ok f.
Variable l : lmp RNum.
Variable rc : R.
Variable types : list nat.
Notation B := (ilist l).
Hypothesis L : lmp_ok (length types) B l.
Variable owner : nat -> nat.
Hypothesis O : owner_ok owner l.
Notation nall := (nlocal l + nghost l)%nat.
Notation K0 := (kpairs l rc B).
Notation x0 := (nd_input (N:=RNum) types rc owner l).
Notation D0 := (pvec K0 (atom_x l)).

Lemma K0_in i j : In (i, j) K0 -> (i < nlocal l)%nat /\ (j < nall)%nat.
Proof.
  intros H. unfold kpairs in H. apply in_flat_map in H. destruct H as (i' & H1 & H2). apply in_map_iff in H2. destruct H2 as (j' & E & H2). injection E as -> ->.
  split; [apply (il_in l types L i); exact H1|]. unfold kept in H2. apply filter_In in H2. destruct (lo_A _ _ _ L i H1) as (_ & _ & _ & _ & A). apply A. apply H2.
Qed.
Lemma K0_nth q : (q < length K0)%nat -> (fst (nth q K0 (0, 0)) < nlocal l)%nat /\ (snd (nth q K0 (0, 0)) < nall)%nat.
Proof. intros H. apply K0_in. rewrite <- surjective_pairing. apply nth_In. exact H. Qed.

Lemma sum_nn0 : list_sum (i_num_neigh x0) = length K0.
Proof.
  cbn [nd_input i_num_neigh]. unfold kpairs. rewrite length_flat_map. apply (f_equal list_sum). apply map_ext. intros i. rewrite map_length. reflexivity.
Qed.
Lemma xyz_x0 : i_xyz x0 = D0.
Proof. symmetry. apply (flat_kpairs l rc (fun i j => [sep (N:=RNum) (atom_x l) i j 0; sep (N:=RNum) (atom_x l) i j 1; sep (N:=RNum) (atom_x l) i j 2])). Qed.

(** the input of the evaluator at other positions, when the same pairs are kept *)
Lemma nd_input_at (x : list R) : (forall i, In i B -> kept (N:=RNum) rc (at_x l x) i = kept (N:=RNum) rc l i) ->
  nd_input (N:=RNum) types rc owner (at_x l x) = with_xyz x0 (pvec K0 x).
Proof.
  intros H. unfold with_xyz. rewrite sum_nn0. cbn [nd_input i_num_nodes i_node_types i_num_neigh i_neigh_indices i_neigh_types at_x ilist].
  unfold nd_input. cbn [at_x ilist atom_x].
  change (map (spec_of types (at_x l x)) B) with (map (spec_of types l) B).
  rewrite (map_ext_in (fun i => length (kept rc (at_x l x) i)) (fun i => length (kept rc l i))) by (intros; f_equal; apply H; assumption).
  rewrite (flat_map_ext_in (fun i => map (fun j => position (owner j) B) (kept rc (at_x l x) i)) (fun i => map (fun j => position (owner j) B) (kept rc l i)))
    by (intros; f_equal; apply H; assumption).
  rewrite (flat_map_ext_in (fun i => map (spec_of types (at_x l x)) (kept rc (at_x l x) i)) (fun i => map (spec_of types l) (kept rc l i)))
    by (intros; change (spec_of types (at_x l x)) with (spec_of types l); f_equal; apply H; assumption).
  rewrite (flat_map_ext_in (fun i => flat_map (fun j => [sep x i j 0; sep x i j 1; sep x i j 2]) (kept rc (at_x l x) i))
    (fun i => flat_map (fun j => [sep x i j 0; sep x i j 1; sep x i j 2]) (kept rc l i))) by (intros; f_equal; apply H; assumption).
  rewrite (flat_map_ext_in (fun i => map (fun j => nsqrt (sep2 x i j)) (kept rc (at_x l x) i)) (fun i => map (fun j => nsqrt (sep2 x i j)) (kept rc l i)))
    by (intros; f_equal; apply H; assumption).
  f_equal.
  - symmetry. apply (flat_kpairs l rc (fun i j => [sep (N:=RNum) x i j 0; sep (N:=RNum) x i j 1; sep (N:=RNum) x i j 2])).
  - rewrite <- (map_kpairs l rc (fun i j => nsqrt (sep2 (N:=RNum) x i j))).
    apply (list_eq_nth _ _ 0); [rewrite !map_length, seq_length; reflexivity|]. intros q Hq. rewrite map_length in Hq.
    rewrite (nth_tab (length K0) (fun q => sqrt (norm2 (pvec K0 x) q))) by exact Hq. rewrite norm2_pvec by exact Hq.
    apply nth_error_nth. rewrite nth_error_map, (nth_error_nth' _ (0%nat, 0%nat)) by exact Hq. reflexivity.
Qed.
Lemma kept_self i : kept (N:=RNum) rc (at_x l (atom_x l)) i = kept (N:=RNum) rc l i.
Proof. destruct l. reflexivity. Qed.

Lemma kept_open (P : R -> list R) P' t0 : P t0 = atom_x l -> (forall k, (k < 3 * nall)%nat -> derivable_pt_lim (fun t => nth k (P t) 0) t0 (P' k)) ->
  off_cutoff l rc -> exists eps, 0 < eps /\ forall t, Rabs (t - t0) < eps -> forall i, In i B -> kept (N:=RNum) rc (at_x l (P t)) i = kept (N:=RNum) rc l i.
Proof.
  intros HP HD HO. apply (list_open (fun i t => kept (N:=RNum) rc (at_x l (P t)) i = kept (N:=RNum) rc l i)). intros i Hi.
  destruct (list_open (fun j t => nltb (n:=RNum) (sep2 (N:=RNum) (P t) i j) (rc * rc) = nltb (n:=RNum) (sep2 (N:=RNum) (atom_x l) i j) (rc * rc)) (listed l i) t0) as (eps & He & H).
  - intros j Hj. destruct (lo_A _ _ _ L i Hi) as (Hi1 & _ & _ & _ & A). specialize (A j Hj).
    rewrite <- HP. assert (Hs : forall c, (c < 3)%nat -> derivable_pt_lim (fun t => sep (N:=RNum) (P t) i j c) t0 (P' (3 * j + c)%nat - P' (3 * i + c)%nat)).
    { intros c Hc. apply dlim_ext with (f := fun t => nth (3 * j + c) (P t) 0 - nth (3 * i + c) (P t) 0); [intros; symmetry; apply sep_R|].
      apply dlim_minus; apply HD; lia. }
    apply (side_open (fun t => sep2 (N:=RNum) (P t) i j) t0
      (let s c := sep (N:=RNum) (P t0) i j c in let d c := P' (3 * j + c)%nat - P' (3 * i + c)%nat in
       (d 0%nat * s 0%nat + s 0%nat * d 0%nat) + (d 1%nat * s 1%nat + s 1%nat * d 1%nat) + (d 2%nat * s 2%nat + s 2%nat * d 2%nat))).
    + unfold sep2. apply dlim_plus; [apply dlim_plus|]; apply dlim_mult; apply Hs; lia.
    + rewrite HP. apply HO; assumption.
  - exists eps. split; [exact He|]. intros t Ht. unfold kept. change (listed (at_x l (P t)) i) with (listed l i). change (atom_x (at_x l (P t))) with (P t).
    apply filter_ext_in. intros j Hj. exact (H t Ht j Hj).
Qed.

(** local atoms behind the neighbours of the kept pairs *)
Definition nbr0 : list nat := flat_map (fun i => map owner (kept (N:=RNum) rc l i)) B.
Lemma nbr0_K : nbr0 = map (fun p => owner (snd p)) K0.
Proof. symmetry. apply (map_kpairs l rc (fun _ j => owner j)). Qed.
Lemma eow_K : eow B (i_num_neigh x0) = map fst K0.
Proof.
  cbn [nd_input i_num_neigh]. rewrite (map_kpairs l rc (fun i _ => i)). unfold eow. rewrite map_length.
  rewrite (flat_map_ext_in _ (fun ii => repeat (nth ii B 0%nat) (length (kept (N:=RNum) rc l (nth ii B 0%nat))))).
  2:{ intros ii Hii. apply in_seq in Hii. f_equal. apply nth_error_nth. rewrite nth_error_map, (nth_error_nth' _ 0%nat) by lia. reflexivity. }
  generalize B as Bs. intros Bs. induction Bs as [|i Bs IH]; [reflexivity|]. cbn [length]. cbn [seq flat_map]. rewrite <- seq_shift.
  rewrite flat_map_concat_map, map_map, <- flat_map_concat_map. cbn [nth]. rewrite IH. f_equal.
  clear. induction (kept rc l i); [reflexivity|]. cbn. congruence.
Qed.

Definition acc1 (fl : ev) (G : list R) (En : list R) (xyz : list R) (a : accum RNum) : accum RNum := mkAcc (N:=RNum)
  (if eflag_global fl then eng_vdwl a + total En else eng_vdwl a) (if eflag_atom fl then sf (eatom a) En else eatom a)
  (if vflag_global fl then vir (virial a) G xyz (length K0) else virial a)
  (frc (force a) G (map fst K0) nbr0 (length K0)).

(** one call of the pair style *)
Lemma nd_step fl p (a : accum RNum) (x : list R) bh : vflag_atom fl = false -> acc_ok l a -> length x = length (atom_x l) ->
  (forall i, In i B -> kept (N:=RNum) rc (at_x l x) i = kept (N:=RNum) rc l i) -> input_ok f (with_xyz x0 (pvec K0 x)) ->
  bufs_live (ldm f) (ldp0 srt f) (ldp1 srt f) (ldlive f) bh ->
  exists b1 p1, call sph (ldm f) bh (with_xyz x0 (pvec K0 x)) = Some b1 /\ length (b_node_forces b1) = (3 * length K0)%nat /\ length (b_node_energies b1) = length B /\
    compute_no_domain_decomposition sph (ldm f) rc types fl (at_x l x) bh p a = Some (b1, p1, acc1 fl (b_node_forces b1) (b_node_energies b1) (pvec K0 x) a).
Proof.
  intros Hv Ha Hx HK HI Lb. destruct (call_ok sph Hsph srt f F bh _ Lb HI) as (b1 & E1 & _ & En & Fo).
  assert (Len : length (b_node_energies b1) = length B) by (rewrite En; apply length_tab).
  assert (Lf : length (b_node_forces b1) = (3 * length K0)%nat).
  { rewrite Fo, MaceStages1.length_eb. rewrite <- (MaceStages1.length_xyz (sys_of _)).
    pose proof (flat_sys_of f _ HI) as Ex. apply (f_equal i_xyz) in Ex. cbn [flat i_xyz] in Ex. rewrite Ex. cbn [with_xyz i_xyz].
    rewrite length_pvec. lia. }
  pose proof (nd_ok (at_x l x) rc types (lmp_ok_at _ _ _ _ L Hx) owner (owner_ok_at _ _ _ O) sph (ldm f) fl bh p a) as E2.
  cbv zeta in E2. rewrite (nd_input_at x HK), E1 in E2. cbn [bind] in E2. change (ilist (at_x l x)) with B in E2.
  rewrite (flat_map_ext_in (fun i => map owner (kept rc (at_x l x) i)) (fun i => map owner (kept rc l i))) in E2 by (intros; f_equal; apply HK; assumption).
  fold nbr0 in E2.
  change (i_num_nodes (with_xyz x0 (pvec K0 x))) with (length B) in E2. change (i_num_neigh (with_xyz x0 (pvec K0 x))) with (i_num_neigh x0) in E2.
  change (i_xyz (with_xyz x0 (pvec K0 x))) with (pvec K0 x) in E2. destruct Ha as [Ha1 Ha2 Ha3].
  pose proof (il_len l types L) as Hil.
  assert (Lnbr : length nbr0 = length K0) by (rewrite nbr0_K; apply map_length).
  rewrite (tally_ok fl (length B) (length B) nall B (i_num_neigh x0) nbr0 (pvec K0 x) (b_node_energies b1) (b_node_forces b1) a) in E2; auto.
  - cbn [bind] in E2. exists b1. eexists. split; [exact E1|]. split; [exact Lf|]. split; [exact Len|]. rewrite E2. unfold acc1.
    rewrite eow_K, sum_nn0. rewrite <- Len, firstn_all. reflexivity.
  - change (carrier RNum) with R in *. lia.
  - intros _. rewrite Ha2. pose proof (lo_il _ _ _ L). lia.
  - cbn [nd_input i_num_neigh]. apply map_length.
  - rewrite sum_nn0. exact Lnbr.
  - rewrite sum_nn0. exact Lf.
  - rewrite sum_nn0. apply length_pvec.
  - intros i Hi. exact (proj1 (lo_A _ _ _ L i Hi)).
  - intros j Hj. rewrite nbr0_K in Hj. apply in_map_iff in Hj. destruct Hj as (q & <- & Hq). destruct q as [i j]. apply K0_in in Hq.
    pose proof (oo_lt _ _ O j (proj2 Hq)). cbn [snd]. lia.
Qed.

Lemma pvec_d (P : R -> list R) P' t0 k : (forall k, (k < 3 * nall)%nat -> derivable_pt_lim (fun t => nth k (P t) 0) t0 (P' k)) -> (k < 3 * length K0)%nat ->
  derivable_pt_lim (fun t => nth k (pvec K0 (P t)) 0) t0
    (P' (3 * snd (nth (k / 3) K0 (0, 0)) + k mod 3)%nat - P' (3 * fst (nth (k / 3) K0 (0, 0)) + k mod 3)%nat).
Proof.
  intros HD Hk. assert (Hq : (k / 3 < length K0)%nat) by (apply Nat.div_lt_upper_bound; lia). assert (Hc : (k mod 3 < 3)%nat) by (apply Nat.mod_upper_bound; lia).
  assert (Ek : k = (3 * (k / 3) + k mod 3)%nat) by (apply Nat.div_mod; lia). pose proof (K0_nth _ Hq).
  apply dlim_ext with (f := fun t => nth (3 * snd (nth (k / 3) K0 (0%nat, 0%nat)) + k mod 3) (P t) 0 - nth (3 * fst (nth (k / 3) K0 (0%nat, 0%nat)) + k mod 3) (P t) 0).
  { intros t. rewrite <- nth_pvec by auto. f_equal. lia. }
  apply dlim_minus; apply HD; lia.
Qed.

(** the systems near a smooth one can be evaluated *)
Lemma nd_near (P : R -> list R) P' t0 : P t0 = atom_x l -> (forall t, length (P t) = (3 * nall)%nat) ->
  (forall k, (k < 3 * nall)%nat -> derivable_pt_lim (fun t => nth k (P t) 0) t0 (P' k)) -> off_cutoff l rc -> smooth_at f x0 (i_xyz x0) ->
  exists del, 0 < del /\ forall t, Rabs (t - t0) < del -> input_ok f (nd_input (N:=RNum) types rc owner (at_x l (P t))).
Proof.
  intros HP HL HD HO SA. rewrite xyz_x0 in SA.
  destruct (kept_open P P' t0 HP HD HO) as (e1 & He1 & HK). pose proof (lo_x _ _ _ L) as Lx.
  set (X := fun t => pvec K0 (P t)). set (X' := tab (3 * length K0) (fun k => P' (3 * snd (nth (k / 3) K0 (0, 0)) + k mod 3)%nat - P' (3 * fst (nth (k / 3) K0 (0, 0)) + k mod 3)%nat)).
  assert (HX0 : X t0 = D0) by (unfold X; rewrite HP; reflexivity).
  assert (LX : forall t, length (X t) = (3 * list_sum (i_num_neigh x0))%nat) by (intros t; rewrite sum_nn0; apply length_pvec).
  assert (LX' : length X' = (3 * list_sum (i_num_neigh x0))%nat) by (rewrite sum_nn0; apply length_tab).
  assert (DX : forall q, (q < 3 * list_sum (i_num_neigh x0))%nat -> derivable_pt_lim (fun t => nth q (X t) 0) t0 (nth q X' 0)).
  { rewrite sum_nn0. intros q Hq. unfold X'. rewrite nth_tab by exact Hq. apply pvec_d; assumption. }
  rewrite <- HX0 in SA.
  destruct (local_ok f SF x0 X X' t0) as (d2 & Hd2 & Ho); auto.
  exists (Rmin e1 d2). split; [apply Rmin_case; auto|]. intros t Ht. assert (M1 := Rmin_l e1 d2). assert (M2 := Rmin_r e1 d2).
  rewrite (nd_input_at (P t)); [apply Ho; lra|]. apply HK. lra.
Qed.

Lemma nd_motion hist fl p (a : accum RNum) (P : R -> list R) P' t0 : Forall (input_ok f) hist -> vflag_atom fl = false -> eflag_global fl = true -> acc_ok l a ->
  P t0 = atom_x l -> (forall t, length (P t) = (3 * nall)%nat) ->
  (forall k, (k < 3 * nall)%nat -> derivable_pt_lim (fun t => nth k (P t) 0) t0 (P' k)) -> off_cutoff l rc -> smooth_at f x0 (i_xyz x0) ->
  exists b0 bh b1 p1 del E, load_from_json srt f = Some (ldm f, b0) /\ calls sph (ldm f) b0 hist = Some bh /\
    length (b_node_forces b1) = (3 * length K0)%nat /\
    compute_no_domain_decomposition sph (ldm f) rc types fl l bh p a = Some (b1, p1, acc1 fl (b_node_forces b1) (b_node_energies b1) D0 a) /\ 0 < del /\
    (forall t, Rabs (t - t0) < del -> exists b p' a', compute_no_domain_decomposition sph (ldm f) rc types fl (at_x l (P t)) bh p a = Some (b, p', a') /\
       E t = eng_vdwl a' - eng_vdwl a) /\
    derivable_pt_lim E t0 (- dot (b_node_forces b1) (tab (3 * length K0) (fun k =>
       P' (3 * snd (nth (k / 3) K0 (0, 0)) + k mod 3)%nat - P' (3 * fst (nth (k / 3) K0 (0, 0)) + k mod 3)%nat))).
Proof.
  intros Hh Hv He Ha HP HL HD HO SA. rewrite xyz_x0 in SA.
  destruct (kept_open P P' t0 HP HD HO) as (e1 & He1 & HK). pose proof (lo_x _ _ _ L) as Lx.
  set (X := fun t => pvec K0 (P t)). set (X' := tab (3 * length K0) (fun k => P' (3 * snd (nth (k / 3) K0 (0, 0)) + k mod 3)%nat - P' (3 * fst (nth (k / 3) K0 (0, 0)) + k mod 3)%nat)).
  assert (HX0 : X t0 = D0) by (unfold X; rewrite HP; reflexivity).
  assert (LX : forall t, length (X t) = (3 * list_sum (i_num_neigh x0))%nat) by (intros t; rewrite sum_nn0; apply length_pvec).
  assert (LX' : length X' = (3 * list_sum (i_num_neigh x0))%nat) by (rewrite sum_nn0; apply length_tab).
  assert (DX : forall q, (q < 3 * list_sum (i_num_neigh x0))%nat -> derivable_pt_lim (fun t => nth q (X t) 0) t0 (nth q X' 0)).
  { rewrite sum_nn0. intros q Hq. unfold X'. rewrite nth_tab by exact Hq. apply pvec_d; assumption. }
  rewrite <- HX0 in SA.
  destruct (load_ok srt Hsrt f F) as (b0 & E0 & L0). destruct (calls_ok sph Hsph srt f F b0 hist L0 Hh) as (bh & Eh & Lh).
  destruct (motion_lemma sph Hsph Hgr srt Hsrt f F SF x0 X X' t0) with (hist := hist) as (m & b0' & bh' & b1 & d1 & E & G1 & G2 & G3 & G4 & G5 & G6); auto.
  rewrite E0 in G1. injection G1 as <- <-. rewrite Eh in G2. injection G2 as <-.
  destruct (local_ok f SF x0 X X' t0) as (d2 & Hd2 & Ho); auto.
  destruct (nd_step fl p a (atom_x l) bh Hv Ha eq_refl (fun i _ => kept_self i)) as (b1' & p1 & C1 & C2 & _ & C3); auto.
  { rewrite <- HX0. apply (sa_ok _ _ _ SA). }
  rewrite HX0, C1 in G3. injection G3 as ->.
  assert (El : at_x l (atom_x l) = l) by (destruct l; reflexivity). rewrite El in C3.
  exists b0, bh, b1, p1, (Rmin e1 (Rmin d1 d2)), E. split; [exact E0|]. split; [exact Eh|]. split; [exact C2|]. split; [exact C3|].
  split; [repeat apply Rmin_case; auto|]. split; [|exact G6].
  intros t Ht. assert (M1 := Rmin_l e1 (Rmin d1 d2)). assert (M2 := Rmin_r e1 (Rmin d1 d2)). assert (M3 := Rmin_l d1 d2). assert (M4 := Rmin_r d1 d2).
  destruct (G5 t ltac:(lra)) as (b & B1 & B2).
  destruct (nd_step fl p a (P t) bh Hv Ha) as (b' & p' & C4 & _ & _ & C6); auto.
  { rewrite HL. symmetry. exact Lx. } { apply HK. lra. } { apply Ho. lra. }
  unfold X in B1. rewrite B1 in C4. injection C4 as <-. eexists b, p', _. split; [exact C6|]. unfold acc1. rewrite He. cbn [eng_vdwl]. rewrite B2.
  change (carrier RNum) with R. ring.
Qed.

(** ** forces *)
Lemma nd_forces hist fl p (a : accum RNum) sh pos : Forall (input_ok f) hist -> vflag_atom fl = false -> eflag_global fl = true -> acc_ok l a ->
  length pos = (3 * nlocal l)%nat -> atom_x l = images nall owner sh pos -> off_cutoff l rc -> smooth_at f x0 (i_xyz x0) ->
  exists m b0 bh b1 p1 a1, load_from_json srt f = Some (m, b0) /\ calls sph m b0 hist = Some bh /\
    compute_no_domain_decomposition sph m rc types fl l bh p a = Some (b1, p1, a1) /\
    length (force a1) = length (force a) /\
    (forall q, (3 * nlocal l <= q)%nat -> nth q (force a1) 0 = nth q (force a) 0) /\
    forall q, (q < 3 * nlocal l)%nat -> exists E del, 0 < del /\
      (forall u, Rabs (u - nth q pos 0) < del -> exists b p' a',
         compute_no_domain_decomposition sph m rc types fl (at_x l (images nall owner sh (upd pos q u))) bh p a = Some (b, p', a') /\
         E u = eng_vdwl a' - eng_vdwl a) /\
      derivable_pt_lim E (nth q pos 0) (- (nth q (force a1) 0 - nth q (force a) 0)).
Proof.
  intros Hh Hv He Ha Hpos HX HO SA. pose proof (lo_x _ _ _ L) as Lx.
  destruct (nd_motion hist fl p a (fun _ => atom_x l) (fun _ => 0) 0 Hh Hv He Ha eq_refl) as (b0 & bh & b1 & p1 & _ & _ & A1 & A2 & A3 & A4 & _); auto.
  { intros; apply dlim_const. }
  exists (ldm f), b0, bh, b1, p1. eexists. split; [exact A1|]. split; [exact A2|]. split; [exact A4|]. unfold acc1. cbn [force].
  assert (Bd : forall q, (q < length K0)%nat -> (nth q (map fst K0) 0 < nlocal l)%nat /\ (nth q nbr0 0 < nlocal l)%nat /\
     nth q (map fst K0) 0%nat = fst (nth q K0 (0, 0)%nat) /\ nth q nbr0 0%nat = owner (snd (nth q K0 (0, 0)%nat))).
  { intros q Hq. destruct (K0_nth q Hq) as [Q1 Q2].
    assert (E1 : nth q (map fst K0) 0%nat = fst (nth q K0 (0, 0)%nat)) by (exact (map_nth fst K0 (0%nat, 0%nat) q)).
    assert (E2 : nth q nbr0 0%nat = owner (snd (nth q K0 (0, 0)%nat))).
    { rewrite nbr0_K. apply nth_error_nth. rewrite nth_error_map, (nth_error_nth' _ (0%nat, 0%nat)) by exact Hq. reflexivity. }
    rewrite E1, E2. repeat split; auto. apply (oo_lt _ _ O). exact Q2. }
  assert (NF : forall k c, (c < 3)%nat -> nth (3 * k + c) (frc (force a) (b_node_forces b1) (map fst K0) nbr0 (length K0)) 0 =
    nth (3 * k + c) (force a) 0 + rsum (length K0) (fun q => nth (3 * q + c) (b_node_forces b1) 0 * (ind (nth q nbr0 0%nat) k - ind (nth q (map fst K0) 0%nat) k))).
  { intros k c Hc. apply (nth_frc _ _ _ _ nall); auto. { apply (ao_f _ _ Ha). } intros q Hq. destruct (Bd q Hq) as (Q1 & Q2 & _). lia. }
  split; [apply length_frc|]. split.
  - intros q Hq. rewrite (Nat.div_mod q 3) by lia. rewrite NF by (apply Nat.mod_upper_bound; lia).
    rewrite rsum_0; [apply Rplus_0_r|]. intros e He'. destruct (Bd e He') as (Q1 & Q2 & _).
    assert (Hk : (nlocal l <= q / 3)%nat) by (apply Nat.div_le_lower_bound; lia). unfold ind.
    destruct (Nat.eqb_spec (nth e nbr0 0%nat) (q / 3)), (Nat.eqb_spec (nth e (map fst K0) 0%nat) (q / 3)); try lia. ring.
  - intros q Hq. set (k := (q / 3)%nat). set (c := (q mod 3)%nat).
    assert (Hk : (k < nlocal l)%nat) by (apply Nat.div_lt_upper_bound; lia). assert (Hc : (c < 3)%nat) by (apply Nat.mod_upper_bound; lia).
    assert (Eq : q = (3 * k + c)%nat) by (apply Nat.div_mod; lia).
    destruct (nd_motion hist fl p a (fun u => images nall owner sh (upd pos q u)) (fun r => ind (3 * owner (r / 3)%nat + r mod 3) q) (nth q pos 0) Hh Hv He Ha)
      as (b0' & bh' & b1' & p1' & del & E & B1 & B2 & B3 & B4 & B5 & B6 & B7); auto.
    { rewrite upd_same. symmetry. exact HX. } { intros; unfold images; rewrite map_length, seq_length; reflexivity. }
    { intros r Hr. apply dlim_ext with (f := fun u => nth (3 * owner (r / 3)%nat + r mod 3) (upd pos q u) 0 + nth r sh 0).
      { intros u. symmetry. unfold images. apply (nth_tab (3 * nall) (fun k => nth (3 * owner (k / 3)%nat + k mod 3) (upd pos q u) 0 + nth k sh 0)). exact Hr. }
      eapply dlim_eq; [|apply dlim_plus; [|apply dlim_const]]; [apply Rplus_0_r|].
      apply dlim_ext with (f := fun u => if (3 * owner (r / 3)%nat + r mod 3 =? q)%nat then u else nth (3 * owner (r / 3)%nat + r mod 3) pos 0).
      - intros u. rewrite nth_upd by lia. rewrite Nat.eqb_sym. reflexivity.
      - unfold ind. destruct (_ =? q)%nat; [apply dlim_id|apply dlim_const]. }
    rewrite A1 in B1. injection B1 as <-. rewrite A2 in B2. injection B2 as <-. rewrite A4 in B4. injection B4 as <- _ _.
    exists E, del. split; [exact B5|]. split; [exact B6|]. eapply dlim_eq; [|exact B7]. f_equal.
    pose proof (NF k c Hc) as NFq. rewrite <- Eq in NFq. transitivity (rsum (length K0) (fun e => nth (3 * e + c) (b_node_forces b1) 0 * (ind (nth e nbr0 0%nat) k - ind (nth e (map fst K0) 0%nat) k))).
    2:{ symmetry. etransitivity; [exact (f_equal (fun z => z - nth q (force a) 0) NFq)|]. cbv beta. change (carrier RNum) with R. ring. }
    rewrite (tab_ext (3 * length K0) _ (fun e => ind (3 * nth (e / 3) nbr0 0%nat + e mod 3) (3 * k + c) - ind (3 * nth (e / 3) (map fst K0) 0%nat + e mod 3) (3 * k + c))).
    + rewrite (dot_scatter _ (length K0) (fun e => nth e (map fst K0) 0%nat) (fun e => nth e nbr0 0%nat)) by auto. reflexivity.
    + intros e He'. assert (He2 : (e / 3 < length K0)%nat) by (apply Nat.div_lt_upper_bound; lia). destruct (Bd _ He2) as (Q1 & Q2 & Q3 & Q4).
      assert (Hm : (e mod 3 < 3)%nat) by (apply Nat.mod_upper_bound; lia).
      assert (T : forall j, ((3 * j + e mod 3) / 3 = j)%nat /\ ((3 * j + e mod 3) mod 3 = e mod 3)%nat).
      { intros j. split; [rewrite Nat.mul_comm, Nat.div_add_l, Nat.div_small by lia; lia|rewrite Nat.add_comm, Nat.mul_comm, Nat.mod_add, Nat.mod_mod by lia; reflexivity]. }
      rewrite !(proj1 (T _)), !(proj2 (T _)). rewrite <- Q4, <- Q3, Eq. f_equal. f_equal. f_equal.
      f_equal. f_equal. apply (oo_self _ _ O). exact Q1.
Qed.

(** ** virial *)
Lemma nd_strain hist fl p (a : accum RNum) e : Forall (input_ok f) hist -> vflag_atom fl = false -> eflag_global fl = true -> vflag_global fl = true -> acc_ok l a ->
  (forall i c, e i c = e c i) -> off_cutoff l rc -> smooth_at f x0 (i_xyz x0) ->
  exists m b0 bh b1 p1 a1 E del, load_from_json srt f = Some (m, b0) /\ calls sph m b0 hist = Some bh /\
    compute_no_domain_decomposition sph m rc types fl l bh p a = Some (b1, p1, a1) /\ length (virial a1) = 6%nat /\ 0 < del /\
    (forall t, Rabs t < del -> exists b p' a', compute_no_domain_decomposition sph m rc types fl (at_x l (strain e t (atom_x l))) bh p a = Some (b, p', a') /\
       E t = eng_vdwl a' - eng_vdwl a) /\
    let v k := nth k (virial a1) 0 - nth k (virial a) 0 in
    derivable_pt_lim E 0 (- (v 0%nat * e 0%nat 0%nat + v 1%nat * e 1%nat 1%nat + v 2%nat * e 2%nat 2%nat
                               + 2 * (v 3%nat * e 0%nat 1%nat) + 2 * (v 4%nat * e 0%nat 2%nat) + 2 * (v 5%nat * e 1%nat 2%nat))).
Proof.
  intros Hh Hv He Hvg Ha Hsym HO SA. pose proof (lo_x _ _ _ L) as Lx.
  destruct (nd_motion hist fl p a (fun t => strain e t (atom_x l)) (fun k => rsum 3 (fun c => e (k mod 3)%nat c * nth (3 * (k / 3) + c) (atom_x l) 0)) 0 Hh Hv He Ha)
    as (b0 & bh & b1 & p1 & del & E & A1 & A2 & A3 & A4 & A5 & A6 & A7); auto.
  { apply (list_eq_nth _ _ 0); [unfold strain; rewrite map_length, seq_length; reflexivity|]. intros k Hk.
    unfold strain in *. rewrite map_length, seq_length in Hk. etransitivity; [apply (nth_tab (length (atom_x l))); exact Hk|]. ring. }
  { intros t. unfold strain. rewrite map_length, seq_length. exact Lx. }
  { intros k Hk. apply dlim_ext with (f := fun t => nth k (atom_x l) 0 + t * rsum 3 (fun c => e (k mod 3)%nat c * nth (3 * (k / 3) + c) (atom_x l) 0)).
    - intros t. symmetry. unfold strain. etransitivity; [apply (nth_tab (length (atom_x l))); change (carrier RNum) with R in *; lia|]. cbn [rsum]. change (carrier RNum) with R. rewrite Nat.add_0_r. ring.
    - eapply dlim_eq; [|apply dlim_plus; [apply dlim_const|apply dlim_mult; [apply dlim_id|apply dlim_const]]]. cbv beta. ring. }
  exists (ldm f), b0, bh, b1, p1. eexists. exists E, del. split; [exact A1|]. split; [exact A2|]. split; [exact A4|]. unfold acc1. cbn [virial]. rewrite Hvg.
  split; [reflexivity|]. split; [exact A5|]. split. { intros t Ht. apply A6. rewrite Rminus_0_r. exact Ht. }
  cbv zeta. eapply dlim_eq; [|exact A7]. f_equal.
  rewrite (tab_ext (3 * length K0) _ (fun k => rsum 3 (fun c => e (k mod 3)%nat c * nth (3 * (k / 3) + c) D0 0))).
  2:{ intros k Hk. assert (Hq : (k / 3 < length K0)%nat) by (apply Nat.div_lt_upper_bound; lia).
      assert (Hm : (k mod 3 < 3)%nat) by (apply Nat.mod_upper_bound; lia).
      assert (T : forall j, ((3 * j + k mod 3) / 3 = j)%nat /\ ((3 * j + k mod 3) mod 3 = k mod 3)%nat).
      { intros j. split; [rewrite Nat.mul_comm, Nat.div_add_l, Nat.div_small by lia; lia|rewrite Nat.add_comm, Nat.mul_comm, Nat.mod_add, Nat.mod_mod by lia; reflexivity]. }
      rewrite !(proj1 (T _)), !(proj2 (T _)), <- rsum_minus. apply rsum_ext. intros c Hc. rewrite nth_pvec by auto. change (carrier RNum) with R. ring. }
  etransitivity; [exact (dot_strain _ D0 (length K0) e A3)|]. apply vir_strain. exact Hsym.
Qed.
End NoDom.
