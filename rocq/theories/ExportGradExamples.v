(** Data for the examples beside C71-C73: the model [ex_torch] on the periodic three-atom systems of the ASE and LAMMPS examples. *)
From Coq Require Import List Arith ZArith Lia Bool Permutation Sorted Reals Lra.
From Verif Require Import Base BaseLemmas Instances RSums MlpSpec MpSpec MaceModel MaceSpec MaceSpec2 MaceExamples MaceGradSpec GradExamples ExportModel ExportSpec ExportPolySpec EnergySpec
  ExportFullModel TorchSpec ExportFullThms TorchGradSpec ExportForces ExportAse ExportFullExamples AseModel AseSpec AseExamples PairModel PairSpec PairExamples PairMpiModel PairCommSpec DistSpec DistExamples.
Import ListNotations.
Local Open Scope R_scope.

Lemma ex_repulsion : repulsion_smooth ex_torch.
Proof.
  unfold repulsion_smooth. cbn [t_zbl ex_torch zp_c zp_p zp_covalent_radii]. split; [reflexivity|]. split; [lia|].
  intros Z Z' [<-|[<-|[]]] [<-|[<-|[]]]; cbn [nth]; lra.
Qed.

(** an interpolant of nonnegative values with vanishing slopes is nonnegative *)
Lemma hermite_nonneg h vs ds r : 0 <= r / h -> (forall v, In v vs -> 0 <= v) -> (forall d, In d ds -> d = 0) -> 0 <= hermite h vs ds r.
Proof.
  intros Hr Hv Hd. unfold hermite. set (q := Z.to_nat (Int_part (r / h))). set (t := r / h - INR q).
  assert (N : forall k, 0 <= nth k vs 0) by (intros k; destruct (Nat.lt_ge_cases k (length vs)); [apply Hv, nth_In; lia|rewrite nth_overflow by lia; lra]).
  assert (Z : forall k, nth k ds 0 = 0) by (intros k; destruct (Nat.lt_ge_cases k (length ds)); [apply Hd, nth_In; lia|apply nth_overflow; lia]).
  assert (T : 0 <= t <= 1).
  { unfold t, q. destruct (base_Int_part (r / h)) as [B1 B2].
    assert (P : (0 <= Int_part (r / h))%Z) by (apply Z.lt_succ_r, lt_IZR; rewrite succ_IZR; lra).
    rewrite INR_IZR_INZ, Z2Nat.id by exact P. lra. }
  rewrite !Z. assert (A := N q). assert (B := N (q + 1)%nat).
  assert (0 <= (1 + 2 * t) * (1 - t) ^ 2) by (apply Rmult_le_pos; [lra|apply pow2_ge_0]).
  assert (0 <= t ^ 2 * (3 - 2 * t)) by (apply Rmult_le_pos; [apply pow2_ge_0|lra]).
  assert (0 <= (1 + 2 * t) * (1 - t) ^ 2 * nth q vs 0) by (apply Rmult_le_pos; assumption).
  assert (0 <= t ^ 2 * (3 - 2 * t) * nth (q + 1) vs 0) by (apply Rmult_le_pos; assumption). lra.
Qed.
Lemma suml_nonneg {A} (l : list A) g : (forall a, In a l -> 0 <= g a) -> 0 <= suml l g.
Proof. unfold suml. induction l as [|a l IH]; intros H; cbn [map fold_right]; [lra|]. assert (0 <= g a) by (apply H; left; reflexivity). assert (0 <= fold_right Rplus 0 (map g l)) by (apply IH; intros; apply H; right; assumption). lra. Qed.
Lemma interpolant_nonneg r_cut points g r : (2 <= points)%nat -> 1 / 10 ^ 12 < r_cut -> 0 <= r -> (forall s, 0 <= s -> 0 <= g s) -> 0 <= interpolant ex_spl r_cut points g r.
Proof.
  intros Hp Hc Hr Hg. assert (E : 0 < 1 / 10 ^ 12) by (apply Rdiv_lt_0_compat; [lra|apply pow_lt; lra]).
  assert (Hs : 0 < knot_step r_cut points) by (unfold knot_step; apply Rdiv_lt_0_compat; [lra|apply (lt_INR 0); lia]).
  unfold interpolant. apply hermite_nonneg.
  - apply Rmult_le_pos; [exact Hr|]. left. apply Rinv_0_lt_compat. exact Hs.
  - intros v Hv. apply in_map_iff in Hv. destruct Hv as (s & <- & Hv). apply Hg. unfold knots in Hv. apply in_map_iff in Hv. destruct Hv as (i & <- & _).
    assert (0 <= INR i * knot_step r_cut points) by (apply Rmult_le_pos; [apply pos_INR|lra]). lra.
  - intros d Hd. unfold ex_spl in Hd. cbn [snd] in Hd. apply in_map_iff in Hd. destruct Hd as (_ & <- & _). reflexivity.
Qed.
Lemma ex_cut : 1 / 10 ^ 12 < t_r_cut ex_torch.
Proof. pose proof one_large as H. rewrite Rabs_R1 in H. cbn [t_r_cut ex_torch]. lra. Qed.
Lemma ex_cut4 r : r <= 4 -> r < t_r_cut ex_torch - 1 / 10 ^ 12.
Proof. pose proof one_large as H. rewrite Rabs_R1 in H. cbn [t_r_cut ex_torch]. lra. Qed.

(** the densities of [ex_torch] are not negative, so the denominators are at least one *)
Lemma ex_regular el x : (forall r, In r (i_r x) -> 0 < r <= 4) -> regular ex_spl 3 ex_torch el x.
Proof.
  intros H. constructor.
  - intros r Hr. specialize (H r Hr). split; [apply H|]. apply ex_cut4, H.
  - intros b b' i E _. change (t_interactions ex_torch) with [RealAgnosticDensity; RealAgnosticDensityResidual] in E. injection E as <- <-.
    assert (N : forall e, In e (neighbours x i) -> 0 <= nb_r e).
    { intros e He. unfold neighbours in He. apply in_map_iff in He. destruct He as (p & <- & _). cbn [nb_r].
      destruct (Nat.lt_ge_cases p (length (i_r x))) as [L|L]; [left; apply H, nth_In; exact L|]. rewrite nth_overflow by exact L. lra. }
    split; unfold denominator; cbn [is_density]; apply Rgt_not_eq; apply Rlt_le_trans with 1; try lra;
      match goal with |- 1 <= 1 + ?s => assert (0 <= s); [|lra] end; apply suml_nonneg; intros e He; unfold radial; apply interpolant_nonneg;
      try lia; try apply ex_cut; try (apply N; exact He); intros s Hs; cbn [t_dens0 t_dens1 ex_torch]; [apply Rmult_le_pos; [apply pos_INR|exact Hs]|exact Hs].
Qed.

Lemma ex_export : exists f, extract_mace_data ex_rank ex_inv ex_spl ex_torch [] 3 = Some f /\ f_atomic_numbers f = [1; 8]%nat /\ forall r, 0 <= r <= 4 -> in_domain f r.
Proof.
  destruct (lemma_C67 ex_rank ex_inv ex_spl ex_torch ex_C ex_torch_ok ex_spl_ok ex_inv_ok ex_rank_ok [] 3 (NoDup_nil _) (fun a H => match H with end) ltac:(lia) ex_cut) as (f & E & _ & D & S & P & _).
  exists f. split; [exact E|]. split.
  - cbn in P. pose proof (Permutation_length P) as L. destruct (f_atomic_numbers f) as [|a [|b [|c l]]]; try discriminate L.
    inversion S as [|? ? _ F]; subst. inversion F; subst.
    assert (A := Permutation_in a P (or_introl eq_refl)). assert (B := Permutation_in b P (or_intror (or_introl eq_refl))). cbn in A, B.
    destruct A as [<-|[<-|[]]], B as [<-|[<-|[]]]; try lia. reflexivity.
  - intros r Hr. apply D. split; [apply Hr|]. apply ex_cut4, Hr.
Qed.

(** LAMMPS: three atoms, three ghosts *)
Lemma px_regular el : regular ex_spl 3 ex_torch el px_in.
Proof. apply ex_regular. rewrite px_in_eq. cbn [i_r]. intros r H. unfold px_r in H. cbn in H. intuition (subst; lra). Qed.
Lemma px_export f : f_atomic_numbers f = [1; 8]%nat -> (forall r, 0 <= r <= 4 -> in_domain f r) -> input_ok f px_in.
Proof.
  intros E D. rewrite px_in_eq. constructor; try reflexivity; try rewrite E.
  - intros t H. cbn in H. cbn. lia.
  - intros t H. cbn in H. cbn. lia.
  - intros t H. cbn in H. cbn. lia.
  - intros r H. apply D. unfold px_r in H. cbn in H. intuition (subst; lra).
Qed.
Lemma dx_export needed f : split_ok (length px_types) (px_rc : RNum) px_owner needed px dx_ranks -> f_atomic_numbers f = [1; 8]%nat -> (forall r, 0 <= r <= 4 -> in_domain f r) ->
  step_ok f px_rc px_types needed 2 dx_step.
Proof. intros H E D. destruct (dx_step_ok needed H) as [H1 H2 H3 H4 _ H6 H7]. constructor; auto. apply (px_export f E D). Qed.
(** ASE: three atoms, two of them of the second element *)
Definition gx_numbers : list nat := [1; 8; 8]%nat.
Lemma gx_species : species_map [1; 8]%nat gx_numbers ax_types.
Proof.
  split; [reflexivity|]. intros a Z t H1 H2.
  destruct a as [|[|[|a]]]; [| | |destruct a; discriminate H1]; injection H1 as <-; injection H2 as <-; split; try reflexivity; intros t' Ht'.
  - lia.
  - replace t' with 0%nat by lia. discriminate.
  - replace t' with 0%nat by lia. discriminate.
Qed.
Lemma gx_regular el : regular ex_spl 3 ex_torch el (nl_input (N:=RNum) 3 ax_types ax_il ax_jl (lengths3 ax_D) ax_D).
Proof.
  apply ex_regular. cbn [nl_input i_r]. unfold lengths3. intros r H. apply in_map_iff in H. destruct H as (q & E & Hq). apply in_seq in Hq. change (length ax_D / 3)%nat with 8%nat in Hq.
  change (sqrt (norm2 ax_D q) = r) in E. rewrite ax_norm in E by lia. subst r. unfold ax_r. do 8 (destruct q as [|q]; [cbn [nth]; lra|]). lia.
Qed.
