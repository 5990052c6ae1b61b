(** Concrete models for the theorems about the export, and the model that shows the effect of a repeated species. *)
From Coq Require Import List Arith ZArith Lia Bool Permutation Sorted Reals Lra.
From Verif Require Import Base BaseLemmas Instances RSums RList MlpSpec MpSpec MaceModel MaceSpec MaceSpec2 MaceExamples ExportModel ExportSpec ExportProofs ExportPolyModel ExportPolySpec ExportPoly ExportPolyThms
  EnergySpec EnergyProofs ExportFullModel TorchSpec ExportFullPre ExportFullParts ExportFullCoupling ExportFullEnergy ExportFullThms.
Import ListNotations.
Local Open Scope R_scope.

(** ** libraries *)
Definition ex_spl (ks ys : list R) : list R * list R := (ys, map (fun _ => 0) ks).
Lemma ex_spl_ok : spl_ok ex_spl.
Proof. intros ks ys H. split; [reflexivity|]. apply map_length. Qed.
(** rank and inverse of matrices of size 1 and 2 *)
Definition det2 (W : list R) : R := nth 0 W 0 * nth 3 W 0 - nth 1 W 0 * nth 2 W 0.
Definition ex_rank (K : nat) (W : list R) : nat :=
  match K with
  | 1%nat => if Req_EM_T (nth 0 W 0) 0 then 0 else 1
  | 2%nat => if Req_EM_T (det2 W) 0 then 0 else 2
  | _ => 0
  end.
Definition ex_inv (K : nat) (W : list R) : list R :=
  match K with
  | 1%nat => [1 / nth 0 W 0]
  | _ => [nth 3 W 0 / det2 W; - nth 1 W 0 / det2 W; - nth 2 W 0 / det2 W; nth 0 W 0 / det2 W]
  end.
Lemma ex_inv_ok : inv_ok ex_rank ex_inv.
Proof.
  intros K W HL HR i j Hi Hj. destruct K as [|[|[|K]]]; [lia| | |cbn in HR; lia].
  - cbn [ex_rank] in HR. destruct (Req_EM_T (nth 0 W 0) 0) as [|Hne]; [lia|]. assert (i = 0%nat) by lia. assert (j = 0%nat) by lia. subst. unfold sum, one_hot. cbn. field. exact Hne.
  - cbn [ex_rank] in HR. destruct (Req_EM_T (det2 W) 0) as [|Hne]; [lia|]. unfold ex_inv, sum, one_hot. cbn [seq map fold_right].
    destruct i as [|[|i]]; [| |lia]; destruct j as [|[|j]]; [| |lia| | |lia]; cbn [Nat.mul Nat.add nth Nat.eqb]; unfold det2 in *; field; exact Hne.
Qed.

(** ** a model with two channels, L_max = 1, density normalisation and repulsion *)
Definition ex_paths : list (nat * nat * nat) := [(0, 0, 0); (0, 1, 1); (1, 1, 0); (2, 2, 0); (3, 3, 0)]%nat.
Definition ex_C (le m m1 m2 : nat) : R := if ((m =? m1) || (m1 =? m2))%bool%nat then 1 else 0.
Definition unit_U (rows corr : nat) : nat * list R := (1%nat, 1 :: repeat 0 (rows * 16 ^ corr - 1)).
Definition ex_w : list (list (list R)) := [[[1; 2]]; [[3; -1]]].
Definition ex_torch : torch_model RNum :=
  mkTorch (N:=RNum) [RealAgnosticDensity; RealAgnosticDensityResidual] 3 1 2 5 [1; 8]%nat [-1; -2] (1/2) 3
    (Some (Some (mkZblP (N:=RNum) (3/10) (1/2) [1; 2; 3; 4] [1; 1/3; 1; 1; 1; 1; 1; 1; 2/3] 6)))
    (fun a b r => map (fun c => INR (a + b + c) + r) (seq 0 8)) (fun a b r => map (fun c => INR (a * b + c) * r) (seq 0 10))
    (fun a b r => INR (a + b) * r) (fun a b r => r)
    [1; 2; 3; 4] [1; -1; 2; 0] [[1; 0; 0; 1]; [2; 1; 0; 1]; [1; 1; 1; 0]; [0; 1; 1; 3]]
    (repeat [1; 2; 3; 4; 5; 6; 7; 8] 4) 7
    3 (fun L corr => unit_U (2 * L + 1) corr) (fun _ => ([ex_w; ex_w], ex_w))
    [1; 2; 3; 4; 5; 6; 7; 9] [2; 1; 1; 1; 1; 0; 0; 1]
    ex_paths (uvu 2 ex_paths ex_C)
    [[1; 2; 3; 4; 5; 6; 7; 8]; [1; 0; 0; 1]; [1; 0; 0; 2]; [3; 0; 0; 1]] 11
    (unit_U 1) ([ex_w; ex_w], ex_w)
    [1; 2; 2; 1] [1; 2; 3; 4; 5; 6; 7; 8] [1; -3] (map INR (seq 0 32)) (map INR (seq 1 16)) (3/2).

Lemma unit_length rows corr : (1 <= rows)%nat -> length (snd (unit_U rows corr)) = (rows * 16 ^ corr * 1)%nat.
Proof. intros H. unfold unit_U. cbn [snd length]. rewrite repeat_length. assert (1 <= 16 ^ corr)%nat by (apply Nat.neq_0_lt_0, Nat.pow_nonzero; lia). nia. Qed.
Lemma unit_small rows corr : no_small (unit_U rows corr).
Proof.
  intros u [<-|H]; [right; rewrite Rabs_R1; apply Rmult_lt_reg_r with (10 ^ 12); [apply pow_lt; lra|]; unfold Rdiv; rewrite Rmult_assoc, Rinv_l by (apply pow_nonzero; lra); rewrite Rmult_1_l, Rmult_1_l; apply (Rlt_pow_R1 10 12); [lra|lia]|].
  left. apply repeat_spec in H. exact H.
Qed.
Lemma ex_shapes rows : (1 <= rows)%nat -> shapes_ok rows 16 3 2 2 (unit_U rows) (order_weights 3 ([ex_w; ex_w], ex_w)).
Proof.
  intros Hr. assert (EW : forall corr, (1 <= corr <= 3)%nat -> order_weights 3 ([ex_w; ex_w], ex_w) corr = ex_w).
  { intros corr H. assert (corr = 1 \/ corr = 2 \/ corr = 3)%nat as [->|[->| ->]] by lia; reflexivity. }
  constructor.
  - intros corr _. apply unit_length; exact Hr.
  - intros corr H. rewrite EW by exact H. reflexivity.
  - intros corr z H Hz. rewrite EW by exact H. destruct z as [|[|z]]; [reflexivity|reflexivity|lia].
  - intros corr z eta H Hz He. rewrite EW by exact H. cbn in He. assert (eta = 0%nat) by lia. subst. destruct z as [|[|z]]; [reflexivity|reflexivity|lia].
Qed.
Lemma ex_torch_ok : torch_ok ex_torch ex_C.
Proof.
  constructor.
  - exists RealAgnosticDensity, RealAgnosticDensityResidual. auto.
  - reflexivity.
  - cbn. lia.
  - discriminate.
  - repeat constructor; cbn; intuition discriminate.
  - reflexivity.
  - cbn. split; [|lia]. intros Z [<-|[<-|[]]]; lia.
  - intros a b r. cbn -[INR seq]. rewrite (Nat.add_comm a b). reflexivity.
  - intros a b r. cbn -[INR seq]. rewrite (Nat.mul_comm a b). reflexivity.
  - intros a b r. cbn -[INR]. rewrite (Nat.add_comm a b). reflexivity.
  - reflexivity.
  - reflexivity.
  - reflexivity.
  - split; [reflexivity|]. intros w [<-|[<-|[<-|[<-|[]]]]]; reflexivity.
  - split; [reflexivity|]. intros w [<-|[<-|[<-|[<-|[]]]]]; reflexivity.
  - reflexivity.
  - intros l Hl. split; [reflexivity|]. split; [apply ex_shapes; lia|]. intros corr _. apply unit_small.
  - reflexivity.
  - reflexivity.
  - cbn. repeat constructor.
  - intros l. cbn. lia.
  - intros p Hp. change (In p ex_paths) in Hp. change (snd (fst p) <= 3 /\ snd p <= 1)%nat. destruct Hp as [<-|[<-|[<-|[<-|[<-|[]]]]]]; cbn; lia.
  - intros H Y W _ _ _. reflexivity.
  - intros le m m1 m2. unfold ex_C. destruct (_ || _)%bool; [|left; reflexivity]. right. destruct (unit_small 1 1 1 (or_introl eq_refl)) as [E|E]; [lra|exact E].
  - split; [reflexivity|]. intros l Hl. change (l <= 3)%nat in Hl. destruct l as [|[|[|[|l]]]]; [reflexivity|reflexivity|reflexivity|reflexivity|lia].
  - split; [reflexivity|]. split; [apply ex_shapes; lia|]. intros corr _. apply unit_small.
  - reflexivity.
  - reflexivity.
  - reflexivity.
  - reflexivity.
  - reflexivity.
Qed.
Lemma ex_rank_ok : (t_num_channels ex_torch <= ex_rank (t_num_channels ex_torch) (fused ex_torch))%nat.
Proof.
  change (2 <= if Req_EM_T (det2 (fused ex_torch)) 0 then 0 else 2)%nat. destruct (Req_EM_T _ 0) as [E|]; [|lia]. exfalso.
  assert (Hs : 0 < sqrt (INR 2)) by (apply sqrt_lt_R0; cbn; lra).
  change (2 / sqrt (INR 2) * (1 / sqrt (INR 2)) - 1 / sqrt (INR 2) * (1 / sqrt (INR 2)) = 0) in E.
  assert (E2 : 2 / sqrt (INR 2) * (1 / sqrt (INR 2)) - 1 / sqrt (INR 2) * (1 / sqrt (INR 2)) = 1 / sqrt (INR 2) * (1 / sqrt (INR 2))) by (field; lra).
  rewrite E2 in E. assert (0 < 1 / sqrt (INR 2)) by (apply Rdiv_lt_0_compat; lra). nra.
Qed.
(** ** a repeated species
    The model has one channel and a radial function that is 1 for a pair of the second element and 0 for the other pairs.  The species 1, 1, 8 are
    requested: seven tables are exported, and the one at position 5, which C++ reads for the pair (2, 2), is that of the elements 1 and 8. *)
Definition dup_rad (a b : nat) (r : R) : list R := if ((a =? 1) && (b =? 1))%bool%nat then [1; 1; 1; 1] else [0; 0; 0; 0].
Definition dup_U (corr : nat) : nat * list R := match corr with 1%nat => (1%nat, 1 :: repeat 0 15) | _ => (0%nat, []) end.
Definition dup_W : list (list (list (list R))) * list (list (list R)) := ([[[]; []]; [[[1]]; [[1]]]], [[]; []]).
Definition dup_paths : list (nat * nat * nat) := [(0, 0, 0); (1, 1, 0); (2, 2, 0); (3, 3, 0)]%nat.
Definition dup_torch : torch_model RNum :=
  mkTorch (N:=RNum) [RealAgnostic; RealAgnosticResidual] 3 0 1 (1 + 1 / 10 ^ 12) [1; 8]%nat [0; 0] 0 1 None
    dup_rad (fun _ _ _ => []) (fun _ _ _ => 0) (fun _ _ _ => 0)
    [1; 1] [1] [[1]; [1]; [1]; [1]] [[1; 1]; [1; 1]; [1; 1]; [1; 1]] 1
    3 (fun _ => dup_U) (fun _ => dup_W) [1] [1]
    dup_paths (uvu 1 dup_paths ex_C) [[1]; [1]; [1]; [1]] 1 dup_U dup_W [1] [1; 1] [1] (repeat 1 16) (repeat 0 16) 1.

Lemma one_large : 1 / 10 ^ 12 < Rabs 1.
Proof. destruct (unit_small 1 1 1 (or_introl eq_refl)) as [E|E]; [lra|exact E]. Qed.
Lemma dup_shapes : shapes_ok 1 16 3 2 1 dup_U (order_weights 3 dup_W).
Proof.
  constructor.
  - intros corr H. destruct corr as [|[|corr]]; [lia|reflexivity|]. cbn [dup_U fst snd length]. rewrite Nat.mul_0_r. reflexivity.
  - intros corr H. assert (corr = 1 \/ corr = 2 \/ corr = 3)%nat as [->|[->| ->]] by lia; reflexivity.
  - intros corr z H Hz. assert (corr = 1 \/ corr = 2 \/ corr = 3)%nat as [->|[->| ->]] by lia; (destruct z as [|[|z]]; [reflexivity|reflexivity|lia]).
  - intros corr z eta H Hz He. assert (corr = 1 \/ corr = 2 \/ corr = 3)%nat as [->|[->| ->]] by lia; cbn in He; try lia.
    assert (eta = 0%nat) by lia. subst. destruct z as [|[|z]]; [reflexivity|reflexivity|lia].
Qed.
Lemma dup_small corr : no_small (dup_U corr).
Proof.
  destruct corr as [|[|corr]]; [intros u []| |intros u []]. intros u [<-|H]; [right; apply one_large|]. left. apply repeat_spec in H. exact H.
Qed.
Lemma dup_torch_ok : torch_ok dup_torch ex_C.
Proof.
  assert (R0 : forall a b r, dup_rad a b r = dup_rad b a r) by (intros; unfold dup_rad; rewrite andb_comm; reflexivity).
  constructor.
  - exists RealAgnostic, RealAgnosticResidual. auto.
  - reflexivity.
  - cbn. lia.
  - discriminate.
  - repeat constructor; cbn; intuition discriminate.
  - reflexivity.
  - exact I.
  - exact R0.
  - reflexivity.
  - reflexivity.
  - reflexivity.
  - reflexivity.
  - reflexivity.
  - split; [reflexivity|]. intros w [<-|[<-|[<-|[<-|[]]]]]; reflexivity.
  - split; [reflexivity|]. intros w [<-|[<-|[<-|[<-|[]]]]]; reflexivity.
  - reflexivity.
  - intros l Hl. change (l <= 0)%nat in Hl. assert (l = 0%nat) by lia. subst. split; [reflexivity|]. split; [apply dup_shapes|]. intros corr _. apply dup_small.
  - reflexivity.
  - reflexivity.
  - cbn. repeat constructor.
  - intros l. cbn. lia.
  - intros p Hp. change (In p dup_paths) in Hp. change (snd (fst p) <= 3 /\ snd p <= 0)%nat. destruct Hp as [<-|[<-|[<-|[<-|[]]]]]; cbn; lia.
  - intros H Y W _ _ _. reflexivity.
  - intros le m m1 m2. unfold ex_C. destruct (_ || _)%bool; [|left; reflexivity]. right. apply one_large.
  - split; [reflexivity|]. intros l Hl. change (l <= 3)%nat in Hl. destruct l as [|[|[|[|l]]]]; [reflexivity|reflexivity|reflexivity|reflexivity|lia].
  - split; [reflexivity|]. split; [apply dup_shapes|]. intros corr _. apply dup_small.
  - reflexivity.
  - reflexivity.
  - reflexivity.
  - reflexivity.
  - reflexivity.
Qed.
Lemma dup_rank_ok : (t_num_channels dup_torch <= ex_rank (t_num_channels dup_torch) (fused dup_torch))%nat.
Proof.
  change (1 <= if Req_EM_T (1 / sqrt (INR 1)) 0 then 0 else 1)%nat. destruct (Req_EM_T _ 0) as [E|]; [|lia]. exfalso.
  cbn [INR] in E. rewrite sqrt_1 in E. lra.
Qed.
Definition dup_species : list nat := [1; 1; 8]%nat.
Definition dup_el (j : nat) : nat := if (j <? 2)%nat then 0%nat else 1%nat.
Definition dup_input : input RNum := mkInput (N:=RNum) 1 [2%nat] [1%nat] [0%nat] [2%nat] [0; 0; 1/2] [1/2].

Lemma linear_1 v : linear 1 1 [1] v 0 = v 0%nat.
Proof. unfold linear, sum. cbn. rewrite sqrt_1. field. Qed.
Lemma sum_first n g : (forall i, (0 < i < S n)%nat -> g i = 0) -> sum (S n) g = g 0%nat.
Proof.
  intros H. unfold sum. cbn [seq map fold_right]. rewrite <- (Rplus_0_r (g 0%nat)) at 2. f_equal.
  rewrite <- (seq_shift n 0), map_map. change (sum n (fun i => g (S i)) = 0). apply sum_zero. intros i Hi. apply H. lia.
Qed.
Lemma dup_contraction x : contraction 3 16 0 dup_U (weight (order_weights 3 dup_W) 1 0) x = nth 0 x 0.
Proof.
  unfold contraction. rewrite sum_first.
  - change (fst (dup_U (0 + 1))) with 1%nat. rewrite sum_first by lia. change (weight (order_weights 3 dup_W) 1 0 (0 + 1) 0) with 1. change (16 ^ (0 + 1))%nat with 16%nat.
    rewrite sum_first.
    + change (vars 16 (0 + 1) 0 x) with (nth 0 x 0 * 1). cbn [Nat.mul Nat.add dup_U snd nth]. ring.
    + intros i Hi. replace (nth _ (snd (dup_U (0 + 1))) 0) with 0; [apply Rmult_0_l|]. symmetry.
      do 16 (destruct i as [|i]; [try lia; reflexivity|]). lia.
  - intros i Hi. assert (i = 1 \/ i = 2)%nat as [->| ->] by lia; reflexivity.
Qed.
Lemma dup_step : knot_step (t_r_cut dup_torch) 2 = 1.
Proof. unfold knot_step. cbn [t_r_cut dup_torch Nat.sub INR]. lra. Qed.
Lemma dup_cell : Z.to_nat (Int_part (1 / 2 / 1)) = 0%nat.
Proof. replace (Int_part (1 / 2 / 1)) with 0%Z; [reflexivity|]. symmetry. apply SplineR.Int_part_unique. cbn. lra. Qed.
Lemma dup_hermite g : (forall r, g r = 1) -> interpolant ex_spl (t_r_cut dup_torch) 2 g (1 / 2) = 1.
Proof.
  intros H. unfold interpolant. rewrite dup_step. unfold hermite. rewrite dup_cell. cbn [knots ex_spl snd map seq nth Nat.add INR]. rewrite !H. field.
Qed.
Lemma dup_torch_energy : torch_energy (ex_sph (N:=RNum)) ex_spl 2 dup_torch dup_el dup_input 0 = sqrt PI.
Proof.
  set (sph := ex_sph (N:=RNum)).
  assert (C0 : conv0 sph ex_spl 2 dup_torch dup_el dup_input 0 0 0 0 = 2 * sqrt PI * (1 / sqrt 2)).
  { unfold conv0, neighbours. cbn [dup_input i_num_neigh firstn list_sum fold_right nth seq map suml]. unfold radial, suml. cbn [map fold_right nb_r nb_type i_neigh_types i_neigh_indices i_xyz i_r nth dup_input].
    change (dup_el 2) with 1%nat. change (zi dup_el dup_input 0) with 1%nat. rewrite dup_hermite by reflexivity.
    change (Y sph dup_torch _ 0 0) with (2 * sqrt PI * 1).
    assert (U : up0 dup_torch 1 0 = 1 / sqrt 2).
    { unfold up0. cbn [t_num_channels t_linear_up0 t_atomic_numbers t_node_embedding dup_torch length]. rewrite linear_1. unfold linear, sum, one_hot. cbn [seq map fold_right Nat.eqb Nat.mul Nat.add nth].
      replace (INR 2) with 2 by (cbn; lra). f_equal. ring. }
    rewrite U. ring. }
  assert (M0' : message0 sph ex_spl 2 dup_torch dup_el dup_input RealAgnostic 0 0 0 0 = sqrt PI).
  { unfold message0, denominator. cbn [t_num_channels t_atomic_numbers t_skip_tp0 t_linear0 t_avg_num_neighbors0 dup_torch length nth is_density]. change (zi dup_el dup_input 0) with 1%nat.
    unfold with_element, sum. cbn [seq map fold_right]. unfold one_hot. cbn [Nat.eqb Nat.mul Nat.add nth]. rewrite linear_1, C0. replace (INR 2) with 2 by (cbn; lra).
    assert (S : sqrt 2 * sqrt 2 = 2) by (apply sqrt_sqrt; lra). assert (P : 0 < sqrt 2) by (apply sqrt_lt_R0; lra). apply Rmult_eq_reg_r with (sqrt 2 * sqrt 2); [|nra]. field_simplify; [|lra].
    replace (sqrt PI * sqrt 2 ^ 2) with (sqrt PI * (sqrt 2 * sqrt 2)) by ring. rewrite S. ring. }
  assert (F : feats0 sph ex_spl 2 dup_torch dup_el dup_input RealAgnostic 0 0 0 0 = sqrt PI).
  { unfold feats0. cbn [t_num_channels t_prod_linear0 dup_torch Nat.mul skipn]. rewrite linear_1. unfold product0. cbn [t_num_channels t_l_max dup_torch t_U0 t_W0]. change (zi dup_el dup_input 0) with 1%nat.
    change ((3 + 1) * (3 + 1))%nat with 16%nat. rewrite dup_contraction. exact M0'. }
  unfold torch_energy. cbn [t_interactions dup_torch]. change (pair_repulsion dup_torch dup_el dup_input 0) with 0.
  cbn [t_num_channels t_readout0 t_scale t_shift t_atomic_energies t_readout1_2 dup_torch]. change (zi dup_el dup_input 0) with 1%nat. rewrite linear_1, F. cbn [nth].
  unfold linear at 1. rewrite sum_zero; [|intros i Hi; replace (nth _ (repeat 0 16) 0) with 0; [apply Rmult_0_r|symmetry; do 16 (destruct i as [|i]; [reflexivity|]); lia]].
  rewrite zero_div. ring.
Qed.
Lemma dup_an : export_numbers dup_torch dup_species = dup_species.
Proof. reflexivity. Qed.
Lemma dup_node_energy C b0 b1 f : is_export ex_inv ex_spl 2 dup_torch C dup_species b0 b1 f -> file_ok f ->
  node_energy (ex_sph (N:=RNum)) f dup_input 0 = 0.
Proof.
  intros IE FO. set (sph := ex_sph (N:=RNum)).
  assert (KK : f_num_channels f = 1%nat) by (rewrite (ie_K _ _ _ _ _ _ _ _ _ IE); reflexivity).
  assert (LL : f_l_max f = 3%nat) by (rewrite (ie_l _ _ _ _ _ _ _ _ _ IE); reflexivity).
  assert (TT : length (f_atomic_numbers f) = 3%nat) by (rewrite (ie_an _ _ _ _ _ _ _ _ _ IE); reflexivity).
  assert (RR : forall l k, (l < 4)%nat -> (k < 1)%nat -> radial0 f 2 2 (1 / 2) l k = 0).
  { intros l k Hl Hk. assert (k = 0%nat) by lia. subst k. unfold radial0. rewrite TT, KK, (ie_h _ _ _ _ _ _ _ _ _ IE), (ie_R0v _ _ _ _ _ _ _ _ _ IE), (ie_R0d _ _ _ _ _ _ _ _ _ IE).
    cbn [t_l_max t_num_channels dup_torch]. change (t_rad0 dup_torch) with dup_rad.
    change (pair_entry [] 3 (map (xRv dup_torch 2 ((3 + 1) * 1) dup_rad) (export_pairs dup_species)) 2 2) with (xRv dup_torch 2 4 dup_rad (1, 8)%nat).
    change (pair_entry [] 3 (map (xRd ex_spl dup_torch 2 ((3 + 1) * 1) dup_rad) (export_pairs dup_species)) 2 2) with (xRd ex_spl dup_torch 2 4 dup_rad (1, 8)%nat).
    rewrite dup_step. unfold hermite. rewrite dup_cell. destruct l as [|[|[|[|l]]]]; [| | | |lia]; cbn; ring. }
  assert (A : forall l m k, A0 sph f dup_input 0 l m k = 0 \/ (4 <= l)%nat).
  { intros l m k. destruct (le_lt_dec 4 l) as [|Hl]; [right; assumption|left]. unfold A0. rewrite sum_zero; [apply zero_div|]. intros q Hq. rewrite KK in Hq. unfold Phi0, neighbours, suml.
    cbn [dup_input i_num_neigh i_neigh_types i_neigh_indices i_xyz i_r firstn list_sum fold_right nth seq map nb_r nb_type]. change (tp dup_input 0) with 2%nat. rewrite RR by lia. ring. }
  assert (M : forall k, (k < f_num_channels f)%nat -> M0 sph f dup_input 0 0 0 k = 0).
  { intros k Hk. unfold M0. eapply poly_zero.
    - intros a Ha. unfold all_lm in Ha. apply in_flat_map in Ha. destruct Ha as (l & Hl & Ha). apply in_map_iff in Ha. destruct Ha as (m & E & _). rewrite <- E. rewrite LL in Hl. apply in_seq in Hl. destruct (A l m k); [assumption|lia].
    - refine (proj1 (fo_M0 _ FO (tp dup_input 0) _ k _ _ Hk)); [rewrite TT; cbn; lia|cbn; lia]. }
  assert (H : forall k, H1 sph f dup_input 0 0 0 k = 0) by (intros k; unfold H1; apply sum_zero; intros q Hq; rewrite M by exact Hq; apply Rmult_0_l).
  unfold node_energy. replace (repulsion f dup_input 0) with 0 by (unfold repulsion; pose proof (ie_zbl _ _ _ _ _ _ _ _ _ IE) as Z; cbn in Z; rewrite Z; reflexivity).
  rewrite (sum_zero (f_num_channels f)) by (intros k _; rewrite H; apply Rmult_0_r).
  rewrite (sum_zero 16).
  - rewrite (ie_E _ _ _ _ _ _ _ _ _ IE). cbn. ring.
  - intros j Hj. rewrite (ie_r3 _ _ _ _ _ _ _ _ _ IE). replace (nth j (export_readout_2_2 (N:=RNum) dup_torch) 0) with 0; [apply Rmult_0_l|]. symmetry.
    unfold export_readout_2_2. cbn [t_readout1_2 t_scale dup_torch]. rewrite sqrt_nat.
    assert (Z : 0 / sqrt (INR 16) * 1 = 0) by (rewrite zero_div; ring).
    do 16 (destruct j as [|j]; [exact Z|]). lia.
Qed.

Lemma lemma_C67_duplicates : exists rank inv spl t C, torch_ok t C /\ spl_ok spl /\ inv_ok rank inv /\ (t_num_channels t <= rank (t_num_channels t) (fused t))%nat /\
  exists species points, incl species (t_atomic_numbers t) /\ (2 <= points)%nat /\ 1 / 10 ^ 12 < t_r_cut t /\
  exists f, extract_mace_data rank inv spl t species points = Some f /\ file_ok f /\ f_atomic_numbers f = species /\
  exists sph, sph_ok (N:=RNum) sph /\ forall srt, (forall l, Permutation l (srt l)) ->
  exists el, (forall j, (j < length (f_atomic_numbers f))%nat -> (el j < length (t_atomic_numbers t))%nat /\ nth (el j) (t_atomic_numbers t) 0%nat = nth j (f_atomic_numbers f) 0%nat) /\
  exists x, input_ok f x /\ (forall r, In r (i_r x) -> 0 <= r < t_r_cut t - 1 / 10 ^ 12) /\
  exists m c0 c, load_from_json srt f = Some (m, c0) /\ call sph m c0 x = Some c /\
    b_node_energies c <> map (torch_energy sph spl points t el x) (seq 0 (i_num_nodes x)).
Proof.
  assert (HI : incl (export_numbers dup_torch dup_species) (t_atomic_numbers dup_torch)).
  { rewrite dup_an. intros a [<-|[<-|[<-|[]]]]; cbn; auto. }
  assert (P12 : 0 < 1 / 10 ^ 12) by (apply Rdiv_lt_0_compat; [lra|apply pow_lt; lra]).
  assert (Hr : 1 / 10 ^ 12 < t_r_cut dup_torch) by (cbn [t_r_cut dup_torch]; lra).
  destruct (export_file ex_rank ex_inv ex_spl dup_torch ex_C dup_torch_ok ex_spl_ok dup_rank_ok dup_species 2 HI) as (b0 & b1 & f & EB & EF & IE).
  assert (Hne : export_numbers dup_torch dup_species <> []) by discriminate.
  assert (HL : (length (export_numbers dup_torch dup_species) * (length (export_numbers dup_torch dup_species) + 1) / 2 <= length (export_pairs (export_numbers dup_torch dup_species)))%nat) by (cbn; lia).
  assert (FO : file_ok f) by (apply (export_file_ok ex_rank ex_inv ex_spl dup_torch ex_C dup_torch_ok ex_spl_ok dup_rank_ok dup_species 2 HI Hne HL) with (b0 := b0) (b1 := b1); [lia|exact IE]).
  assert (MO : monomials_once f) by (apply (export_once ex_rank ex_inv ex_spl dup_torch ex_C dup_torch_ok dup_rank_ok dup_species 2 HI Hne HL ltac:(lia) b0 b1 f IE)).
  exists ex_rank, ex_inv, ex_spl, dup_torch, ex_C. split; [apply dup_torch_ok|]. split; [apply ex_spl_ok|]. split; [apply ex_inv_ok|]. split; [apply dup_rank_ok|].
  exists dup_species, 2%nat. split; [exact HI|]. split; [lia|]. split; [exact Hr|]. exists f. split; [exact EF|]. split; [exact FO|].
  assert (EA : f_atomic_numbers f = dup_species) by (rewrite (ie_an _ _ _ _ _ _ _ _ _ IE); reflexivity). split; [exact EA|].
  exists (ex_sph (N:=RNum)). split; [apply ex_sph_ok|]. intros srt Hsrt. exists dup_el. split.
  { rewrite EA. intros j Hj. cbn in Hj. destruct j as [|[|[|j]]]; [cbn; lia..|lia]. }
  assert (D : forall r, In r (i_r dup_input) -> 0 <= r < t_r_cut dup_torch - 1 / 10 ^ 12) by (intros r [<-|[]]; cbn [t_r_cut dup_torch]; lra).
  assert (HX : input_ok f dup_input).
  { constructor; try reflexivity.
    - rewrite EA. intros t [<-|[]]. cbn. lia.
    - rewrite EA. intros t [<-|[]]. cbn. lia.
    - intros j [<-|[]]. cbn. lia.
    - intros r Hr'. apply (export_domain ex_inv ex_spl dup_torch ex_C _ 2 b0 b1 f ex_spl_ok ltac:(lia) Hr IE). apply D. exact Hr'. }
  exists dup_input. split; [exact HX|]. split; [exact D|].
  assert (HN : knot_step (t_r_cut dup_torch) 2 <> 0) by (rewrite dup_step; lra).
  destruct (lemma_C65 (ex_sph (N:=RNum)) (ex_sph_ok (N:=RNum)) srt Hsrt f FO MO) with (hist := @nil (input RNum)) (x := dup_input) as (m & c0 & c1 & c2 & E1 & E2 & E3 & E4); auto.
  - rewrite (ie_h _ _ _ _ _ _ _ _ _ IE). exact HN.
  - rewrite (ie_A0s _ _ _ _ _ _ _ _ _ IE). intros Eb. destruct (ie_D0 _ _ _ _ _ _ _ _ _ IE Eb) as (-> & _). exact HN.
  - rewrite (ie_A1s _ _ _ _ _ _ _ _ _ IE). intros Eb. destruct (ie_D1 _ _ _ _ _ _ _ _ _ IE Eb) as (-> & _). exact HN.
  - exists m, c0, c2. split; [exact E1|]. cbn in E2. injection E2 as <-. split; [exact E3|]. rewrite E4. change (i_num_nodes dup_input) with 1%nat. cbn [seq map].
    rewrite (dup_node_energy ex_C b0 b1 f); [|exact IE|exact FO]. rewrite dup_torch_energy. intros Q. injection Q as Q. pose proof (sqrt_lt_R0 PI PI_RGT_0). lra.
Qed.
