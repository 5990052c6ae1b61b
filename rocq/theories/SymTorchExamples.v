(** A PyTorch model with equivariant tensors for the example beside C76: the model [ex_torch] with
    U for l = 0: x_0 and x_1 x_1 + x_2 x_2 + x_3 x_3; U for l = 1: x_{1+m} and x_0 x_{1+m}; couplings by the identity and the dot product. *)
From Coq Require Import List Arith ZArith Lia Bool Permutation Sorted Reals Lra.
From Verif Require Import Base BaseLemmas Instances RSums MlpSpec MpSpec MaceModel MaceSpec MaceSpec2 MaceExamples MaceGradSpec GradExamples ExportModel ExportSpec ExportPolySpec EnergySpec EnergyProofs ExportSubset
  ExportFullModel TorchSpec ExportFullThms TorchGradSpec ExportForces ExportFullExamples ExportGradExamples SymSpec TorchSymSpec SymProofs SymForces SymExamples.
Import ListNotations.
Local Open Scope R_scope.

(** an array of n numbers, one at the positions ps and zero elsewhere *)
Definition ones (ps : list nat) (n : nat) : nat * list R := (1%nat, map (fun p => if existsb (Nat.eqb p) ps then 1 else 0) (seq 0 n)).
Definition sym_U (L corr : nat) : nat * list R :=
  match corr, L with
  | 1%nat, 0%nat => ones [0]%nat 16
  | 2%nat, 0%nat => ones [16 * 1 + 1; 16 * 2 + 2; 16 * 3 + 3]%nat 256
  | 1%nat, _ => ones [1; 16 + 2; 2 * 16 + 3]%nat 48
  | 2%nat, _ => ones [1; 256 + 2; 2 * 256 + 3]%nat 768
  | _, _ => (0%nat, [])
  end.
Definition sym_W : list (list (list (list R))) * list (list (list R)) := ([ex_w; ex_w], [[]; []]).
Definition sym_C (le m m1 m2 : nat) : R := if (if (le =? 1) then (m1 =? m2) else (m =? m1))%nat then 1 else 0.
Definition sym_torch : torch_model RNum :=
  mkTorch (N:=RNum) [RealAgnosticDensity; RealAgnosticDensityResidual] 3 1 2 5 [1; 8]%nat [-1; -2] (1/2) 3
    (Some (Some (mkZblP (N:=RNum) (3/10) (1/2) [1; 2; 3; 4] [1; 1/3; 1; 1; 1; 1; 1; 1; 2/3] 6)))
    (fun a b r => map (fun c => INR (a + b + c) + r) (seq 0 8)) (fun a b r => map (fun c => INR (a * b + c) * r) (seq 0 10))
    (fun a b r => INR (a + b) * r) (fun a b r => r)
    [1; 2; 3; 4] [1; -1; 2; 0] [[1; 0; 0; 1]; [2; 1; 0; 1]; [1; 1; 1; 0]; [0; 1; 1; 3]]
    (repeat [1; 2; 3; 4; 5; 6; 7; 8] 4) 7
    3 sym_U (fun _ => sym_W)
    [1; 2; 3; 4; 5; 6; 7; 9] [2; 1; 1; 1; 1; 0; 0; 1]
    ex_paths (uvu 2 ex_paths sym_C)
    [[1; 2; 3; 4; 5; 6; 7; 8]; [1; 0; 0; 1]; [1; 0; 0; 2]; [3; 0; 0; 1]] 11
    (sym_U 0) sym_W
    [1; 2; 2; 1] [1; 2; 3; 4; 5; 6; 7; 8] [1; -3] (map INR (seq 0 32)) (map INR (seq 1 16)) (3/2).

Lemma ones_small ps n : no_small (ones ps n).
Proof. intros u H. cbn [ones snd] in H. apply in_map_iff in H. destruct H as (p & <- & _). destruct (existsb _ _); [right; apply one_large|left; reflexivity]. Qed.
Lemma sym_small L corr : no_small (sym_U L corr).
Proof. unfold sym_U. destruct corr as [|[|[|corr]]]; destruct L; try apply ones_small; intros u []. Qed.
Lemma ones_length ps n : length (snd (ones ps n)) = n.
Proof. cbn [ones snd]. rewrite map_length, seq_length. reflexivity. Qed.
Lemma sym_shapes L : (L <= 1)%nat -> shapes_ok (2 * L + 1) 16 3 2 2 (sym_U L) (order_weights 3 sym_W).
Proof.
  intros HL. constructor.
  - intros corr H. assert (L = 0 \/ L = 1)%nat as [->| ->] by lia; assert (corr = 1 \/ corr = 2 \/ corr = 3)%nat as [->|[->| ->]] by lia; cbn [sym_U];
      try (rewrite ones_length; reflexivity); cbn [snd fst length]; rewrite Nat.mul_0_r; reflexivity.
  - intros corr H. assert (L = 0 \/ L = 1)%nat as [->| ->] by lia; assert (corr = 1 \/ corr = 2 \/ corr = 3)%nat as [->|[->| ->]] by lia; reflexivity.
  - intros corr z H Hz. assert (corr = 1 \/ corr = 2 \/ corr = 3)%nat as [->|[->| ->]] by lia; assert (L = 0 \/ L = 1)%nat as [->| ->] by lia; (destruct z as [|[|z]]; [reflexivity|reflexivity|lia]).
  - intros corr z eta H Hz He. assert (corr = 1 \/ corr = 2 \/ corr = 3)%nat as [->|[->| ->]] by lia; assert (L = 0 \/ L = 1)%nat as [->| ->] by lia; cbn in He; try lia;
    (assert (eta = 0%nat) by lia; subst; destruct z as [|[|z]]; [reflexivity|reflexivity|lia]).
Qed.
Lemma sym_torch_ok : torch_ok sym_torch sym_C.
Proof.
  destruct ex_torch_ok. constructor; try assumption.
  - intros l Hl. split; [reflexivity|]. split; [apply sym_shapes; exact Hl|]. intros corr _. apply sym_small.
  - intros H Y W _ _ _. reflexivity.
  - intros le m m1 m2. unfold sym_C. destruct (le =? 1)%nat; [destruct (m1 =? m2)%nat|destruct (m =? m1)%nat]; [right; apply one_large|left; reflexivity|right; apply one_large|left; reflexivity].
  - split; [reflexivity|]. split; [apply (sym_shapes 0); lia|]. intros corr _. apply sym_small.
Qed.
Lemma sym_rank_ok : (t_num_channels sym_torch <= ex_rank (t_num_channels sym_torch) (fused sym_torch))%nat.
Proof. exact ex_rank_ok. Qed.
Lemma sym_repulsion : repulsion_smooth sym_torch.
Proof. exact ex_repulsion. Qed.
Lemma sym_cut : 1 / 10 ^ 12 < t_r_cut sym_torch.
Proof. exact ex_cut. Qed.
Lemma sym_regular el x : (forall r, In r (i_r x) -> 0 < r <= 4) -> regular ex_spl 3 sym_torch el x.
Proof. intros H. destruct (ex_regular el x H). constructor; assumption. Qed.
Lemma sym_export : exists f, extract_mace_data ex_rank ex_inv ex_spl sym_torch [] 3 = Some f /\ f_atomic_numbers f = [1; 8]%nat /\ forall r, 0 <= r <= 4 -> in_domain f r.
Proof.
  destruct (lemma_C67 ex_rank ex_inv ex_spl sym_torch sym_C sym_torch_ok ex_spl_ok ex_inv_ok sym_rank_ok [] 3 (NoDup_nil _) (fun a H => match H with end) ltac:(lia) sym_cut) as (f & E & _ & D & S & P & _).
  exists f. split; [exact E|]. split.
  - cbn in P. pose proof (Permutation_length P) as L. destruct (f_atomic_numbers f) as [|a [|b [|c l]]]; try discriminate L.
    inversion S as [|? ? _ F]; subst. inversion F; subst.
    assert (A := Permutation_in a P (or_introl eq_refl)). assert (B := Permutation_in b P (or_intror (or_introl eq_refl))). cbn in A, B.
    destruct A as [<-|[<-|[]]], B as [<-|[<-|[]]]; try lia. reflexivity.
  - intros r Hr. apply D. split; [apply Hr|]. apply ex_cut4, Hr.
Qed.

(** the sum over an array of ones and zeros *)
Lemma ones_sum ps rows n row v : NoDup ps -> (row < rows)%nat ->
  sum n (fun c => nth ((row * n + c) * 1 + 0) (snd (ones ps (rows * n))) 0 * v c) = suml ps (fun p => if ((row * n <=? p) && (p <? row * n + n))%bool%nat then v (p - row * n)%nat else 0).
Proof.
  intros ND Hr. transitivity (sum n (fun c => if existsb (Nat.eqb (row * n + c)) ps then v c else 0)).
  { apply sum_eq. intros c Hc. rewrite Nat.mul_1_r, Nat.add_0_r. cbn [ones snd].
    rewrite (nth_indep _ 0 (if existsb (Nat.eqb 0) ps then 1 else 0)) by (rewrite map_length, seq_length; nia).
    rewrite (map_nth (fun p => if existsb (Nat.eqb p) ps then 1 else 0)), seq_nth by nia. cbn [Nat.add]. destruct (existsb _ ps); ring. }
  induction ND as [|p qs Hn ND IH].
  - cbn [existsb suml map fold_right]. unfold suml. cbn. rewrite sum_rsum. apply rsum_0. reflexivity.
  - unfold suml. cbn [map fold_right]. fold (suml qs (fun p => if ((row * n <=? p) && (p <? row * n + n))%bool%nat then v (p - row * n)%nat else 0)). rewrite <- IH.
    transitivity (sum n (fun c => (if (c =? p - row * n)%nat && (row * n <=? p)%nat then v c else 0) + (if existsb (Nat.eqb (row * n + c)) qs then v c else 0))%bool).
    + apply sum_eq. intros c Hc. cbn [existsb]. destruct (Nat.eqb_spec (row * n + c) p) as [E|E].
      * subst p. assert (X : existsb (Nat.eqb (row * n + c)) qs = false).
        { destruct (existsb _ qs) eqn:X; [|reflexivity]. apply existsb_exists in X. destruct X as (y & Hy & E). apply Nat.eqb_eq in E. subst y. contradiction. }
        rewrite X. replace (row * n + c - row * n)%nat with c by lia. rewrite Nat.eqb_refl. replace (row * n <=? row * n + c)%nat with true by (symmetry; apply Nat.leb_le; lia). cbn. ring.
      * replace ((c =? p - row * n) && (row * n <=? p))%bool%nat with false; [cbn [orb]; ring|]. symmetry. apply andb_false_iff.
        destruct (Nat.leb_spec (row * n) p); [left; apply Nat.eqb_neq; lia|right; reflexivity].
    + rewrite sum_plus. f_equal. destruct (Nat.leb_spec (row * n) p) as [H1|H1]; [destruct (Nat.ltb_spec p (row * n + n)) as [H2|H2]|]; cbn [andb].
      * rewrite sum_rsum, (rsum_single n (p - row * n)%nat); [rewrite Nat.eqb_refl; reflexivity|lia|]. intros c Hc Hne. apply Nat.eqb_neq in Hne. rewrite Hne. reflexivity.
      * rewrite sum_rsum. apply rsum_0. intros c Hc. replace (c =? p - row * n)%nat with false by (symmetry; apply Nat.eqb_neq; lia). reflexivity.
      * rewrite sum_rsum. apply rsum_0. intros c Hc. rewrite andb_false_r. reflexivity.
Qed.

Lemma sum1 h : sum 1 h = h 0%nat.
Proof. unfold sum. cbn [seq map fold_right]. ring. Qed.
Lemma contract_ones ps qs n1 n2 rows row U W x : U 1%nat = ones ps n1 -> U 2%nat = ones qs n2 -> U 3%nat = (0%nat, []) -> NoDup ps -> NoDup qs ->
  (row < rows)%nat -> n1 = (rows * 16)%nat -> n2 = (rows * 256)%nat ->
  contraction 3 16 row U W x =
    W 1%nat 0%nat * suml ps (fun p => if ((row * 16 <=? p) && (p <? row * 16 + 16))%bool%nat then vars 16 1 (p - row * 16) x else 0) +
    W 2%nat 0%nat * suml qs (fun p => if ((row * 256 <=? p) && (p <? row * 256 + 256))%bool%nat then vars 16 2 (p - row * 256) x else 0).
Proof.
  intros E1 E2 E3 N1 N2 Hr -> ->. rewrite <- (ones_sum ps rows 16 row (fun c => vars 16 1 c x) N1 Hr), <- (ones_sum qs rows 256 row (fun c => vars 16 2 c x) N2 Hr).
  unfold contraction. rewrite sum3. change (0 + 1)%nat with 1%nat. change (1 + 1)%nat with 2%nat. change (2 + 1)%nat with 3%nat. rewrite E1, E2, E3.
  cbn [fst ones]. rewrite !sum1. change (16 ^ 1)%nat with 16%nat. change (16 ^ 2)%nat with 256%nat. unfold sum at 3. cbn [seq map fold_right]. ring.
Qed.
Ltac nd := repeat constructor; cbn [In]; intuition lia.
Lemma sym_contract0 W x : contraction 3 16 0 (sym_U 0) W x = W 1%nat 0%nat * nth 0 x 0 + W 2%nat 0%nat * (nth 1 x 0 * nth 1 x 0 + nth 2 x 0 * nth 2 x 0 + nth 3 x 0 * nth 3 x 0).
Proof.
  rewrite (contract_ones [0%nat] [17; 34; 51]%nat 16 256 1 0) by (try reflexivity; try lia; nd).
  unfold suml, vars, digit. cbn. ring.
Qed.
Lemma sym_contract1 M W x : (M < 3)%nat -> contraction 3 16 M (sym_U 1) W x = W 1%nat 0%nat * nth (1 + M) x 0 + W 2%nat 0%nat * (nth 0 x 0 * nth (1 + M) x 0).
Proof.
  intros HM. rewrite (contract_ones [1; 18; 35]%nat [1; 258; 515]%nat 48 768 3 M) by (try reflexivity; try lia; nd).
  destruct M as [|[|[|M]]]; [| | |lia]; unfold suml, vars, digit; cbn; ring.
Qed.
Lemma sym_degree (a : nat -> nat -> R) : exists y, by_degree 3 a = [a 0%nat 0%nat; a 1%nat 0%nat; a 1%nat 1%nat; a 1%nat 2%nat] ++ y.
Proof. eexists. reflexivity. Qed.
Lemma turn0 F : turn sym_D F 0 0 = F 0%nat 0%nat.
Proof. unfold turn. change (2 * 0 + 1)%nat with 1%nat. rewrite sum1. cbn [sym_D]. ring. Qed.
Lemma turn1 F M : turn sym_D F 1 M = sym_g M 0 * F 1%nat 0%nat + sym_g M 1 * F 1%nat 1%nat + sym_g M 2 * F 1%nat 2%nat.
Proof. unfold turn. change (2 * 1 + 1)%nat with 3%nat. rewrite sum3. reflexivity. Qed.
Lemma sym_torch_equivariant : torch_equivariant (ex_sph (N:=RNum)) sym_torch sym_C sym_g sym_D.
Proof.
  constructor.
  - reflexivity.
  - intros x y z l m _ Hl Hm. change (l <= 3)%nat in Hl. cbv zeta. change (t_l_max sym_torch) with 3%nat. unfold turn, sum.
    destruct l as [|[|[|[|l]]]]; [| | | |lia].
    + assert (m = 0)%nat by lia. subst. cbn. ring.
    + do 3 (destruct m as [|m]; [cbn; unfold sym_g; cbn; lra|]). lia.
    + do 5 (destruct m as [|m]; [cbn; lra|]). lia.
    + do 7 (destruct m as [|m]; [cbn; lra|]). lia.
  - intros L M W a HL HM. change (L <= 1)%nat in HL. change ((t_l_max sym_torch + 1) * (t_l_max sym_torch + 1))%nat with 16%nat. change (t_l_max sym_torch) with 3%nat.
    change (t_U0 sym_torch) with sym_U. destruct (sym_degree a) as (y & E). destruct (sym_degree (turn sym_D a)) as (y' & E'). rewrite E'.
    destruct L as [|[|L]]; [| |lia].
    + assert (M = 0)%nat by lia. subst. rewrite (turn0 (fun L M => contraction 3 16 M (sym_U L) W (by_degree 3 a))), E, !sym_contract0. unfold turn, sum, sym_D, sym_g. cbn. field.
    + rewrite (turn1 (fun L M => contraction 3 16 M (sym_U L) W (by_degree 3 a))), E, !sym_contract1 by lia. do 3 (destruct M as [|M]; [unfold turn, sum, sym_D, sym_g; cbn; field|]). lia.
  - intros W a. change ((t_l_max sym_torch + 1) * (t_l_max sym_torch + 1))%nat with 16%nat. change (t_l_max sym_torch) with 3%nat. change (t_U1 sym_torch) with (sym_U 0).
    destruct (sym_degree a) as (y & E). destruct (sym_degree (turn sym_D a)) as (y' & E'). rewrite E, E', !sym_contract0. unfold turn, sum, sym_D, sym_g. cbn. field.
  - intros le l l1 l2 Hle E m m1 m2 Hm H1 H2. change (le < 5)%nat in Hle. change (t_paths sym_torch) with ex_paths in E.
    destruct le as [|[|[|[|[|le]]]]]; [| | | | |lia]; cbn in E; injection E as <- <- <-.
    + assert (m = 0 /\ m1 = 0 /\ m2 = 0)%nat as (-> & -> & ->) by lia. unfold sum, sym_D, sym_C. cbn. ring.
    + assert (m = 0)%nat as -> by lia. do 3 (destruct m1 as [|m1]; [do 3 (destruct m2 as [|m2]; [unfold sum, sym_D, sym_C, sym_g; cbn; lra|]); lia|]). lia.
    + assert (m2 = 0)%nat as -> by lia. do 3 (destruct m1 as [|m1]; [do 3 (destruct m as [|m]; [unfold sum, sym_D, sym_C, sym_g; cbn; lra|]); lia|]). lia.
    + assert (m2 = 0)%nat as -> by lia. do 5 (destruct m1 as [|m1]; [do 5 (destruct m as [|m]; [unfold sum, sym_D, sym_C, sym_g; cbn; lra|]); lia|]). lia.
    + assert (m2 = 0)%nat as -> by lia. do 7 (destruct m1 as [|m1]; [do 7 (destruct m as [|m]; [unfold sum, sym_D, sym_C, sym_g; cbn; lra|]); lia|]). lia.
Qed.
