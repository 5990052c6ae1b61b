(** The complete export: it succeeds, the file is well formed, and its energies are those of the model. *)
From Coq Require Import List Arith ZArith Lia Bool Permutation Sorted Reals Lra.
From Verif Require Import Base BaseLemmas Instances RSums RList MlpSpec MpSpec MaceModel MaceSpec MaceSpec2 ExportModel ExportSpec ExportProofs ExportPolyModel ExportPolySpec ExportPoly ExportPolyThms
  EnergySpec EnergyProofs ExportFullModel TorchSpec ExportFullPre ExportFullParts ExportFullCoupling ExportFullEnergy SplineR SplineProofs.
Import ListNotations.
Local Open Scope R_scope.

Lemma sorted_lt l : NoDup l -> StronglySorted lt (sorted l).
Proof.
  intros H. assert (ND : NoDup (sorted l)) by (eapply Permutation_NoDup; [apply perm_sorted|exact H]). pose proof (incr_sorted l) as I.
  revert ND I. generalize (sorted l). clear. induction l as [|a l IH]; intros ND I; [constructor|]. destruct I as [I1 I2]. inversion ND; subst. constructor; [apply IH; auto|].
  apply Forall_forall. intros b Hb. specialize (I1 b Hb). assert (a <> b) by (intros ->; contradiction). lia.
Qed.
Lemma numbers_ok t C species : torch_ok t C -> NoDup species -> incl species (t_atomic_numbers t) ->
  let an := export_numbers t species in
  StronglySorted lt an /\ incl an (t_atomic_numbers t) /\ an <> [] /\ Permutation an (match species with [] => t_atomic_numbers t | _ => species end).
Proof.
  intros HT ND HI an. assert (E : an = sorted (match species with [] => t_atomic_numbers t | _ => species end)).
  { unfold an, export_numbers. destruct species as [|a s]; [reflexivity|]. destruct (sorted (a :: s)) as [|b l] eqn:E; [|reflexivity].
    pose proof (Permutation_length (perm_sorted (a :: s))) as L. rewrite E in L. discriminate. }
  rewrite E. set (l := match species with [] => t_atomic_numbers t | _ => species end).
  assert (H : NoDup l /\ incl l (t_atomic_numbers t) /\ l <> []).
  { unfold l. destruct species; [split; [apply (to_mn t C HT)|split; [apply incl_refl|apply (to_n t C HT)]]|]. split; [exact ND|split; [exact HI|discriminate]]. }
  destruct H as (H1 & H2 & H3). split; [apply sorted_lt; exact H1|]. split; [|split].
  - intros a Ha. apply H2. eapply Permutation_in; [apply Permutation_sym, perm_sorted|exact Ha].
  - intros E0. apply H3. apply Permutation_nil. rewrite <- E0. apply Permutation_sym, perm_sorted.
  - apply Permutation_sym, perm_sorted.
Qed.

Section Thms.
Variables (rank : nat -> list R -> nat) (inv : nat -> list R -> list R) (spl : list R -> list R -> list R * list R).
Variable t : torch_model RNum.
Variable C : nat -> nat -> nat -> nat -> R.
Hypothesis HT : torch_ok t C.
Hypothesis Hspl : spl_ok spl.
Hypothesis Hinv : inv_ok rank inv.
Hypothesis Hrank : (t_num_channels t <= rank (t_num_channels t) (fused t))%nat.
Variable species : list nat.
Variable points : nat.
Notation an := (export_numbers t species).
Notation mn := (t_atomic_numbers t).
Notation n := (length (t_atomic_numbers t)).
Notation K := (t_num_channels t).

Lemma lm_split L q : (q < (L + 1) * (L + 1))%nat -> exists l m, (l <= L)%nat /\ (m < 2 * l + 1)%nat /\ q = (l * l + m)%nat.
Proof.
  intros H. exists (Nat.sqrt q), (q - Nat.sqrt q * Nat.sqrt q)%nat. pose proof (Nat.sqrt_spec q ltac:(lia)) as [A B].
  assert (Nat.sqrt q < L + 1)%nat by nia. split; [lia|]. split; [nia|lia].
Qed.
Lemma el_of j : incl an mn -> (j < length an)%nat -> exists z, (z < n)%nat /\ nth z mn 0%nat = nth j an 0%nat.
Proof. intros HI Hj. destruct (In_nth mn (nth j an 0%nat) 0%nat) as (z & Hz & E); [apply HI, nth_In, Hj|]. exists z; auto. Qed.

Lemma export_file : incl an mn -> exists b0 b1 f, t_interactions t = [b0; b1] /\ extract_mace_data rank inv spl t species points = Some f /\ is_export inv spl points t C an b0 b1 f.
Proof.
  intros HI. destruct (to_blocks t C HT) as (b0 & b1 & EB & H0 & H1). exists b0, b1. unfold extract_mace_data. rewrite EB, H0, H1.
  replace (t_l_max t =? 3)%nat with true by (rewrite (to_l t C HT); reflexivity). cbn [negb].
  cbv zeta.
  rewrite (energies_ok t C HT an HI). cbn [bind].
  rewrite !(ExportFullParts.radial_ok spl t Hspl an HI). rewrite (H0_ok t C HT an HI). rewrite (A0_ok t C HT an HI). rewrite (H1_ok t C HT), (coupling_ok t C HT), (A1_ok t C HT).
  rewrite (H2_ok rank inv t an HI Hrank), (r1_ok inv t C HT), (r2_ok t C HT). rewrite (to_corr0 t C HT).
  destruct (lemma_M0 K (t_l_max t) (t_L_max t) mn an (t_U0 t) (t_W0 t) (to_mn t C HT) HI) as (C0 & M0 & E0 & LC0 & LM0 & P0).
  { intros l Hl. destruct (to_M0 t C HT l Hl) as (A & B & _). split; assumption. }
  rewrite E0. destruct (to_M1 t C HT) as (A1' & B1 & D1).
  destruct (lemma_M1 K (t_l_max t) mn an (t_U1 t) (t_W1 t) (to_mn t C HT) HI A1' B1) as (C1 & M1 & E1 & LC1 & P1). rewrite E1.
  set (xD := fun (b : block) g => if is_density b then (map (xDv t points g) (export_pairs an), map (xDd spl t points g) (export_pairs an)) else ([], [])).
  assert (ED : forall b g, (if is_density b then export_density spl t an points g else Some ([], [])) = Some (xD b g)).
  { intros b g. unfold xD. destruct (is_density b); [apply density_ok'; auto|reflexivity]. }
  rewrite !ED.
  assert (PM0 : forall j z L M k, (j < length an)%nat -> (z < n)%nat -> nth z mn 0%nat = nth j an 0%nat -> (L <= t_L_max t)%nat -> (M < 2 * L + 1)%nat -> (k < K)%nat ->
    poly_of ((t_l_max t + 1) * (t_l_max t + 1)) (nth k (nth (L * L + M) (nth j C0 []) []) []) (nth (L * L + M) M0 [])
      (contraction 3 ((t_l_max t + 1) * (t_l_max t + 1)) M (t_U0 t L) (weight (order_weights 3 (t_W0 t L)) z k))).
  { intros j z L M k Hj Hz Ez HL HM Hk. destruct (P0 j z Hj Hz Ez) as [_ Q]. destruct (Q L M HL HM) as [_ Q']. destruct (Q' k Hk) as (Q1 & Q2 & Q3 & Q4 & Q5).
    split; [exact Q1|]. split; [exact Q2|]. split; [exact Q3|]. split; [exact Q4|]. intros y. rewrite Q5. apply contraction_cut. apply (to_M0 t C HT L HL). }
  assert (PM1 : forall j z k, (j < length an)%nat -> (z < n)%nat -> nth z mn 0%nat = nth j an 0%nat -> (k < K)%nat ->
    poly_of ((t_l_max t + 1) * (t_l_max t + 1)) (nth k (nth j C1 []) []) M1 (contraction 3 ((t_l_max t + 1) * (t_l_max t + 1)) 0 (t_U1 t) (weight (order_weights 3 (t_W1 t)) z k))).
  { intros j z k Hj Hz Ez Hk. destruct (P1 j z Hj Hz Ez) as [_ Q]. destruct (Q k Hk) as (Q1 & Q2 & Q3 & Q4 & Q5).
    split; [exact Q1|]. split; [exact Q2|]. split; [exact Q3|]. split; [exact Q4|]. intros y. rewrite Q5. apply contraction_cut. exact D1. }
  pose proof (to_zbl t C HT) as HZ. destruct (t_zbl t) as [[zp|]|] eqn:EZ; [|destruct HZ|]; cbn [bind]; cbv beta iota zeta; cbn [bind fst snd]; cbv beta iota zeta; (eexists; split; [reflexivity|split; [reflexivity|]]).
  all: constructor; cbn [f_num_channels f_l_max f_L_max f_atomic_numbers f_atomic_energies f_has_zbl f_zbl_a_exp f_zbl_a_prefactor f_zbl_c f_zbl_covalent_radii f_zbl_p
    f_radial_spline_h f_radial_spline_values_0 f_radial_spline_derivs_0 f_radial_spline_values_1 f_radial_spline_derivs_1 f_H0_weights f_A0_weights f_A0_scaled f_A0_spline_h
    f_A0_spline_values f_A0_spline_derivs f_M0_weights f_M0_monomials f_H1_weights f_Phi1_l f_Phi1_l1 f_Phi1_l2 f_Phi1_lme f_Phi1_clebsch_gordan f_Phi1_lelm1lm2 f_A1_weights
    f_A1_scaled f_A1_spline_h f_A1_spline_values f_A1_spline_derivs f_M1_weights f_M1_monomials f_H2_weights_for_H1 f_H2_weights_for_M1 f_readout_1_weights
    f_readout_2_weights_1 f_readout_2_weights_2 f_readout_2_scale_factor fst snd].
  all: try reflexivity; try exact PM0; try exact PM1; try apply step_knots.
  all: try (rewrite EZ; repeat split; fail).
  all: try (intros Eb; unfold xD; rewrite !Eb; cbn [fst snd]; split; [apply step_knots|split; reflexivity]).
Qed.

(** the file is well formed *)
Section File.
Hypothesis HI : incl an mn.
Hypothesis Hne : an <> [].
Hypothesis Hlen : (length an * (length an + 1) / 2 <= length (export_pairs an))%nat.
Hypothesis Hpts : (1 <= points)%nat.
Variables b0 b1 : block.
Variable f : mace_file RNum.
Hypothesis IE : is_export inv spl points t C an b0 b1 f.
Lemma radial_file cols g : MaceSpec.radial_ok (N:=RNum) (length an) cols (map (xRv t points cols g) (export_pairs an)) (map (xRd spl t points cols g) (export_pairs an)).
Proof.
  unfold MaceSpec.radial_ok. rewrite !map_length. split; [exact Hlen|]. split; [reflexivity|].
  intros q Hq. exists points. split; [exact Hpts|].
  assert (E : nth_error (export_pairs an) q <> None) by (apply nth_error_Some; exact Hq). destruct (nth_error (export_pairs an) q) as [p|] eqn:Ep; [|contradiction]. clear E.
  assert (N : forall (G : nat * nat -> list (list R)), nth q (map G (export_pairs an)) [] = G p).
  { intros G. apply nth_error_nth. rewrite nth_error_map, Ep. reflexivity. }
  rewrite !N. unfold xRv, xRd. rewrite !map_length, !seq_length. split; [reflexivity|]. split; [reflexivity|].
  split; intros row Hr; apply in_map_iff in Hr; destruct Hr as (k & <- & _); apply (vals_ok spl t Hspl points).
Qed.
Lemma density_file g : MaceSpec.density_ok (N:=RNum) (length an) (map (xDv t points g) (export_pairs an)) (map (xDd spl t points g) (export_pairs an)).
Proof.
  unfold MaceSpec.density_ok. rewrite !map_length. split; [exact Hlen|]. split; [reflexivity|].
  intros q Hq.
  assert (E : nth_error (export_pairs an) q <> None) by (apply nth_error_Some; exact Hq). destruct (nth_error (export_pairs an) q) as [p|] eqn:Ep; [|contradiction]. clear E.
  assert (N : forall (G : nat * nat -> list R), nth q (map G (export_pairs an)) [] = G p).
  { intros G. apply nth_error_nth. rewrite nth_error_map, Ep. reflexivity. }
  rewrite !N. unfold xDv, xDd. destruct (vals_ok spl t Hspl points (g (ix t (fst p)) (ix t (snd p)))) as (_ & E2 & E3).
  split; [eapply Nat.le_trans; [exact Hpts|apply Nat.eq_le_incl; symmetry; exact E3]|etransitivity; [exact E2|symmetry; exact E3]].
Qed.
Lemma export_file_ok : file_ok f.
Proof.
  assert (LC : length (f_Phi1_clebsch_gordan f) = length (xcoupling t C)) by (rewrite (ie_cg _ _ _ _ _ _ _ _ _ IE); apply map_length).
  constructor; rewrite ?(ie_K _ _ _ _ _ _ _ _ _ IE), ?(ie_l _ _ _ _ _ _ _ _ _ IE), ?(ie_L _ _ _ _ _ _ _ _ _ IE), ?(ie_an _ _ _ _ _ _ _ _ _ IE), ?(ie_pl _ _ _ _ _ _ _ _ _ IE), ?(ie_p1 _ _ _ _ _ _ _ _ _ IE), ?(ie_p2 _ _ _ _ _ _ _ _ _ IE), ?LC.
  - apply (to_K t C HT).
  - destruct an; [contradiction|cbn; lia].
  - rewrite (ie_E _ _ _ _ _ _ _ _ _ IE). unfold xE. rewrite map_length. lia.
  - intros Hz. pose proof (ie_zbl _ _ _ _ _ _ _ _ _ IE) as Z. pose proof (to_zbl t C HT) as HZ. destruct (t_zbl t) as [[zp|]|]; [|destruct HZ|congruence].
    destruct Z as (_ & _ & _ & E3 & E4 & _). rewrite E3, E4, map_length. split; [|apply HZ]. intros a Ha. apply HZ. apply HI. exact Ha.
  - rewrite (ie_R0v _ _ _ _ _ _ _ _ _ IE), (ie_R0d _ _ _ _ _ _ _ _ _ IE). apply radial_file.
  - rewrite (ie_R1v _ _ _ _ _ _ _ _ _ IE), (ie_R1d _ _ _ _ _ _ _ _ _ IE). rewrite map_length. apply radial_file.
  - rewrite (ie_H0 _ _ _ _ _ _ _ _ _ IE), length_xH0 by exact HI. lia.
  - rewrite (ie_A0 _ _ _ _ _ _ _ _ _ IE). unfold xA0. rewrite map_length. split; [lia|]. intros j Hj.
    set (g := fun a => map (xA0l t (is_density b0) a) (seq 0 (t_l_max t + 1))). assert (E : nth j (map g an) [] = g (nth j an 0%nat)).
    { rewrite (nth_indep _ [] (g 0%nat)) by (rewrite map_length; exact Hj). apply (map_nth g). }
    change (carrier RNum) with R. rewrite E. unfold g. rewrite map_length, seq_length. split; [lia|]. intros l Hl. rewrite nth_map_seq by lia. unfold xA0l. rewrite length_mdiv, length_matmul. lia.
  - rewrite (ie_A0s _ _ _ _ _ _ _ _ _ IE). intros Eb. destruct (ie_D0 _ _ _ _ _ _ _ _ _ IE Eb) as (_ & -> & ->). apply density_file.
  - intros a lm k Ha Hlm Hk. destruct (el_of a HI Ha) as (z & Hz & Ez). destruct (lm_split _ _ Hlm) as (L & M & HL & HM & ->).
    destruct (ie_M0 _ _ _ _ _ _ _ _ _ IE a z L M k Ha Hz Ez HL HM Hk) as (Q1 & Q2 & _). split; assumption.
  - rewrite (ie_H1 _ _ _ _ _ _ _ _ _ IE), length_xH1. lia.
  - rewrite !map_length. lia.
  - rewrite !map_length. lia.
  - intros l Hl. apply (to_all_l t C HT). exact Hl.
  - intros l Hl. apply (to_all_l t C HT). exact Hl.
  - intros q Hq. rewrite map_length in Hq. rewrite nth_L1. apply (pl_le t C HT q Hq).
  - intros q Hq. rewrite map_length in Hq. rewrite nth_L2. apply (pl_le t C HT q Hq).
  - rewrite (ie_lme _ _ _ _ _ _ _ _ _ IE), map_length. lia.
  - rewrite (ie_lel _ _ _ _ _ _ _ _ _ IE), map_length. lia.
  - intros p Hp. rewrite (ie_lme _ _ _ _ _ _ _ _ _ IE). rewrite (map_nth (fun e : nat * R * nat => fst (fst e)) (xcoupling t C) (0%nat, 0, 0%nat)). apply (entry_range t C HT). apply nth_In. exact Hp.
  - intros p Hp. rewrite (ie_lel _ _ _ _ _ _ _ _ _ IE). rewrite (map_nth (@snd (nat * R) nat) (xcoupling t C) (0%nat, 0, 0%nat)), map_length. apply (entry_range t C HT). apply nth_In. exact Hp.
  - rewrite (ie_A1 _ _ _ _ _ _ _ _ _ IE). unfold xA1. rewrite map_length, seq_length. split; [lia|]. intros l Hl.
    change (carrier RNum) with R. rewrite nth_map_seq by lia. rewrite (length_xA1l t C HT) by exact Hl.
    pose proof (npaths_eq t f (ie_pl _ _ _ _ _ _ _ _ _ IE) l) as Q. unfold npaths in Q. rewrite (ie_pl _ _ _ _ _ _ _ _ _ IE) in Q. rewrite Q. lia.
  - rewrite (ie_A1s _ _ _ _ _ _ _ _ _ IE). intros Eb. destruct (ie_D1 _ _ _ _ _ _ _ _ _ IE Eb) as (_ & -> & ->). apply density_file.
  - intros a k Ha Hk. destruct (el_of a HI Ha) as (z & Hz & Ez). destruct (ie_M1 _ _ _ _ _ _ _ _ _ IE a z k Ha Hz Ez Hk) as (Q1 & Q2 & _). split; assumption.
  - rewrite (ie_H2 _ _ _ _ _ _ _ _ _ IE). unfold xH2. rewrite map_length. split; [lia|]. intros j Hj.
    set (g := fun a => matmul (N:=RNum) K K K (inv K (fused t)) (mdiv (N:=RNum) (middle (N:=RNum) K n K (ix t a) (t_skip_tp1 t)) (sqrt (INR (n * K))))). assert (E : nth j (map g an) [] = g (nth j an 0%nat)).
    { rewrite (nth_indep _ [] (g 0%nat)) by (rewrite map_length; exact Hj). apply (map_nth g). }
    change (carrier RNum) with R in *. rewrite E. unfold g. rewrite length_matmul. lia.
  - rewrite (ie_H2M _ _ _ _ _ _ _ _ _ IE). unfold export_H2_M1. apply Nat.eq_le_incl. symmetry. etransitivity; [exact (length_mdiv (t_prod_linear1 t) (nsqrt (n:=RNum) (nofnat K)))|exact (to_prod1 t C HT)].
  - rewrite (ie_r1 _ _ _ _ _ _ _ _ _ IE). unfold xr1. rewrite map_length, length_matmul. lia.
  - rewrite (ie_r2 _ _ _ _ _ _ _ _ _ IE). apply (length_xr2 rank t Hrank).
  - rewrite (ie_r3 _ _ _ _ _ _ _ _ _ IE). unfold export_readout_2_2. rewrite map_length. apply (to_r2 t C HT).
Qed.
Lemma export_once : monomials_once f.
Proof.
  pose proof (to_K t C HT) as HK.
  assert (Ha : (0 < length an)%nat) by (destruct an; [contradiction|cbn; lia]). destruct (el_of 0 HI Ha) as (z & Hz & Ez). split.
  - intros lm Hlm. rewrite (ie_L _ _ _ _ _ _ _ _ _ IE) in Hlm. destruct (lm_split _ _ Hlm) as (L & M & HL & HM & ->).
    apply (ie_M0 _ _ _ _ _ _ _ _ _ IE 0%nat z L M 0%nat Ha Hz Ez HL HM HK).
  - apply (ie_M1 _ _ _ _ _ _ _ _ _ IE 0%nat z 0%nat Ha Hz Ez HK).
Qed.
End File.
End Thms.

Lemma step_pos rc points : (2 <= points)%nat -> 1 / 10 ^ 12 < rc -> 0 < knot_step rc points.
Proof.
  intros Hp Hr. unfold knot_step. assert (0 < INR (points - 1)) by (apply lt_0_INR; lia). apply Rdiv_lt_0_compat; lra.
Qed.
Lemma export_domain inv spl t C an points b0 b1 f : spl_ok spl -> (2 <= points)%nat -> 1 / 10 ^ 12 < t_r_cut t -> is_export inv spl points t C an b0 b1 f ->
  forall r, 0 <= r < t_r_cut t - 1 / 10 ^ 12 -> in_domain f r.
Proof.
  intros Hspl Hp Hr IE r Hrr. pose proof (step_pos _ _ Hp Hr) as Hh. set (h := knot_step (t_r_cut t) points) in *.
  assert (D : in_cells (N:=RNum) h points r).
  { unfold in_cells. change (ntrunc (ndiv (n:=RNum) r h)) with (Rtrunc (r / h)). destruct (cell_exists h r Hh ltac:(lra)) as (i & Hi). rewrite (trunc_cell h r i Hh Hi).
    assert (L : (i < points - 1)%nat).
    { apply (cell_lt h r i (points - 1) Hh Hi). assert (E : INR (points - 1) * h = t_r_cut t - 1 / 10 ^ 12); [|lra]. unfold h, knot_step. field. apply not_0_INR. lia. }
    lia. }
  assert (R : forall cols g v row, In v (map (xRv t points cols g) (export_pairs an)) -> In row v -> in_cells (N:=RNum) h (length row) r).
  { intros cols g v row Hv Hrow. apply in_map_iff in Hv. destruct Hv as (p & <- & _). unfold xRv in Hrow. apply in_map_iff in Hrow. destruct Hrow as (k & <- & _).
    unfold vals. rewrite map_length, length_knots. exact D. }
  assert (R' : forall g row, In row (map (xDv t points g) (export_pairs an)) -> in_cells (N:=RNum) h (length row) r).
  { intros g row Hrow. apply in_map_iff in Hrow. destruct Hrow as (p & <- & _). unfold xDv, vals. rewrite map_length, length_knots. exact D. }
  unfold in_domain. rewrite (ie_h _ _ _ _ _ _ _ _ _ IE), (ie_R0v _ _ _ _ _ _ _ _ _ IE), (ie_R1v _ _ _ _ _ _ _ _ _ IE), (ie_A0s _ _ _ _ _ _ _ _ _ IE), (ie_A1s _ _ _ _ _ _ _ _ _ IE).
  fold h. split; [apply R|]. split; [apply R|]. split.
  - intros Eb. destruct (ie_D0 _ _ _ _ _ _ _ _ _ IE Eb) as (-> & -> & _). apply R'.
  - intros Eb. destruct (ie_D1 _ _ _ _ _ _ _ _ _ IE Eb) as (-> & -> & _). apply R'.
Qed.
Lemma lemma_C67 : forall rank inv spl t C, torch_ok t C -> spl_ok spl -> inv_ok rank inv -> (t_num_channels t <= rank (t_num_channels t) (fused t))%nat ->
  forall species points, NoDup species -> incl species (t_atomic_numbers t) -> (2 <= points)%nat -> 1 / 10 ^ 12 < t_r_cut t ->
  exists f, extract_mace_data rank inv spl t species points = Some f /\ file_ok f /\ (forall r, 0 <= r < t_r_cut t - 1 / 10 ^ 12 -> in_domain f r) /\
    StronglySorted lt (f_atomic_numbers f) /\ Permutation (f_atomic_numbers f) (match species with [] => t_atomic_numbers t | _ => species end) /\
    forall sph, sph_ok (N:=RNum) sph -> forall srt, (forall l, Permutation l (srt l)) ->
    forall el, (forall j, (j < length (f_atomic_numbers f))%nat -> (el j < length (t_atomic_numbers t))%nat /\ nth (el j) (t_atomic_numbers t) 0%nat = nth j (f_atomic_numbers f) 0%nat) ->
    forall hist x, List.Forall (input_ok f) hist -> input_ok f x ->
    exists m c0 c1 c2, load_from_json srt f = Some (m, c0) /\ calls sph m c0 hist = Some c1 /\ call sph m c1 x = Some c2 /\
      b_node_energies c2 = map (torch_energy sph spl points t el x) (seq 0 (i_num_nodes x)).
Proof.
  intros rank inv spl t C HT Hspl Hinv Hrank species points HND HIS Hpts Hr.
  destruct (numbers_ok t C species HT HND HIS) as (HS & HI & Hne & HP).
  destruct (export_file rank inv spl t C HT Hspl Hrank species points HI) as (b0 & b1 & f & EB & EF & IE). exists f. split; [exact EF|].
  assert (HL : (length (export_numbers t species) * (length (export_numbers t species) + 1) / 2 <= length (export_pairs (export_numbers t species)))%nat)
    by (rewrite (export_pairs_eq _ HS), map_length, upairs_length; lia).
  assert (FO : file_ok f) by (apply (export_file_ok rank inv spl t C HT Hspl Hrank species points HI Hne HL) with (b0 := b0) (b1 := b1); [lia|exact IE]).
  assert (MO : monomials_once f) by (apply (export_once rank inv spl t C HT Hrank species points HI Hne HL ltac:(lia) b0 b1 f IE)).
  split; [exact FO|]. split; [exact (export_domain inv spl t C _ points b0 b1 f Hspl Hpts Hr IE)|]. rewrite (ie_an _ _ _ _ _ _ _ _ _ IE). split; [exact HS|]. split; [exact HP|].
  intros sph Hsph srt Hsrt el Hel hist x HH HX. assert (HN : knot_step (t_r_cut t) points <> 0) by (apply Rgt_not_eq, step_pos; assumption).
  destruct (lemma_C65 sph Hsph srt Hsrt f FO MO) with (hist := hist) (x := x) as (m & c0 & c1 & c2 & E1 & E2 & E3 & E4); auto.
  - rewrite (ie_h _ _ _ _ _ _ _ _ _ IE). exact HN.
  - rewrite (ie_A0s _ _ _ _ _ _ _ _ _ IE). intros Eb. destruct (ie_D0 _ _ _ _ _ _ _ _ _ IE Eb) as (-> & _). exact HN.
  - rewrite (ie_A1s _ _ _ _ _ _ _ _ _ IE). intros Eb. destruct (ie_D1 _ _ _ _ _ _ _ _ _ IE Eb) as (-> & _). exact HN.
  - exists m, c0, c1, c2. split; [exact E1|]. split; [exact E2|]. split; [exact E3|]. rewrite E4. apply map_ext_in. intros i Hi. apply in_seq in Hi.
    apply (energy_eq rank inv spl sph t C HT (export_numbers t species) HS HI points Hinv Hrank b0 b1 f IE x HX el Hel i EB). lia.
Qed.

(** ** models that are refused *)
Lemma py_index_none l a : ~ In a l -> py_index l a = None.
Proof. induction l as [|b l IH]; intros H; [reflexivity|]. cbn [py_index]. destruct (Nat.eqb_spec b a) as [->|]; [exfalso; apply H; left; reflexivity|]. rewrite IH; [reflexivity|]. intros Q. apply H. right. exact Q. Qed.
Lemma bind_none {A B} (a : option A) (g : A -> option B) : (forall v, a = Some v -> g v = None) -> bind a g = None.
Proof. destruct a as [v|]; [|reflexivity]. intros H. exact (H v eq_refl). Qed.
Lemma lemma_C68_shape : forall rank inv spl (t : torch_model RNum) species points,
  (~ (exists b0 b1, t_interactions t = [b0; b1] /\ is_first b0 = true /\ is_second b1 = true) \/ t_l_max t <> 3%nat \/ t_zbl t = Some None \/
   (exists a, In a species /\ ~ In a (t_atomic_numbers t)) \/ (length (t_interactions t) = 2%nat /\ (rank (t_num_channels t) (fused t) < t_num_channels t)%nat)) ->
  extract_mace_data rank inv spl t species points = None.
Proof.
  intros rank inv spl t species points H. unfold extract_mace_data. destruct (t_interactions t) as [|b0 [|b1 [|b2 bs]]] eqn:EB; try reflexivity.
  destruct (is_first b0) eqn:E0; [|reflexivity]. destruct (is_second b1) eqn:E1; [|reflexivity]. destruct (Nat.eqb_spec (t_l_max t) 3) as [El|]; [|reflexivity]. cbn [negb]. cbv zeta.
  destruct H as [H|[H|[H|[H|[_ H]]]]].
  - exfalso. apply H. eauto.
  - contradiction.
  - rewrite H. apply bind_none. intros E HE. reflexivity.
  - destruct H as (a & Ha & Hn). assert (EE : export_energies t (export_numbers t species) = None); [|rewrite EE; reflexivity].
    apply (append_all_none _ _ a).
    + unfold export_numbers. assert (In a (sorted species)) by (eapply Permutation_in; [apply perm_sorted|exact Ha]). destruct (sorted species); [contradiction|assumption].
    + assert (EP : py_index (t_atomic_numbers t) a = None); [|rewrite EP; reflexivity].
      apply py_index_none. exact Hn.
  - assert (EH : forall an, export_H2_H1 rank inv t an = None).
    { intros an. unfold export_H2_H1. cbv zeta. rewrite sqrt_nat. replace (rank (t_num_channels t) _ <? t_num_channels t)%nat with true; [reflexivity|]. symmetry. apply Nat.ltb_lt. exact H. }
    repeat (apply bind_none; intros ? _). destruct v0 as [[[[[hz ae] ap] cc] rr] pp].
    repeat match goal with |- bind ?a _ = None => lazymatch a with export_H2_H1 _ _ _ _ => fail | _ => apply bind_none; intros ? _ end end. rewrite EH. reflexivity.
Qed.
