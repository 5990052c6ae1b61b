(** Stage by stage, the energy formula of an exported file is the energy of the model before fusing. *)
From Coq Require Import List Arith ZArith Lia Bool Permutation Sorted Reals Lra.
From Verif Require Import Base BaseLemmas Instances RSums RList MlpSpec MaceModel MaceSpec MaceSpec2 ExportModel ExportSpec ExportProofs ExportPolyModel ExportPolySpec ExportPoly ExportPolyThms
  EnergySpec EnergyProofs ExportFullModel TorchSpec ExportFullPre ExportFullParts ExportFullCoupling.
Import ListNotations.
Local Open Scope R_scope.

(** the contents of an exported file *)
Record is_export (inv : nat -> list R -> list R) (spl : list R -> list R -> list R * list R) (points : nat)
    (t : torch_model RNum) (C : nat -> nat -> nat -> nat -> R) (an : list nat) (b0 b1 : block) (f : mace_file RNum) : Prop := {
  ie_K : f_num_channels f = t_num_channels t;
  ie_l : f_l_max f = t_l_max t;
  ie_L : f_L_max f = t_L_max t;
  ie_an : f_atomic_numbers f = an;
  ie_E : f_atomic_energies f = xE t an;
  ie_zbl : match t_zbl t with
           | Some (Some zp) => f_has_zbl f = true /\ f_zbl_a_exp f = zp_a_exp zp /\ f_zbl_a_prefactor f = zp_a_prefactor zp /\
               f_zbl_c f = map (fun c => t_scale t * c) (zp_c zp) /\ f_zbl_covalent_radii f = zp_covalent_radii zp /\ f_zbl_p f = zp_p zp
           | _ => f_has_zbl f = false
           end;
  ie_h : f_radial_spline_h f = knot_step (t_r_cut t) points;
  ie_R0v : f_radial_spline_values_0 f = map (xRv t points ((t_l_max t + 1) * t_num_channels t) (t_rad0 t)) (export_pairs an);
  ie_R0d : f_radial_spline_derivs_0 f = map (xRd spl t points ((t_l_max t + 1) * t_num_channels t) (t_rad0 t)) (export_pairs an);
  ie_R1v : f_radial_spline_values_1 f = map (xRv t points (length (t_paths t) * t_num_channels t) (t_rad1 t)) (export_pairs an);
  ie_R1d : f_radial_spline_derivs_1 f = map (xRd spl t points (length (t_paths t) * t_num_channels t) (t_rad1 t)) (export_pairs an);
  ie_H0 : f_H0_weights f = xH0 t an;
  ie_A0 : f_A0_weights f = xA0 t an (is_density b0);
  ie_A0s : f_A0_scaled f = is_density b0;
  ie_D0 : is_density b0 = true -> f_A0_spline_h f = knot_step (t_r_cut t) points /\ f_A0_spline_values f = map (xDv t points (t_dens0 t)) (export_pairs an) /\
    f_A0_spline_derivs f = map (xDd spl t points (t_dens0 t)) (export_pairs an);
  ie_M0 : forall j z L M k, (j < length an)%nat -> (z < length (t_atomic_numbers t))%nat -> nth z (t_atomic_numbers t) 0%nat = nth j an 0%nat ->
    (L <= t_L_max t)%nat -> (M < 2 * L + 1)%nat -> (k < t_num_channels t)%nat ->
    poly_of ((t_l_max t + 1) * (t_l_max t + 1)) (f_M0_weights f j (L * L + M)%nat k) (f_M0_monomials f (L * L + M)%nat)
      (contraction 3 ((t_l_max t + 1) * (t_l_max t + 1)) M (t_U0 t L) (weight (order_weights 3 (t_W0 t L)) z k));
  ie_H1 : f_H1_weights f = xH1 t;
  ie_pl : f_Phi1_l f = map (fun p => fst (fst p)) (t_paths t);
  ie_p1 : f_Phi1_l1 f = map (fun p => snd (fst p)) (t_paths t);
  ie_p2 : f_Phi1_l2 f = map snd (t_paths t);
  ie_lme : f_Phi1_lme f = map (fun e => fst (fst e)) (xcoupling t C);
  ie_cg : f_Phi1_clebsch_gordan f = map (fun e => snd (fst e)) (xcoupling t C);
  ie_lel : f_Phi1_lelm1lm2 f = map snd (xcoupling t C);
  ie_A1 : f_A1_weights f = xA1 t (is_density b1);
  ie_A1s : f_A1_scaled f = is_density b1;
  ie_D1 : is_density b1 = true -> f_A1_spline_h f = knot_step (t_r_cut t) points /\ f_A1_spline_values f = map (xDv t points (t_dens1 t)) (export_pairs an) /\
    f_A1_spline_derivs f = map (xDd spl t points (t_dens1 t)) (export_pairs an);
  ie_M1 : forall j z k, (j < length an)%nat -> (z < length (t_atomic_numbers t))%nat -> nth z (t_atomic_numbers t) 0%nat = nth j an 0%nat -> (k < t_num_channels t)%nat ->
    poly_of ((t_l_max t + 1) * (t_l_max t + 1)) (f_M1_weights f j k) (f_M1_monomials f)
      (contraction 3 ((t_l_max t + 1) * (t_l_max t + 1)) 0 (t_U1 t) (weight (order_weights 3 (t_W1 t)) z k));
  ie_H2 : f_H2_weights_for_H1 f = xH2 inv t an;
  ie_H2M : f_H2_weights_for_M1 f = export_H2_M1 t;
  ie_r1 : f_readout_1_weights f = xr1 inv t;
  ie_r2 : f_readout_2_weights_1 f = xr2 t;
  ie_r3 : f_readout_2_weights_2 f = export_readout_2_2 t;
  ie_cst : f_readout_2_scale_factor f = t_cst t
}.

Lemma suml_ext {A} (l : list A) g h : (forall a, In a l -> g a = h a) -> suml l g = suml l h.
Proof. intros H. unfold suml. f_equal. apply map_ext_in. exact H. Qed.
Lemma by_degree_ext {A} L (g h : nat -> nat -> A) : (forall l m, (l <= L)%nat -> (m < 2 * l + 1)%nat -> g l m = h l m) -> by_degree L g = by_degree L h.
Proof.
  intros H. unfold by_degree. apply flat_map_ext_in. intros l Hl. apply in_seq in Hl. apply map_ext_in. intros m Hm. apply in_seq in Hm. apply H; lia.
Qed.

Section Energy.
Variables (rank : nat -> list R -> nat) (inv : nat -> list R -> list R) (spl : list R -> list R -> list R * list R).
Variable sph : nat -> R -> R -> R -> list R * list R.
Variable t : torch_model RNum.
Variable C : nat -> nat -> nat -> nat -> R.
Hypothesis HT : torch_ok t C.
Variable an : list nat.
Hypothesis Han : StronglySorted lt an.
Hypothesis Hinc : incl an (t_atomic_numbers t).
Variable points : nat.
Hypothesis Hinv : inv_ok rank inv.
Hypothesis Hrank : (t_num_channels t <= rank (t_num_channels t) (fused t))%nat.
Variables b0 b1 : block.
Variable f : mace_file RNum.
Hypothesis IE : is_export inv spl points t C an b0 b1 f.
Variable x : input RNum.
Hypothesis HX : input_ok f x.
Variable el : nat -> nat.
Notation mn := (t_atomic_numbers t).
Notation n := (length (t_atomic_numbers t)).
Notation K := (t_num_channels t).
Notation T := (length an).
Notation P := (length (t_paths t)).
Notation sK := (sqrt (INR K)).
Hypothesis Hel : forall j, (j < T)%nat -> (el j < n)%nat /\ nth (el j) mn 0%nat = nth j an 0%nat.
Notation R0 i := (tp x i).

Lemma el_ix j : (j < T)%nat -> ix t (nth j an 0%nat) = el j.
Proof. intros H. destruct (Hel j H) as [H1 H2]. apply (ix_el t C HT an j (el j) H H1 H2). Qed.
Lemma type_lt i : (i < i_num_nodes x)%nat -> (tp x i < T)%nat.
Proof.
  intros H. pose proof (io_ty f x HX (tp x i)) as Q. rewrite (ie_an _ _ _ _ _ _ _ _ _ IE) in Q. apply Q. unfold tp. apply nth_In. rewrite (io_types f x HX). exact H.
Qed.
Lemma firstn_sum i l : (i < length l)%nat -> (list_sum (firstn i l) + nth i l 0%nat <= list_sum l)%nat.
Proof. revert i. induction l as [|a l IH]; intros i H; [cbn in H; lia|]. destruct i as [|i]; cbn [firstn nth list_sum fold_right]; [cbn; lia|]. cbn in H. specialize (IH i ltac:(lia)). cbn in *. unfold list_sum in IH. lia. Qed.
Lemma nbr_ok i e : (i < i_num_nodes x)%nat -> In e (neighbours x i) -> (nb_type e < T)%nat /\ (nb_index e < i_num_nodes x)%nat.
Proof.
  intros Hi He. unfold neighbours in He. apply in_map_iff in He. destruct He as (p & <- & Hp). apply in_seq in Hp. cbn [nb_type nb_index].
  pose proof (firstn_sum i (i_num_neigh x)) as B. rewrite (io_nn f x HX) in B. specialize (B Hi). split.
  - pose proof (io_nty f x HX (nth p (i_neigh_types x) 0%nat)) as Q. rewrite (ie_an _ _ _ _ _ _ _ _ _ IE) in Q. apply Q. apply nth_In. rewrite (io_nt f x HX). lia.
  - apply (io_ix f x HX). apply nth_In. rewrite (io_idx f x HX). lia.
Qed.

(** radial functions *)
Lemma radial_tab cols (g : nat -> nat -> R -> list R) u v c r : (forall a b r, g a b r = g b a r) -> (u < T)%nat -> (v < T)%nat -> (c < cols)%nat ->
  hermite (f_radial_spline_h f) (nth c (pair_entry [] T (map (xRv t points cols g) (export_pairs an)) u v) [])
    (nth c (pair_entry [] T (map (xRd spl t points cols g) (export_pairs an)) u v) []) r =
  interpolant spl (t_r_cut t) points (fun r => nth c (g (el u) (el v) r) 0) r.
Proof.
  intros Hg Hu Hv Hc. rewrite !entry_pairs by auto. rewrite (ie_h _ _ _ _ _ _ _ _ _ IE). unfold xRv, xRd. rewrite !nth_map_seq by exact Hc. cbn [fst snd].
  rewrite !el_ix by lia.
  assert (E : forall r, nth c (g (el (Nat.min u v)) (el (Nat.max u v)) r) 0 = nth c (g (el u) (el v) r) 0).
  { intros r'. destruct (Nat.le_gt_cases u v); [rewrite Nat.min_l, Nat.max_r by lia; reflexivity|rewrite Nat.min_r, Nat.max_l by lia; rewrite Hg; reflexivity]. }
  assert (EV : vals t points (fun r => nth c (g (el (Nat.min u v)) (el (Nat.max u v)) r) 0) = vals t points (fun r => nth c (g (el u) (el v) r) 0)) by (unfold vals; apply map_ext; exact E).
  unfold interpolant, ders. rewrite EV. reflexivity.
Qed.
Lemma density_tab (g : nat -> nat -> R -> R) h u v r : (forall a b r, g a b r = g b a r) -> (u < T)%nat -> (v < T)%nat -> h = knot_step (t_r_cut t) points ->
  hermite h (pair_entry [] T (map (xDv t points g) (export_pairs an)) u v) (pair_entry [] T (map (xDd spl t points g) (export_pairs an)) u v) r =
  interpolant spl (t_r_cut t) points (g (el u) (el v)) r.
Proof.
  intros Hg Hu Hv ->. rewrite !entry_pairs by auto. unfold xDv, xDd. cbn [fst snd]. rewrite !el_ix by lia.
  assert (EV : vals t points (g (el (Nat.min u v)) (el (Nat.max u v))) = vals t points (g (el u) (el v))).
  { unfold vals. apply map_ext. intros r'. destruct (Nat.le_gt_cases u v); [rewrite Nat.min_l, Nat.max_r by lia; reflexivity|rewrite Nat.min_r, Nat.max_l by lia; apply Hg]. }
  unfold interpolant, ders. rewrite EV. reflexivity.
Qed.
Lemma radial0_eq u v r l k : (u < T)%nat -> (v < T)%nat -> (l <= t_l_max t)%nat -> (k < K)%nat ->
  radial0 f u v r l k = interpolant spl (t_r_cut t) points (fun r => nth (l * K + k) (t_rad0 t (el u) (el v) r) 0) r.
Proof.
  intros Hu Hv Hl Hk. unfold radial0. rewrite (ie_an _ _ _ _ _ _ _ _ _ IE), (ie_R0v _ _ _ _ _ _ _ _ _ IE), (ie_R0d _ _ _ _ _ _ _ _ _ IE), (ie_K _ _ _ _ _ _ _ _ _ IE).
  apply radial_tab; auto; [apply (to_rad0 t C HT)|nia].
Qed.
Lemma radial1_eq u v r le k : (u < T)%nat -> (v < T)%nat -> (le < P)%nat -> (k < K)%nat ->
  radial1 f u v r le k = interpolant spl (t_r_cut t) points (fun r => nth (le * K + k) (t_rad1 t (el u) (el v) r) 0) r.
Proof.
  intros Hu Hv Hl Hk. unfold radial1. rewrite (ie_an _ _ _ _ _ _ _ _ _ IE), (ie_R1v _ _ _ _ _ _ _ _ _ IE), (ie_R1d _ _ _ _ _ _ _ _ _ IE), (ie_K _ _ _ _ _ _ _ _ _ IE).
  apply radial_tab; auto; [apply (to_rad1 t C HT)|nia].
Qed.
Lemma Y_eq e l m : Ylm sph f e l m = Y sph t e l m.
Proof. unfold Ylm, Y. rewrite (ie_l _ _ _ _ _ _ _ _ _ IE). reflexivity. Qed.

(** layer 0 *)
Lemma conv0_eq i l m k : (i < i_num_nodes x)%nat -> (l <= t_l_max t)%nat -> (k < K)%nat -> Phi0 sph f x i l m k = conv0 sph spl points t el x i l m k.
Proof.
  intros Hi Hl Hk. unfold Phi0, conv0. apply suml_ext. intros e He. destruct (nbr_ok i e Hi He) as [Ht _]. destruct (Hel _ Ht) as [Q1 Q2].
  rewrite radial0_eq by (auto; apply type_lt; exact Hi). rewrite Y_eq, (ie_H0 _ _ _ _ _ _ _ _ _ IE), (ie_K _ _ _ _ _ _ _ _ _ IE).
  apply f_equal. exact (nth_H0 t C HT an Hinc (nb_type e) (el (nb_type e)) k Ht Q1 Q2 Hk).
Qed.
(** two linear maps in a row *)
Lemma two_maps a (v : nat -> R) (w1 : nat -> nat -> R) (w2 : nat -> R) c1 c2 c3 :
  rsum a (fun q => v q * (rsum a (fun u => w1 q u * / c1 * / c2 * w2 u) * / c3)) = rsum a (fun u => rsum a (fun q => v q * w1 q u) * / c1 * / c2 * w2 u) * / c3.
Proof.
  rewrite <- rsum_scal_r. rewrite (rsum_ext _ _ (fun q => rsum a (fun u => v q * w1 q u * / c1 * / c2 * w2 u * / c3))).
  2:{ intros q Hq. rewrite <- rsum_scal_r, <- rsum_scal_l. apply rsum_ext. intros u Hu. ring. }
  rewrite rsum_swap. apply rsum_ext. intros u Hu. rewrite <- !rsum_scal_r. reflexivity.
Qed.
Definition D (b : block) (dens : nat -> nat -> R -> R) (i : nat) : R :=
  if is_density b then 1 + suml (neighbours x i) (fun e => radial spl points t (dens (zi el x i) (el (nb_type e))) e) else 1.
Lemma den0 i : (i < i_num_nodes x)%nat -> (if f_A0_scaled f then 1 + suml (neighbours x i) (fun e => density0 f (tp x i) (nb_type e) (nb_r e)) else 1) = D b0 (t_dens0 t) i.
Proof.
  intros Hi. rewrite (ie_A0s _ _ _ _ _ _ _ _ _ IE). unfold D. destruct (is_density b0) eqn:Eb; [|reflexivity]. f_equal. apply suml_ext. intros e He.
  destruct (nbr_ok i e Hi He) as [Ht _]. destruct (ie_D0 _ _ _ _ _ _ _ _ _ IE Eb) as (Eh & Ev & Ed). unfold density0. rewrite (ie_an _ _ _ _ _ _ _ _ _ IE), Ev, Ed.
  apply density_tab; auto; [apply (to_dens0 t C HT)|apply type_lt; exact Hi].
Qed.
Lemma den1 i : (i < i_num_nodes x)%nat -> (if f_A1_scaled f then 1 + suml (neighbours x i) (fun e => density1 f (tp x i) (nb_type e) (nb_r e)) else 1) = D b1 (t_dens1 t) i.
Proof.
  intros Hi. rewrite (ie_A1s _ _ _ _ _ _ _ _ _ IE). unfold D. destruct (is_density b1) eqn:Eb; [|reflexivity]. f_equal. apply suml_ext. intros e He.
  destruct (nbr_ok i e Hi He) as [Ht _]. destruct (ie_D1 _ _ _ _ _ _ _ _ _ IE Eb) as (Eh & Ev & Ed). unfold density1. rewrite (ie_an _ _ _ _ _ _ _ _ _ IE), Ev, Ed.
  apply density_tab; auto; [apply (to_dens1 t C HT)|apply type_lt; exact Hi].
Qed.
Lemma denom b dens avg i : / (if is_density b then 1 else avg) * / D b dens i = / denominator spl points t el x b avg dens i.
Proof. unfold D, denominator. destruct (is_density b); rewrite Rinv_1; ring. Qed.
Lemma message0_eq i l m k : (i < i_num_nodes x)%nat -> (l <= t_l_max t)%nat -> (k < K)%nat -> A0 sph f x i l m k = message0 sph spl points t el x b0 i l m k.
Proof.
  intros Hi Hl Hk. unfold A0. rewrite den0 by exact Hi. unfold message0. pose proof (type_lt i Hi) as Ht. destruct (Hel _ Ht) as [Q1 Q2]. fold (zi el x i).
  rewrite (ie_K _ _ _ _ _ _ _ _ _ IE), (ie_A0 _ _ _ _ _ _ _ _ _ IE). rewrite with_element_r by exact Q1. rewrite sum_r. unfold Rdiv.
  rewrite (rsum_ext _ _ (fun q => conv0 sph spl points t el x i l m q * (rsum K (fun u => nth (q * K + u) (nth l (t_linear0 t) []) 0 * / sK * / (if is_density b0 then 1 else t_avg_num_neighbors0 t) *
     nth ((u * n + zi el x i) * K + k) (nth l (t_skip_tp0 t) []) 0) * / sqrt (INR (n * K))))).
  2:{ intros q Hq. rewrite conv0_eq by auto. f_equal. exact (nth_A0w t C HT an (is_density b0) (tp x i) (zi el x i) l q k Ht Q1 Q2 Hl Hq Hk). }
  rewrite (two_maps K (fun q => conv0 sph spl points t el x i l m q) (fun q u => nth (q * K + u) (nth l (t_linear0 t) []) 0) (fun u => nth ((u * n + zi el x i) * K + k) (nth l (t_skip_tp0 t) []) 0)).
  rewrite (Nat.mul_comm n K). rewrite Rmult_assoc, (Rmult_comm (/ sqrt _)), <- Rmult_assoc. f_equal. rewrite <- rsum_scal_r. apply rsum_ext. intros u Hu.
  rewrite linear_r. unfold Rdiv. rewrite <- (denom b0 (t_dens0 t)). change (carrier RNum) with R. ring.
Qed.
Lemma all_lm_eq g h : (forall l m, (l <= t_l_max t)%nat -> (m < 2 * l + 1)%nat -> g l m = h l m) -> all_lm f g = by_degree (t_l_max t) h.
Proof. intros H. unfold all_lm. rewrite (ie_l _ _ _ _ _ _ _ _ _ IE). apply by_degree_ext. exact H. Qed.
Lemma product0_eq i L M k : (i < i_num_nodes x)%nat -> (L <= t_L_max t)%nat -> (M < 2 * L + 1)%nat -> (k < K)%nat -> M0 sph f x i L M k = product0 sph spl points t el x b0 i L M k.
Proof.
  intros Hi HL HM Hk. unfold M0, product0. pose proof (type_lt i Hi) as Ht. destruct (Hel _ Ht) as [Q1 Q2].
  destruct (ie_M0 _ _ _ _ _ _ _ _ _ IE (tp x i) (zi el x i) L M k Ht Q1 Q2 HL HM Hk) as (_ & _ & _ & _ & E). rewrite E. f_equal. apply all_lm_eq. intros l m Hl Hm.
  apply message0_eq; auto.
Qed.
Lemma up1_eq i L M k : (i < i_num_nodes x)%nat -> (L <= t_L_max t)%nat -> (M < 2 * L + 1)%nat -> (k < K)%nat -> H1 sph f x i L M k = up1 sph spl points t el x b0 i L M k.
Proof.
  intros Hi HL HM Hk. unfold H1, up1. rewrite (ie_K _ _ _ _ _ _ _ _ _ IE), (ie_H1 _ _ _ _ _ _ _ _ _ IE), linear_r, sum_r. unfold Rdiv.
  rewrite (rsum_ext _ _ (fun q => product0 sph spl points t el x b0 i L M q * (rsum K (fun u => nth (q * K + u) (skipn (L * K * K) (t_prod_linear0 t)) 0 * / sK * / 1 *
     nth (u * K + k) (skipn (L * K * K) (t_linear_up1 t)) 0) * / sK))).
  2:{ intros q Hq. rewrite product0_eq by auto. f_equal. etransitivity; [exact (nth_H1w t L q k HL Hq Hk)|]. rewrite <- rsum_scal_r. apply rsum_ext. intros u Hu. rewrite Rinv_1. unfold Rdiv; change (carrier RNum) with R; ring. }
  rewrite (two_maps K (fun q => product0 sph spl points t el x b0 i L M q) (fun q u => nth (q * K + u) (skipn (L * K * K) (t_prod_linear0 t)) 0) (fun u => nth (u * K + k) (skipn (L * K * K) (t_linear_up1 t)) 0)).
  f_equal. apply rsum_ext. intros u Hu. unfold feats0. rewrite linear_r. unfold Rdiv. rewrite Rinv_1. change (carrier RNum) with R. ring.
Qed.

(** layer 1 *)
Lemma length_H_layout b j : length (H_layout sph spl points t el x b j) = ((t_L_max t + 1) * (t_L_max t + 1) * K)%nat.
Proof.
  unfold H_layout. rewrite length_by. rewrite (map_ext _ (fun L => (2 * L + 1) * K)%nat).
  - assert (E : forall L, list_sum (map (fun L => (2 * L + 1) * K)%nat (seq 0 L)) = (L * L * K)%nat); [|apply E].
    induction L as [|L IH]; [reflexivity|]. rewrite seq_S, map_app, list_sum_app, IH. cbn [map list_sum fold_right Nat.add]. lia.
  - intros L. rewrite (length_flat_map_const _ _ (2 * L + 1)) by (intros; rewrite map_length, seq_length; reflexivity). rewrite seq_length. lia.
Qed.
Lemma nth_H_layout b j L M k : (L <= t_L_max t)%nat -> (M < 2 * L + 1)%nat -> (k < K)%nat ->
  nth (L * L * K + k * (2 * L + 1) + M) (H_layout sph spl points t el x b j) 0 = up1 sph spl points t el x b j L M k.
Proof.
  intros HL HM Hk. unfold H_layout. set (g := fun L => flat_map (fun k => map (fun M => up1 sph spl points t el x b j L M k) (seq 0 (2 * L + 1))) (seq 0 K)).
  assert (LG : forall L, length (g L) = ((2 * L + 1) * K)%nat).
  { intros L'. unfold g. rewrite (length_flat_map_const _ _ (2 * L' + 1)) by (intros; rewrite map_length, seq_length; reflexivity). rewrite seq_length. lia. }
  rewrite <- Nat.add_assoc. rewrite (nth_by_offs g _ L (k * (2 * L + 1) + M) (L * L * K)); [|lia| |rewrite LG; nia].
  - unfold g. rewrite (nth_flat_rows (fun k => map (fun M => up1 sph spl points t el x b j L M k) (seq 0 (2 * L + 1))) (2 * L + 1) (seq 0 K) k M 0%nat).
    + rewrite seq_nth by exact Hk. rewrite nth_map_seq by exact HM. reflexivity.
    + intros; rewrite map_length, seq_length; reflexivity.
    + rewrite seq_length; exact Hk.
    + exact HM.
  - rewrite (map_ext _ (fun L => (2 * L + 1) * K)%nat LG). clear. induction L as [|L IH]; [reflexivity|]. rewrite seq_S, map_app, list_sum_app, <- IH. cbn [map list_sum fold_right Nat.add]. lia.
Qed.
Lemma conv1_eq i l m e k : (i < i_num_nodes x)%nat -> (l <= t_l_max t)%nat -> (m < 2 * l + 1)%nat -> (e < length (paths_of t l))%nat -> (k < K)%nat ->
  Phi1 sph f x i l m e k = conv1 sph spl points t el x b0 i (out_pos t (nth e (paths_of t l) 0%nat) k m).
Proof.
  intros Hi Hl Hm He Hk. destruct (path_at t C HT l e He) as (HP & Hd & _). set (le := nth e (paths_of t l) 0%nat) in *.
  pose proof (ie_pl _ _ _ _ _ _ _ _ _ IE) as Fl. pose proof (ie_p1 _ _ _ _ _ _ _ _ _ IE) as F1. pose proof (ie_p2 _ _ _ _ _ _ _ _ _ IE) as F2.
  unfold Phi1. etransitivity; [exact (coupling_sum t C HT f Fl F1 F2 (ie_lme _ _ _ _ _ _ _ _ _ IE) (ie_cg _ _ _ _ _ _ _ _ _ IE) (ie_lel _ _ _ _ _ _ _ _ _ IE) l m e
    (fun c => message sph f x i c k) Hl Hm He)|]. cbv zeta. fold le. unfold message.
  destruct (pl_le t C HT le HP) as (_ & B1 & B2). rewrite F1, F2, (nth_L1 t le), (nth_L2 t le).
  unfold conv1. rewrite suml_rl.
  transitivity (rl (neighbours x i) (fun e => rsum (2 * pl1 t le + 1) (fun m1 => rsum (2 * pl2 t le + 1) (fun m2 => C le m m1 m2 * (radial1 f (tp x i) (nb_type e) (nb_r e) le k * Ylm sph f e (pl1 t le) m1 *
     H1 sph f x (nb_index e) (pl2 t le) m2 k))))).
  { rewrite (rsum_ext _ _ (fun m1 => rl (neighbours x i) (fun e => rsum (2 * pl2 t le + 1) (fun m2 => C le m m1 m2 * (radial1 f (tp x i) (nb_type e) (nb_r e) le k * Ylm sph f e (pl1 t le) m1 *
      H1 sph f x (nb_index e) (pl2 t le) m2 k))))).
    - symmetry; apply rl_rsum_swap.
    - intros m1 _. rewrite rl_rsum_swap. apply rsum_ext. intros m2 _. rewrite suml_rl. symmetry. apply rl_scal. }
  apply rl_ext. intros e' He'. destruct (nbr_ok i e' Hi He') as [Ht Hj].
  rewrite (to_conv t C HT).
  2:{ apply length_H_layout. }
  2:{ unfold by_degree. rewrite length_by. rewrite (map_ext _ (fun l => 2 * l + 1)%nat) by (intros; rewrite map_length, seq_length; reflexivity). apply sum_odd. }
  2:{ rewrite map_length, seq_length. reflexivity. }
  rewrite (proj2 (uvu_block t C le _ _ _) k Hk m) by (try rewrite Hd; auto).
  rewrite nth_map_seq by nia. rewrite <- rsum_scal_l. apply rsum_ext. intros m1 Hm1. rewrite <- rsum_scal_l. apply rsum_ext. intros m2 Hm2.
  rewrite nth_by_degree by auto. rewrite nth_H_layout by auto. rewrite radial1_eq by (auto; apply type_lt; exact Hi). rewrite Y_eq, up1_eq by auto. unfold radial. fold (zi el x i). unfold zi, tp. ring.
Qed.
Lemma message1_eq i l m k : (i < i_num_nodes x)%nat -> (l <= t_l_max t)%nat -> (m < 2 * l + 1)%nat -> (k < K)%nat -> A1 sph f x i l m k = message1 sph spl points t el x b0 b1 i l m k.
Proof.
  intros Hi Hl Hm Hk. unfold A1. rewrite den1 by exact Hi. unfold message1. rewrite linear_r, (npaths_eq t f (ie_pl _ _ _ _ _ _ _ _ _ IE)).
  rewrite (ie_K _ _ _ _ _ _ _ _ _ IE), (ie_A1 _ _ _ _ _ _ _ _ _ IE). rewrite rsum_prod. rewrite sum_r.
  unfold Rdiv. rewrite <- (denom b1 (t_dens1 t)). rewrite <- Rmult_assoc. f_equal. rewrite <- !rsum_scal_r. apply rsum_ext. intros e He. rewrite sum_r. rewrite <- !rsum_scal_r. apply rsum_ext. intros q Hq.
  destruct (divK e K q Hq) as [-> ->]. rewrite conv1_eq by auto. rewrite !Rmult_assoc. f_equal. etransitivity; [exact (nth_A1w t (is_density b1) l _ Hl)|]. unfold Rdiv. rewrite Rmult_assoc. reflexivity.
Qed.
Lemma product1_eq i k : (i < i_num_nodes x)%nat -> (k < K)%nat -> M1 sph f x i k = product1 sph spl points t el x b0 b1 i k.
Proof.
  intros Hi Hk. unfold M1, product1. pose proof (type_lt i Hi) as Ht. destruct (Hel _ Ht) as [Q1 Q2].
  destruct (ie_M1 _ _ _ _ _ _ _ _ _ IE (tp x i) (zi el x i) k Ht Q1 Q2 Hk) as (_ & _ & _ & _ & E). rewrite E. f_equal. apply all_lm_eq. intros l m Hl Hm.
  apply message1_eq; auto.
Qed.
(** the inverse of linear_up cancels *)
Lemma cancel i (w : nat -> R) : (i < i_num_nodes x)%nat ->
  rsum K (fun q => H1 sph f x i 0 0 q * rsum K (fun u => nth (q * K + u) (inv K (fused t)) 0 * w u)) = rsum K (fun u => feats0 sph spl points t el x b0 i 0 0 u * w u).
Proof.
  intros Hi. rewrite (rsum_ext _ _ (fun q => rsum K (fun p => rsum K (fun u => feats0 sph spl points t el x b0 i 0 0 p * (nth (p * K + q) (fused t) 0 * nth (q * K + u) (inv K (fused t)) 0) * w u)))).
  2:{ intros q Hq. rewrite up1_eq by (auto; lia). unfold up1. rewrite linear_r. cbn [Nat.mul skipn]. rewrite rsum_div, <- rsum_scal_r. apply rsum_ext. intros p Hp. rewrite <- rsum_scal_l. apply rsum_ext. intros u Hu.
      rewrite (nth_fused rank t Hrank p q Hp Hq). unfold Rdiv; change (carrier RNum) with R; ring. }
  rewrite rsum_swap. apply rsum_ext. intros p Hp. rewrite rsum_swap.
  rewrite (rsum_ext _ _ (fun u => one_hot p u * (feats0 sph spl points t el x b0 i 0 0 p * w u))).
  - rewrite one_hot_sum by exact Hp. reflexivity.
  - intros u Hu. rewrite rsum_scal_r, rsum_scal_l. rewrite (fused_inv rank inv t C HT Hinv Hrank p u Hp Hu). unfold one_hot. rewrite (Nat.eqb_sym u p). ring.
Qed.
Lemma feats1_eq i k : (i < i_num_nodes x)%nat -> (k < K)%nat -> H2 sph f x i k = feats1 sph spl points t el x b0 b1 i k.
Proof.
  intros Hi Hk. unfold H2, feats1. pose proof (type_lt i Hi) as Ht. destruct (Hel _ Ht) as [Q1 Q2]. rewrite (ie_K _ _ _ _ _ _ _ _ _ IE), (ie_H2 _ _ _ _ _ _ _ _ _ IE), (ie_H2M _ _ _ _ _ _ _ _ _ IE), !sum_r.
  rewrite Rplus_comm. f_equal.
  - rewrite linear_r, rsum_div. apply rsum_ext. intros q Hq. rewrite product1_eq by auto. etransitivity; [apply f_equal; exact (nth_H2M t (q * K + k))|]. unfold Rdiv; change (carrier RNum) with R; ring.
  - rewrite with_element_r by exact Q1.
    rewrite (rsum_ext _ _ (fun q => H1 sph f x i 0 0 q * rsum K (fun u => nth (q * K + u) (inv K (fused t)) 0 * (nth ((u * n + zi el x i) * K + k) (t_skip_tp1 t) 0 / sqrt (INR (n * K)))))).
    2:{ intros q Hq. f_equal. exact (nth_H2w inv t C HT an (tp x i) (zi el x i) q k Ht Q1 Q2 Hq Hk). }
    rewrite cancel by exact Hi. rewrite rsum_div. apply rsum_ext. intros u Hu. rewrite (Nat.mul_comm n K). unfold Rdiv; change (carrier RNum) with R; ring.
Qed.

(** readouts and repulsion *)
Lemma zbl_scaled a p c radii q Zu Zv r s : zbl_energy a p (map (fun c => s * c) c) radii q Zu Zv r = s * zbl_energy a p c radii q Zu Zv r.
Proof.
  unfold zbl_energy. assert (E : forall j, nth j (map (fun c => s * c) c) 0 = s * nth j c 0).
  { intros j. destruct (Nat.lt_ge_cases j (length c)); [rewrite (nth_indep _ 0 (s * 0)) by (rewrite map_length; auto); apply (map_nth (fun c => s * c))|].
    rewrite !nth_overflow by (rewrite ?map_length; auto). ring. }
  rewrite !E. cbv zeta. destruct (Rlt_dec _ _); ring.
Qed.
Lemma repulsion_eq i : (i < i_num_nodes x)%nat -> repulsion f x i = t_scale t * pair_repulsion t el x i.
Proof.
  intros Hi. unfold repulsion, pair_repulsion. pose proof (ie_zbl _ _ _ _ _ _ _ _ _ IE) as Z. destruct (t_zbl t) as [[zp|]|].
  - destruct Z as (-> & E1 & E2 & E3 & E4 & E5). rewrite !suml_rl. rewrite <- rl_scal. apply rl_ext. intros e He. destruct (nbr_ok i e Hi He) as [Ht _].
    pose proof (type_lt i Hi) as Hti. destruct (Hel _ Ht) as [_ Q2]. destruct (Hel _ Hti) as [_ Q4]. rewrite (ie_an _ _ _ _ _ _ _ _ _ IE), E1, E2, E3, E4, E5. unfold zi.
    rewrite Q2. fold (tp x i). rewrite Q4. apply zbl_scaled.
  - rewrite Z. ring.
  - rewrite Z. ring.
Qed.
Lemma energy_eq i : t_interactions t = [b0; b1] -> (i < i_num_nodes x)%nat -> node_energy sph f x i = torch_energy sph spl points t el x i.
Proof.
  intros EB Hi. unfold node_energy, torch_energy. rewrite EB. pose proof (type_lt i Hi) as Ht. destruct (Hel _ Ht) as [Q1 Q2].
  rewrite repulsion_eq by exact Hi. rewrite (ie_E _ _ _ _ _ _ _ _ _ IE), (ie_K _ _ _ _ _ _ _ _ _ IE), (ie_r1 _ _ _ _ _ _ _ _ _ IE), (ie_r2 _ _ _ _ _ _ _ _ _ IE), (ie_r3 _ _ _ _ _ _ _ _ _ IE), (ie_cst _ _ _ _ _ _ _ _ _ IE).
  assert (E1 : nth (tp x i) (xE t an) 0 = nth (zi el x i) (t_atomic_energies t) 0 + t_shift t).
  { unfold xE. set (g := fun a => nth (ix t a) (t_atomic_energies t) 0 + t_shift t). rewrite (nth_indep _ 0 (g 0%nat)) by (rewrite map_length; exact Ht). rewrite (map_nth g). unfold g. rewrite el_ix by exact Ht. reflexivity. }
  assert (E2 : sum K (fun k => nth k (xr1 inv t) 0 * H1 sph f x i 0 0 k) = t_scale t * linear K 1 (t_readout0 t) (feats0 sph spl points t el x b0 i 0 0) 0).
  { rewrite sum_r, linear_r. rewrite (rsum_ext _ _ (fun q => H1 sph f x i 0 0 q * rsum K (fun u => nth (q * K + u) (inv K (fused t)) 0 * (nth u (t_readout0 t) 0 / sK * t_scale t)))).
    - rewrite cancel by exact Hi. rewrite rsum_div, <- rsum_scal_l. apply rsum_ext. intros u Hu. rewrite Nat.mul_1_r, Nat.add_0_r. unfold Rdiv; change (carrier RNum) with R; ring.
    - intros q Hq. rewrite Rmult_comm. f_equal. etransitivity; [exact (nth_r1 rank inv t Hrank q Hq)|]. rewrite <- rsum_scal_r. apply rsum_ext. intros u Hu. ring. }
  assert (E3 : sum 16 (fun j => nth j (export_readout_2_2 t) 0 * silu (t_cst t) (sum K (fun k => nth (j * K + k) (xr2 t) 0 * H2 sph f x i k))) =
     t_scale t * linear 16 1 (t_readout1_2 t) (fun j => silu (t_cst t) (linear K 16 (t_readout1_1 t) (feats1 sph spl points t el x b0 b1 i) j)) 0).
  { rewrite sum_r, linear_r. rewrite rsum_div, <- rsum_scal_l. apply rsum_ext. intros j Hj.
    assert (Ej : sum K (fun k => nth (j * K + k) (xr2 t) 0 * H2 sph f x i k) = linear K 16 (t_readout1_1 t) (feats1 sph spl points t el x b0 b1 i) j).
    { rewrite sum_r, linear_r, rsum_div. apply rsum_ext. intros k Hk. rewrite feats1_eq by auto. rewrite (nth_r2 rank t Hrank j k Hj Hk). unfold Rdiv; change (carrier RNum) with R; ring. }
    rewrite Ej. etransitivity; [apply f_equal2; [exact (nth_r3 t j)|reflexivity]|]. rewrite Nat.mul_1_r, Nat.add_0_r. unfold Rdiv; change (carrier RNum) with R; ring. }
  change (carrier RNum) with R in *. rewrite E1, E2, E3. ring.
Qed.
End Energy.
