(** Rotated configurations: energies are unchanged, forces are rotated. *)
From Coq Require Import List Arith ZArith Lia Bool Permutation Reals Lra.
From Verif Require Import Base BaseLemmas Instances RSums RList MpSpec MaceModel MaceSpec MaceSpec2 MaceGradSpec MaceThms MaceForces GradSums MlpR ExportPolySpec EnergySpec EnergyProofs ExportSubset ExportForces SymSpec SymProofs.
From Coquelicot Require Import Coquelicot.
Import ListNotations.
Local Open Scope R_scope.

Lemma lemma_C74 : forall sph, sph_ok (N:=RNum) sph -> forall srt, (forall l, Permutation l (srt l)) ->
  forall f : mace_file RNum, file_ok f -> monomials_once f ->
  f_radial_spline_h f <> 0 -> (f_A0_scaled f = true -> f_A0_spline_h f <> 0) -> (f_A1_scaled f = true -> f_A1_spline_h f <> 0) ->
  forall g D, equivariant sph f g D ->
  forall hist x, List.Forall (input_ok f) hist -> input_ok f x -> (forall q, (q < list_sum (i_num_neigh x))%nat -> norm2 (i_xyz x) q <> 0) ->
  exists m b0 bh b b', load_from_json srt f = Some (m, b0) /\ calls sph m b0 hist = Some bh /\ call sph m bh x = Some b /\ call sph m bh (rotated g x) = Some b' /\
    b_node_energies b' = b_node_energies b.
Proof.
  intros sph Hs srt Hp f F Mo h0 h1 h2 g D EQ hist x Hh HX HP.
  destruct (lemma_C65 sph Hs srt Hp f F Mo h0 h1 h2 hist x Hh HX) as (m & b0 & bh & b & E1 & E2 & E3 & E4).
  destruct (lemma_C65 sph Hs srt Hp f F Mo h0 h1 h2 hist (rotated g x) Hh (rotated_ok f g x HX)) as (m' & b0' & bh' & b' & G1 & G2 & G3 & G4).
  rewrite E1 in G1. injection G1 as <- <-. rewrite E2 in G2. injection G2 as <-.
  exists m, b0, bh, b, b'. repeat split; auto. rewrite E4, G4. cbn [rotated i_num_nodes]. apply map_ext_in. intros i Hi. apply in_seq in Hi.
  apply (energy_rot sph f F g D EQ x HX HP). lia.
Qed.

Section Orth.
Variable g : nat -> nat -> R.
Hypothesis O : orthogonal g.
Lemma sum3 h : sum 3 h = h 0%nat + h 1%nat + h 2%nat.
Proof. unfold sum. cbn [seq map fold_right]. ring. Qed.
Lemma O_col a b : (a < 3)%nat -> (b < 3)%nat -> g 0%nat a * g 0%nat b + g 1%nat a * g 1%nat b + g 2%nat a * g 2%nat b = (if (a =? b)%nat then 1 else 0).
Proof. intros Ha Hb. pose proof (proj2 (O a b Ha Hb)) as H. rewrite sum3 in H. exact H. Qed.
Lemma norm2_rot xs q : (3 * q + 2 < length xs)%nat -> norm2 (rotate g xs) q = norm2 xs q.
Proof.
  intros H. unfold norm2. replace (nth (3 * q) (rotate g xs) 0) with (nth (3 * q + 0) (rotate g xs) 0) by (f_equal; lia). rewrite !nth_rotate by lia.
  pose proof (O_col 0 0) as e00. pose proof (O_col 0 1) as e01. pose proof (O_col 0 2) as e02. pose proof (O_col 1 1) as e11. pose proof (O_col 1 2) as e12. pose proof (O_col 2 2) as e22.
  cbn [Nat.eqb] in *. specialize (e00 ltac:(lia) ltac:(lia)). specialize (e01 ltac:(lia) ltac:(lia)). specialize (e02 ltac:(lia) ltac:(lia)). specialize (e11 ltac:(lia) ltac:(lia)). specialize (e12 ltac:(lia) ltac:(lia)). specialize (e22 ltac:(lia) ltac:(lia)).
  set (a := nth (3 * q) xs 0). set (b := nth (3 * q + 1) xs 0). set (c := nth (3 * q + 2) xs 0).
  transitivity (a * a * (g 0%nat 0%nat * g 0%nat 0%nat + g 1%nat 0%nat * g 1%nat 0%nat + g 2%nat 0%nat * g 2%nat 0%nat) +
    b * b * (g 0%nat 1%nat * g 0%nat 1%nat + g 1%nat 1%nat * g 1%nat 1%nat + g 2%nat 1%nat * g 2%nat 1%nat) +
    c * c * (g 0%nat 2%nat * g 0%nat 2%nat + g 1%nat 2%nat * g 1%nat 2%nat + g 2%nat 2%nat * g 2%nat 2%nat) +
    2 * a * b * (g 0%nat 0%nat * g 0%nat 1%nat + g 1%nat 0%nat * g 1%nat 1%nat + g 2%nat 0%nat * g 2%nat 1%nat) +
    2 * a * c * (g 0%nat 0%nat * g 0%nat 2%nat + g 1%nat 0%nat * g 1%nat 2%nat + g 2%nat 0%nat * g 2%nat 2%nat) +
    2 * b * c * (g 0%nat 1%nat * g 0%nat 2%nat + g 1%nat 1%nat * g 1%nat 2%nat + g 2%nat 1%nat * g 2%nat 2%nat)); [ring|].
  rewrite e00, e01, e02, e11, e12, e22. ring.
Qed.
Lemma with_rot (x : input RNum) xs : length xs = (3 * list_sum (i_num_neigh x))%nat -> rotated g (with_xyz x xs) = with_xyz x (rotate g xs).
Proof.
  intros H. unfold rotated, with_xyz. cbn [i_num_nodes i_node_types i_num_neigh i_neigh_indices i_neigh_types i_xyz i_r]. f_equal.
  apply map_ext_in. intros q Hq. apply in_seq in Hq. rewrite norm2_rot by lia. reflexivity.
Qed.
Lemma smooth_rot f x xs : smooth_at f x xs -> smooth_at f x (rotate g xs).
Proof.
  intros [A B C E]. pose proof (io_xyz _ _ A) as Lx. cbn [with_xyz i_xyz i_num_neigh] in Lx. change (carrier RNum) with R in *. pose proof (with_rot x xs Lx) as W. constructor.
  - rewrite <- W. apply rotated_ok. exact A.
  - intros q Hq. rewrite norm2_rot by lia. apply B. exact Hq.
  - intros S. destruct (C S) as (V & Dd & H1 & H2). exists V, Dd. split; [exact H1|]. rewrite <- W. exact H2.
  - intros S. destruct (E S) as (V & Dd & H1 & H2). exists V, Dd. split; [exact H1|]. rewrite <- W. exact H2.
Qed.
End Orth.

Lemma dot_tab (a : list R) n h : length a = n -> dot a (tab n h) = sum n (fun j => nth j a 0 * h j).
Proof.
  intros H. rewrite dot_wsum by (rewrite length_tab; auto). unfold wsum. rewrite sum_rsum, H. apply rsum_ext. intros j Hj. cbn [Nat.add]. rewrite nth_tab by auto. reflexivity.
Qed.
Lemma div3 q c : (c < 3)%nat -> ((3 * q + c) / 3 = q /\ (3 * q + c) mod 3 = c)%nat.
Proof. intros H. split; [rewrite Nat.mul_comm, Nat.div_add_l, Nat.div_small by lia; lia|rewrite Nat.add_comm, Nat.mul_comm, Nat.mod_add, Nat.mod_small by lia; reflexivity]. Qed.
Lemma d3 q : ((3 * q) / 3 = q /\ (3 * q + 1) / 3 = q /\ (3 * q + 2) / 3 = q /\ (3 * q) mod 3 = 0 /\ (3 * q + 1) mod 3 = 1 /\ (3 * q + 2) mod 3 = 2)%nat.
Proof.
  assert (H : (0 < 3 /\ 1 < 3 /\ 2 < 3)%nat) by lia. pose proof (div3 q 0 (proj1 H)) as E. rewrite Nat.add_0_r in E. pose proof (div3 q 1 (proj1 (proj2 H))). pose proof (div3 q 2 (proj2 (proj2 H))). tauto.
Qed.
Lemma split3 p : exists q c, p = (3 * q + c)%nat /\ (c < 3)%nat.
Proof. exists (p / 3)%nat, (p mod 3)%nat. split; [apply Nat.div_mod; lia|apply Nat.mod_upper_bound; lia]. Qed.

Lemma rsum_prod3 n h : rsum (3 * n) h = rsum n (fun q => h (3 * q)%nat + h (3 * q + 1)%nat + h (3 * q + 2)%nat).
Proof.
  rewrite Nat.mul_comm, rsum_prod. apply rsum_ext. intros q _. cbn [rsum]. replace (q * 3 + 0)%nat with (3 * q)%nat by lia. replace (q * 3 + 1)%nat with (3 * q + 1)%nat by lia. replace (q * 3 + 2)%nat with (3 * q + 2)%nat by lia. ring.
Qed.
Lemma open_nonzero (h : R -> R) a d : h a <> 0 -> derivable_pt_lim h a d -> exists del, 0 < del /\ forall t, Rabs (t - a) < del -> h t <> 0.
Proof.
  intros H0 Hd. assert (C : continuity_pt h a) by (apply derivable_continuous_pt; exists d; exact Hd).
  destruct (C (Rabs (h a)) (Rabs_pos_lt _ H0)) as (al & Ha & Hc). exists al. split; [exact Ha|]. intros t Ht E.
  destruct (Req_dec t a) as [->|Hne]; [contradiction|]. specialize (Hc t). cbn in Hc. unfold R_dist in Hc. rewrite E in Hc.
  assert (Rabs (0 - h a) < Rabs (h a)) by (apply Hc; split; [split; [exact I|auto]|exact Ht]). rewrite Rminus_0_l, Rabs_Ropp in H. lra.
Qed.
Lemma lemma_C75 : forall sph, sph_ok (N:=RNum) sph -> sph_gradient sph -> forall srt, (forall l, Permutation l (srt l)) ->
  forall f : mace_file RNum, file_ok f -> smooth_ok f -> monomials_once f -> forall g D, orthogonal g -> equivariant sph f g D ->
  forall hist x xs, List.Forall (input_ok f) hist -> smooth_at f x xs ->
  exists m b0 bh b b', load_from_json srt f = Some (m, b0) /\ calls sph m b0 hist = Some bh /\
    call sph m bh (with_xyz x xs) = Some b /\ call sph m bh (with_xyz x (rotate g xs)) = Some b' /\
    b_node_energies b' = b_node_energies b /\ b_node_forces b' = rotate g (b_node_forces b).
Proof.
  intros sph Hs Hg srt Hp f F S Mo g D O EQ hist x xs Hh SA.
  pose proof (so_h _ S) as h0. assert (h0' : f_radial_spline_h f <> 0) by lra.
  assert (h1 : f_A0_scaled f = true -> f_A0_spline_h f <> 0) by (intros E; pose proof (so_h0 _ S E); lra).
  assert (h2 : f_A1_scaled f = true -> f_A1_spline_h f <> 0) by (intros E; pose proof (so_h1 _ S E); lra).
  pose proof (smooth_rot g O f x xs SA) as SA'.
  assert (Lx : length xs = (3 * list_sum (i_num_neigh x))%nat) by (apply (io_xyz _ _ (sa_ok _ _ _ SA))).
  set (nE := list_sum (i_num_neigh x)) in *.
  destruct (lemma_C74 sph Hs srt Hp f F Mo h0' h1 h2 g D EQ hist (with_xyz x xs) Hh (sa_ok _ _ _ SA) (sa_pos _ _ _ SA)) as (m & b0 & bh & b & b' & E1 & E2 & E3 & E4 & E5).
  rewrite (with_rot g O) in E4 by exact Lx.
  exists m, b0, bh, b, b'. do 5 (split; [assumption|]).
  assert (FL : forall y by_, input_ok f (with_xyz x y) -> call sph m bh (with_xyz x y) = Some by_ -> length (b_node_forces by_) = (3 * nE)%nat).
  { intros y by_ I Ec. destruct (lemma_C05 sph Hs srt Hp f F hist (with_xyz x y) Hh I) as (m' & b0' & bh' & b1' & G1 & G2 & G3 & _ & G4).
    rewrite E1 in G1. injection G1 as <- <-. rewrite E2 in G2. injection G2 as <-. rewrite Ec in G3. injection G3 as <-. rewrite G4. apply (io_xyz _ _ I). }
  pose proof (FL _ _ (sa_ok _ _ _ SA) E3) as Lb. pose proof (FL _ _ (sa_ok _ _ _ SA') E4) as Lb'.
  (* the derivative along any motion *)
  assert (KEY : forall h, dot (b_node_forces b) (tab (3 * nE) h) = dot (b_node_forces b') (rotate g (tab (3 * nE) h))).
  { intros h. set (X := fun t => tab (3 * nE) (fun j => nth j xs 0 + t * h j)).
    assert (X0 : X 0 = xs). { unfold X. apply (nth_ext _ _ 0 0); [rewrite length_tab; lia|]. intros j Hj. rewrite length_tab in Hj. rewrite nth_tab by exact Hj. ring. }
    assert (XL : forall t, length (X t) = (3 * nE)%nat) by (intros t; apply length_tab).
    assert (XD : forall p, (p < 3 * nE)%nat -> derivable_pt_lim (fun t => nth p (X t) 0) 0 (nth p (tab (3 * nE) h) 0)).
    { intros p Hpp. rewrite nth_tab by exact Hpp. apply (dlim_ext (fun t => nth p xs 0 + t * h p)).
      - intros t. unfold X. rewrite nth_tab by exact Hpp. reflexivity.
      - apply is_derive_Reals. auto_derive; [exact I|ring]. }
    destruct (motion_lemma sph Hs Hg srt Hp f F S x X (tab (3 * nE) h) 0 XL (length_tab _ _) XD) with (hist := hist)
      as (m1 & b01 & bh1 & b1 & del & E & G1 & G2 & G3 & G4 & G5 & G6); [rewrite X0; exact SA|exact Hh|].
    destruct (motion_lemma sph Hs Hg srt Hp f F S x (fun t => rotate g (X t)) (rotate g (tab (3 * nE) h)) 0) with (hist := hist)
      as (m2 & b02 & bh2 & b2 & del' & E' & K1 & K2 & K3 & K4 & K5 & K6); auto.
    - intros t. rewrite length_rotate. apply XL.
    - rewrite length_rotate. apply length_tab.
    - intros p Hpp. destruct (split3 p) as (q & c & -> & Hc). rewrite nth_rotate by (try rewrite length_tab; lia).
      apply (dlim_ext (fun t => g c 0%nat * nth (3 * q) (X t) 0 + g c 1%nat * nth (3 * q + 1) (X t) 0 + g c 2%nat * nth (3 * q + 2) (X t) 0)).
      + intros t. rewrite nth_rotate by (try rewrite XL; lia). reflexivity.
      + apply dlim_plus; [apply dlim_plus|]; apply dlim_scal; apply XD; fold nE in Hpp; lia.
    - rewrite X0. exact SA'.
    - rewrite E1 in G1, K1. injection G1 as <- <-. injection K1 as <- <-. rewrite E2 in G2, K2. injection G2 as <-. injection K2 as <-.
      rewrite X0 in G3, K3. rewrite E3 in G3. injection G3 as <-. rewrite E4 in K3. injection K3 as <-.
      assert (Q : derivable_pt_lim E 0 (- dot (b_node_forces b') (rotate g (tab (3 * nE) h)))).
      { destruct (local_ok f S x X (tab (3 * nE) h) 0 XL (length_tab _ _) XD) as (d1 & Hd1 & O1); [rewrite X0; exact SA|].
        destruct (list_open (fun q t => norm2 (X t) q <> 0) (seq 0 nE) 0) as (d2 & Hd2 & O2).
        { intros q Hq. apply in_seq in Hq. apply open_nonzero with (d := 2 * (nth (3 * q) (X 0) 0 * h (3 * q)%nat + nth (3 * q + 1) (X 0) 0 * h (3 * q + 1)%nat + nth (3 * q + 2) (X 0) 0 * h (3 * q + 2)%nat)).
          - rewrite X0. apply (sa_pos _ _ _ SA). fold nE. lia.
          - unfold norm2. pose proof (XD (3 * q)%nat) as D0. pose proof (XD (3 * q + 1)%nat) as D1. pose proof (XD (3 * q + 2)%nat) as D2.
            rewrite nth_tab in D0, D1, D2 by lia. specialize (D0 ltac:(lia)). specialize (D1 ltac:(lia)). specialize (D2 ltac:(lia)).
            eapply dlim_eq; [|apply dlim_plus; [apply dlim_plus|]; apply dlim_mult; eassumption]. cbv beta. ring. }
        assert (P1 : 0 < Rmin (Rmin del del') (Rmin d1 d2)) by (repeat apply Rmin_pos; assumption).
        apply (dlim_local E' E 0 _ _ K6 P1). intros t Ht.
        assert (T1 : Rabs (t - 0) < del) by (eapply Rlt_le_trans; [exact Ht|]; eapply Rle_trans; [apply Rmin_l|apply Rmin_l]).
        assert (T2 : Rabs (t - 0) < del') by (eapply Rlt_le_trans; [exact Ht|]; eapply Rle_trans; [apply Rmin_l|apply Rmin_r]).
        assert (T3 : Rabs (t - 0) < d1) by (eapply Rlt_le_trans; [exact Ht|]; eapply Rle_trans; [apply Rmin_r|apply Rmin_l]).
        assert (T4 : Rabs (t - 0) < d2) by (eapply Rlt_le_trans; [exact Ht|]; eapply Rle_trans; [apply Rmin_r|apply Rmin_r]).
        destruct (G5 t T1) as (c1 & C1 & ->). destruct (K5 t T2) as (c2 & C2 & ->).
        destruct (lemma_C74 sph Hs srt Hp f F Mo h0' h1 h2 g D EQ hist (with_xyz x (X t)) Hh (O1 t T3)) as (m3 & b03 & bh3 & a3 & a3' & J1 & J2 & J3 & J4 & J5).
        { intros q Hq. apply (O2 t T4 q). apply in_seq. cbn [with_xyz i_num_neigh] in Hq. fold nE in Hq. lia. }
        rewrite (with_rot g O) in J4 by apply XL. rewrite E1 in J1. injection J1 as <- <-. rewrite E2 in J2. injection J2 as <-. rewrite C1 in J3. injection J3 as <-. rewrite C2 in J4. injection J4 as <-. rewrite J5. reflexivity. }
      pose proof (uniqueness_limite _ _ _ _ G6 Q). lra. }
  apply (nth_ext _ _ 0 0); [rewrite length_rotate; etransitivity; [exact Lb'|symmetry; exact Lb]|]. intros p Hpp. pose proof (Nat.lt_le_trans _ _ _ Hpp (Nat.eq_le_incl _ _ Lb')) as Hq0. clear Hpp. rename Hq0 into Hpp.
  destruct (split3 p) as (q & c & -> & Hc).
  set (h := fun j => if (j / 3 =? q)%nat then g c (j mod 3)%nat else 0).
  assert (U : rotate g (tab (3 * nE) h) = tab (3 * nE) (fun j => if (3 * q + c =? j)%nat then 1 else 0)).
  { apply (nth_ext _ _ 0 0); [rewrite length_rotate, !length_tab; reflexivity|]. intros j Hj. rewrite length_rotate, length_tab in Hj. rewrite (nth_tab (3 * nE) (fun j => if (3 * q + c =? j)%nat then 1 else 0)) by exact Hj.
    destruct (split3 j) as (q' & c' & -> & Hc'). rewrite nth_rotate by (try rewrite length_tab; lia). rewrite !nth_tab by lia. unfold h.
    destruct (d3 q') as (A0 & A1 & A2 & B0 & B1 & B2). rewrite A0, A1, A2, B0, B1, B2.
    pose proof (proj1 (O c c' Hc Hc')) as Or. rewrite sum3 in Or.
    destruct (Nat.eqb_spec q' q) as [->|Nq].
    - transitivity (if (c =? c')%nat then 1 else 0); [rewrite <- Or; ring|]. destruct (Nat.eqb_spec c c') as [->|Nc]; [rewrite Nat.eqb_refl; reflexivity|]. destruct (Nat.eqb_spec (3 * q + c) (3 * q + c')); [lia|reflexivity].
    - destruct (Nat.eqb_spec (3 * q + c) (3 * q' + c')); [lia|ring]. }
  pose proof (KEY h) as Kh. rewrite U in Kh. rewrite <- Lb' in Kh at 2. rewrite dot_unit in Kh by (eapply Nat.lt_le_trans; [exact Hpp|apply Nat.eq_le_incl; symmetry; exact Lb']). rewrite <- Kh.
  rewrite nth_rotate; [|exact Hc|eapply Nat.lt_le_trans; [exact Hpp|apply Nat.eq_le_incl; symmetry; exact Lb]]. rewrite dot_tab by exact Lb. rewrite sum_rsum, rsum_prod3. rewrite (rsum_single _ q); [|lia|].
  - unfold h. destruct (d3 q) as (A0 & A1 & A2 & B0 & B1 & B2). rewrite A0, A1, A2, B0, B1, B2, Nat.eqb_refl. ring.
  - intros q' Hq' Nq. unfold h. destruct (d3 q') as (A0 & A1 & A2 & B0 & B1 & B2). rewrite A0, A1, A2. destruct (Nat.eqb_spec q' q); [contradiction|ring].
Qed.
