(** Forces computed with an exported file are minus the gradient of the energy of the PyTorch model. *)
From Coq Require Import List Arith ZArith Lia Bool Permutation Sorted Reals Lra.
From Verif Require Import Base BaseLemmas Instances RSums RList MlpR MlpSpec MpSpec SplineModel SplineProofs MaceModel Sys SysLoops MaceGrid MacePure MaceSpec MaceSpec2 MacePipe MaceTab MaceLoad MaceFlat MaceThms MaceThms4 MaceGradSpec MaceForces
  ExportModel ExportSpec ExportProofs ExportPolySpec EnergySpec EnergyProofs ExportFullModel TorchSpec ExportFullPre ExportFullParts ExportFullEnergy ExportFullThms TorchGradSpec SplineR.
Import ListNotations.
Local Open Scope R_scope.

Lemma sum_total n g : sum n g = total (map g (seq 0 n)).
Proof. rewrite sum_rsum. symmetry. apply total_tab. Qed.

Lemma tyij_ord (f : mace_file RNum) t u : tyij (ldm f) (Nat.min t u) (Nat.max t u) = tyij (ldm f) t u.
Proof.
  unfold tyij. destruct (Nat.leb_spec t u) as [H|H].
  - rewrite Nat.min_l, Nat.max_r by lia. destruct (Nat.leb_spec t u); [reflexivity|lia].
  - rewrite Nat.min_r, Nat.max_l by lia. destruct (Nat.leb_spec u t); [reflexivity|lia].
Qed.
Lemma upairs_le n : forall t u, In (t, u) (upairs n) -> (t <= u < n)%nat.
Proof.
  intros t u H. unfold upairs in H. apply in_flat_map in H. destruct H as (a & Ha & H). apply in_map_iff in H. destruct H as (b & E & Hb). injection E as <- <-.
  apply in_seq in Ha, Hb. lia.
Qed.
Lemma tyij_pos (f : mace_file RNum) q t u : nth_error (upairs (length (f_atomic_numbers f))) q = Some (t, u) -> tyij (ldm f) t u = q.
Proof.
  intros H. pose proof (upairs_le _ _ _ (nth_error_In _ _ H)) as L.
  pose proof (tyij_upairs (ldm f) t u ltac:(cbn; lia) ltac:(cbn; lia)) as E. cbn [ldm m_atomic_numbers] in E. rewrite Nat.min_l, Nat.max_r in E by lia.
  pose proof (proj1 (NoDup_nth_error _) (upairs_nodup (length (f_atomic_numbers f)))) as N. apply N; [apply nth_error_Some; congruence|congruence].
Qed.

(** the densities of a file are the denominators of the formula *)
Section Density.
Variable f : mace_file RNum.
Hypothesis F : file_ok f.
Variable x : input RNum.
Hypothesis Hx : input_ok f x.
Lemma dens_at spls h vals ders (sc : nat -> R) :
  MaceSpec.density_ok (N:=RNum) (length (f_atomic_numbers f)) vals ders -> spls = ld_spl h vals ders ->
  (forall i, sc i = nfold (N:=RNum) (es (sys_of x) i) (fun e => csv (nth (tyij (ldm f) (ty (sys_of x) i) (e_type e)) spls dspl) (e_r e)) none) ->
  (forall i e, (i < length (sys_of x))%nat -> In e (es (sys_of x) i) -> in_spl (nth (tyij (ldm f) (ty (sys_of x) i) (e_type e)) spls dspl) (e_r e)) ->
  (forall i, (i < i_num_nodes x)%nat -> sc i <> 0) -> density_nonzero f h vals ders x.
Proof.
  intros HD Es Esc Hin Hnz. exists (fun t u => nth (tyij (ldm f) t u) vals []), (fun t u => nth (tyij (ldm f) t u) ders []). split.
  - intros q t u H. rewrite (tyij_pos f q t u H). auto.
  - intros i Hi. exists (sc i). split; [|apply Hnz; exact Hi]. rewrite Esc.
    pose proof (flat_sys_of f x Hx) as Ex. assert (Hl : length (sys_of x) = i_num_nodes x) by exact (f_equal (@i_num_nodes RNum) Ex).
    apply (dens_sum f spls h vals ders _ _ (sys_of x) x Ex); auto.
    + apply (ld_sys_wf f F). rewrite Ex. exact Hx.
    + intros t u _ _. rewrite tyij_ord. reflexivity.
    + intros t u _ _. rewrite tyij_ord. reflexivity.
    + change (carrier RNum) with R in *. lia.
Qed.
Hypothesis Hh0 : f_A0_scaled f = true -> f_A0_spline_h f <> 0.
Hypothesis Hh1 : f_A1_scaled f = true -> f_A1_spline_h f <> 0.
Lemma wf_sys : sys_wf (ldm f) (sys_of x) (length (sys_of x)).
Proof. apply (ld_sys_wf f F). rewrite (flat_sys_of f x Hx). exact Hx. Qed.
Lemma dens_A0 : f_A0_scaled f = true ->
  (forall i, (i < i_num_nodes x)%nat -> 1 + suml (neighbours x i) (fun e => density0 f (tp x i) (nb_type e) (nb_r e)) <> 0) ->
  density_nonzero f (f_A0_spline_h f) (f_A0_spline_values f) (f_A0_spline_derivs f) x.
Proof.
  intros E H. apply (dens_at (m_A0_splines (ldm f)) _ _ _ (sc0 (N:=RNum) (ldm f) (sys_of x))).
  - apply (fo_A0s _ F E).
  - cbn [ldm m_A0_splines]. rewrite E. reflexivity.
  - reflexivity.
  - intros i e Hi He. apply (sw_A0 _ _ _ wf_sys E i e Hi He).
  - intros i Hi. rewrite (sc0_of f F Hh0 x Hx i Hi E). apply H. exact Hi.
Qed.
Lemma dens_A1 : f_A1_scaled f = true ->
  (forall i, (i < i_num_nodes x)%nat -> 1 + suml (neighbours x i) (fun e => density1 f (tp x i) (nb_type e) (nb_r e)) <> 0) ->
  density_nonzero f (f_A1_spline_h f) (f_A1_spline_values f) (f_A1_spline_derivs f) x.
Proof.
  intros E H. apply (dens_at (m_A1_splines (ldm f)) _ _ _ (sc1 (N:=RNum) (ldm f) (sys_of x))).
  - apply (fo_A1s _ F E).
  - cbn [ldm m_A1_splines]. rewrite E. reflexivity.
  - reflexivity.
  - intros i e Hi He. apply (sw_A1 _ _ _ wf_sys E i e Hi He).
  - intros i Hi. rewrite (sc1_of f F Hh1 x Hx i Hi E). apply H. exact Hi.
Qed.
End Density.

(** everything about the exported file in one place *)
Lemma export_core : forall rank inv spl t C, torch_ok t C -> spl_ok spl -> inv_ok rank inv -> (t_num_channels t <= rank (t_num_channels t) (fused t))%nat ->
  forall species points, NoDup species -> incl species (t_atomic_numbers t) -> (2 <= points)%nat -> 1 / 10 ^ 12 < t_r_cut t ->
  exists f, extract_mace_data rank inv spl t species points = Some f /\ file_ok f /\ (forall r, 0 <= r < t_r_cut t - 1 / 10 ^ 12 -> in_domain f r) /\
    StronglySorted lt (f_atomic_numbers f) /\ Permutation (f_atomic_numbers f) (match species with [] => t_atomic_numbers t | _ => species end) /\
    (repulsion_smooth t -> smooth_ok f) /\
    forall el, (forall j, (j < length (f_atomic_numbers f))%nat -> (el j < length (t_atomic_numbers t))%nat /\ nth (el j) (t_atomic_numbers t) 0%nat = nth j (f_atomic_numbers f) 0%nat) ->
    (forall sph, sph_ok (N:=RNum) sph -> forall srt, (forall l, Permutation l (srt l)) -> forall hist x, List.Forall (input_ok f) hist -> input_ok f x ->
      exists m c0 c1 c2, load_from_json srt f = Some (m, c0) /\ calls sph m c0 hist = Some c1 /\ call sph m c1 x = Some c2 /\
        b_node_energies c2 = map (torch_energy sph spl points t el x) (seq 0 (i_num_nodes x))) /\
    (forall x xs, input_ok f (with_xyz x xs) -> regular spl points t el (with_xyz x xs) -> smooth_at f x xs).
Proof.
  intros rank inv spl t C HT Hspl Hinv Hrank species points HND HIS Hpts Hr.
  destruct (lemma_C67 rank inv spl t C HT Hspl Hinv Hrank species points HND HIS Hpts Hr) as (f & EF & FO & HD & HS & HP & HE).
  exists f. split; [exact EF|]. split; [exact FO|]. split; [exact HD|]. split; [exact HS|]. split; [exact HP|].
  destruct (numbers_ok t C species HT HND HIS) as (HS' & HI & Hne & _).
  destruct (export_file rank inv spl t C HT Hspl Hrank species points HI) as (b0 & b1 & f' & EB & EF' & IE). rewrite EF in EF'. injection EF' as <-.
  pose proof (step_pos _ _ Hpts Hr) as Hh.
  assert (H0 : f_A0_scaled f = true -> 0 < f_A0_spline_h f).
  { rewrite (ie_A0s _ _ _ _ _ _ _ _ _ IE). intros Eb. destruct (ie_D0 _ _ _ _ _ _ _ _ _ IE Eb) as (-> & _). exact Hh. }
  assert (H1 : f_A1_scaled f = true -> 0 < f_A1_spline_h f).
  { rewrite (ie_A1s _ _ _ _ _ _ _ _ _ IE). intros Eb. destruct (ie_D1 _ _ _ _ _ _ _ _ _ IE Eb) as (-> & _). exact Hh. }
  split.
  - intros HR. constructor; auto.
    + rewrite (ie_h _ _ _ _ _ _ _ _ _ IE). exact Hh.
    + intros Hz. pose proof (ie_zbl _ _ _ _ _ _ _ _ _ IE) as Z. unfold repulsion_smooth in HR. destruct (t_zbl t) as [[zp|]|]; [|congruence|congruence].
      destruct Z as (_ & _ & _ & -> & -> & ->). destruct HR as (R1 & R2 & R3). rewrite map_length. split; [exact R1|]. split; [exact R2|].
      rewrite (ie_an _ _ _ _ _ _ _ _ _ IE). intros Z Z' r r' HZ HZ' Er Er'. specialize (R3 Z Z' (HI _ HZ) (HI _ HZ')).
      unfold rd in Er, Er'. rewrite <- (nth_error_nth _ _ (nzero (N:=RNum)) Er), <- (nth_error_nth _ _ (nzero (N:=RNum)) Er'), RNum_zero. exact R3.
  - intros el Hel. split.
    + intros sph Hsph srt Hsrt hist x HH HX. apply HE; auto.
    + intros x xs HX RG.
      assert (Hel' : forall j, (j < length (export_numbers t species))%nat -> (el j < length (t_atomic_numbers t))%nat /\ nth (el j) (t_atomic_numbers t) 0%nat = nth j (export_numbers t species) 0%nat)
        by (rewrite <- (ie_an _ _ _ _ _ _ _ _ _ IE); exact Hel).
      constructor; auto.
      * intros q Hq E. assert (Q : In (sqrt (norm2 xs q)) (i_r (with_xyz x xs))) by (cbn [with_xyz i_r]; apply (in_map (fun q => sqrt (norm2 xs q))), in_seq; lia).
        apply (rg_r _ _ _ _ _ RG) in Q. rewrite E, sqrt_0 in Q. lra.
      * intros E. apply dens_A0; auto; [intros Q; apply Rgt_not_eq, H0, Q|]. intros i Hi.
        pose proof (den0 rank inv spl t C HT (export_numbers t species) HS' points Hrank b0 b1 f IE (with_xyz x xs) HX el Hel' i Hi) as Q. rewrite E in Q. rewrite Q. unfold D.
        pose proof (rg_den _ _ _ _ _ RG b0 b1 i EB Hi) as [Q0 _]. unfold denominator in Q0. rewrite (ie_A0s _ _ _ _ _ _ _ _ _ IE) in E. rewrite E in *. exact Q0.
      * intros E. apply dens_A1; auto; [intros Q; apply Rgt_not_eq, H1, Q|]. intros i Hi.
        pose proof (den1 rank inv spl t C HT (export_numbers t species) HS' points Hrank b0 b1 f IE (with_xyz x xs) HX el Hel' i Hi) as Q. rewrite E in Q. rewrite Q. unfold D.
        pose proof (rg_den _ _ _ _ _ RG b0 b1 i EB Hi) as [_ Q0]. unfold denominator in Q0. rewrite (ie_A1s _ _ _ _ _ _ _ _ _ IE) in E. rewrite E in *. exact Q0.
Qed.

Lemma dlim_local (E G : R -> R) a d del : derivable_pt_lim E a d -> 0 < del -> (forall u, Rabs (u - a) < del -> E u = G u) -> derivable_pt_lim G a d.
Proof.
  intros HD Hd HE eps He. destruct (HD eps He) as (al & H). assert (P : 0 < Rmin al del) by (apply Rmin_case; [apply al|exact Hd]).
  exists (mkposreal _ P). intros h Hh Hl. cbn [pos] in Hl.
  rewrite <- (HE (a + h)), <- (HE a).
  - apply H; [exact Hh|]. eapply Rlt_le_trans; [exact Hl|apply Rmin_l].
  - rewrite Rminus_diag_eq, Rabs_R0 by reflexivity. exact Hd.
  - replace (a + h - a) with h by ring. eapply Rlt_le_trans; [exact Hl|apply Rmin_r].
Qed.

Lemma lemma_C71 : forall rank inv spl t C, torch_ok t C -> spl_ok spl -> inv_ok rank inv -> (t_num_channels t <= rank (t_num_channels t) (fused t))%nat -> repulsion_smooth t ->
  forall species points, NoDup species -> incl species (t_atomic_numbers t) -> (2 <= points)%nat -> 1 / 10 ^ 12 < t_r_cut t ->
  exists f, extract_mace_data rank inv spl t species points = Some f /\
    forall sph, sph_ok (N:=RNum) sph -> sph_gradient sph -> forall srt, (forall l, Permutation l (srt l)) ->
    forall el, (forall j, (j < length (f_atomic_numbers f))%nat -> (el j < length (t_atomic_numbers t))%nat /\ nth (el j) (t_atomic_numbers t) 0%nat = nth j (f_atomic_numbers f) 0%nat) ->
    forall hist x xs, List.Forall (input_ok f) hist -> input_ok f (with_xyz x xs) -> regular spl points t el (with_xyz x xs) ->
    exists m c0 c1 c2, load_from_json srt f = Some (m, c0) /\ calls sph m c0 hist = Some c1 /\ call sph m c1 (with_xyz x xs) = Some c2 /\
      length (b_node_forces c2) = length xs /\
      forall p, (p < length xs)%nat ->
        derivable_pt_lim (fun u => torch_total sph spl points t el (with_xyz x (upd xs p u))) (nth p xs 0) (- nth p (b_node_forces c2) 0).
Proof.
  intros rank inv spl t C HT Hspl Hinv Hrank HR species points HND HIS Hpts Hr.
  destruct (export_core rank inv spl t C HT Hspl Hinv Hrank species points HND HIS Hpts Hr) as (f & EF & FO & _ & _ & _ & HS & HE).
  exists f. split; [exact EF|]. specialize (HS HR). intros sph Hsph Hgr srt Hsrt el Hel hist x xs HH HX RG. destruct (HE el Hel) as [HE1 HE2].
  pose proof (HE2 x xs HX RG) as SA.
  destruct (forces_lemma sph Hsph Hgr srt Hsrt f FO HS hist x xs HH SA) as (m & c0 & c1 & c2 & E1 & E2 & E3 & E4).
  exists m, c0, c1, c2. split; [exact E1|]. split; [exact E2|]. split; [exact E3|].
  assert (L1 : length (b_node_forces c2) = length xs).
  { destruct (lemma_C05 sph Hsph srt Hsrt f FO hist (with_xyz x xs) HH HX) as (m' & c0' & c1' & c2' & G1 & G2 & G3 & _ & G4).
    rewrite E1 in G1. injection G1 as <- <-. rewrite E2 in G2. injection G2 as <-. rewrite E3 in G3. injection G3 as <-. exact G4. }
  split; [exact L1|]. intros p Hp.
  destruct (E4 p Hp) as (F & E & del & E5 & Hd & E6 & E7). apply (nth_error_nth _ _ 0) in E5. unfold torch_total.
  assert (Lx : length xs = (3 * list_sum (i_num_neigh x))%nat) by (apply (io_xyz _ _ HX)).
  destruct (local_ok f HS x (upd xs p) (tab (length xs) (fun j => if (p =? j)%nat then 1 else 0)) (nth p xs 0)) as (del2 & Hd2 & Ho).
  { intros u. rewrite length_upd. exact Lx. } { rewrite length_tab. exact Lx. } { intros j Hj. rewrite nth_tab by lia. apply nth_upd_curve. exact Hp. } { rewrite upd_same. exact SA. }
  apply (dlim_local E _ _ _ (Rmin del del2)); [|apply Rmin_case; assumption|].
  - eapply dlim_eq; [|exact E7]. f_equal. symmetry. exact E5.
  - intros u Hu. assert (H1 : Rabs (u - nth p xs 0) < del) by (eapply Rlt_le_trans; [exact Hu|apply Rmin_l]).
    assert (H2 : Rabs (u - nth p xs 0) < del2) by (eapply Rlt_le_trans; [exact Hu|apply Rmin_r]).
    destruct (E6 u H1) as (b & B1 & ->). destruct (HE1 sph Hsph srt Hsrt hist (with_xyz x (upd xs p u)) HH (Ho u H2)) as (m' & c0' & c1' & c2' & G1 & G2 & G3 & G4).
    rewrite E1 in G1. injection G1 as <- <-. rewrite E2 in G2. injection G2 as <-. rewrite B1 in G3. injection G3 as <-.
    rewrite sum_total. change (i_num_nodes (with_xyz x (upd xs p u))) with (i_num_nodes x) in *. rewrite G4. reflexivity.
Qed.
