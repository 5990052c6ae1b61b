(** Rotational invariance of the energies for equivariant tables. *)
From Coq Require Import List Arith ZArith Lia Bool Permutation Reals Lra.
From Verif Require Import Base BaseLemmas Instances RSums RList MpSpec MaceModel MaceSpec MaceSpec2 MaceGradSpec ExportPolySpec EnergySpec EnergyProofs ExportSubset SymSpec.
Import ListNotations.
Local Open Scope R_scope.

Lemma sum_scal n c g : sum n (fun i => c * g i) = c * sum n g.
Proof. rewrite !sum_rsum. apply rsum_scal_l. Qed.
Lemma sum_scal_r n c g : sum n (fun i => g i * c) = sum n g * c.
Proof. rewrite !sum_rsum. apply rsum_scal_r. Qed.
Lemma sum_swap n m g : sum n (fun i => sum m (fun j => g i j)) = sum m (fun j => sum n (fun i => g i j)).
Proof.
  rewrite !sum_rsum. rewrite (rsum_ext n _ (fun i => rsum m (g i))) by (intros; apply sum_rsum). rewrite rsum_swap. apply rsum_ext. intros. symmetry. apply sum_rsum.
Qed.
Lemma sum_plus n g h : sum n (fun i => g i + h i) = sum n g + sum n h.
Proof. rewrite !sum_rsum. apply rsum_plus. Qed.
Lemma suml_ext {A} (l : list A) g h : (forall a, In a l -> g a = h a) -> suml l g = suml l h.
Proof. intros H. unfold suml. f_equal. apply map_ext_in. exact H. Qed.
Lemma suml_sum {A} (l : list A) n (g : A -> nat -> R) : suml l (fun a => sum n (g a)) = sum n (fun i => suml l (fun a => g a i)).
Proof.
  unfold suml. induction l as [|a l IH]; cbn [map fold_right].
  - symmetry. apply sum_zero. reflexivity.
  - rewrite IH, sum_plus. reflexivity.
Qed.
Lemma suml_scal {A} (l : list A) c (g : A -> R) : suml l (fun a => c * g a) = c * suml l g.
Proof. unfold suml. induction l as [|a l IH]; cbn [map fold_right]; [ring|]. rewrite IH. ring. Qed.
Lemma suml_map {A B} (h : A -> B) (l : list A) g : suml (map h l) g = suml l (fun a => g (h a)).
Proof. unfold suml. rewrite map_map. reflexivity. Qed.

Definition rot_nbr (g : nat -> nat -> R) (e : nbr) : nbr :=
  let v a := g a 0%nat * nb_x e + g a 1%nat * nb_y e + g a 2%nat * nb_z e in mkNbr (nb_type e) (nb_index e) (v 0%nat) (v 1%nat) (v 2%nat) (nb_r e).

Lemma length_rotate g xs : length (rotate g xs) = length xs.
Proof. unfold rotate. rewrite map_length, seq_length. reflexivity. Qed.
Lemma nth_rotate g xs q c : (c < 3)%nat -> (3 * q + c < length xs)%nat -> nth (3 * q + c) (rotate g xs) 0 = g c 0%nat * nth (3 * q) xs 0 + g c 1%nat * nth (3 * q + 1) xs 0 + g c 2%nat * nth (3 * q + 2) xs 0.
Proof.
  intros Hc H. unfold rotate. etransitivity; [apply (nth_tab (length xs)); exact H|]. cbv beta.
  replace ((3 * q + c) / 3)%nat with q by (rewrite Nat.mul_comm, Nat.div_add_l, Nat.div_small by lia; lia).
  replace ((3 * q + c) mod 3)%nat with c by (rewrite Nat.add_comm, Nat.mul_comm, Nat.mod_add, Nat.mod_small by lia; reflexivity).
  unfold sum. cbn [seq map fold_right]. rewrite Nat.add_0_r. ring.
Qed.

Section Rot.
Variable sph : nat -> R -> R -> R -> list R * list R.
Variable f : mace_file RNum.
Hypothesis F : file_ok f.
Variable g : nat -> nat -> R.
Variable D : nat -> nat -> nat -> R.
Hypothesis EQ : equivariant sph f g D.
Variable x : input RNum.
Hypothesis HX : input_ok f x.
Hypothesis HP : forall q, (q < list_sum (i_num_neigh x))%nat -> norm2 (i_xyz x) q <> 0.
Notation x' := (rotated g x).
Notation n := (i_num_nodes x).
Notation K := (f_num_channels f).

Lemma rotated_ok : input_ok f x'.
Proof. destruct HX. constructor; cbn [rotated i_num_nodes i_node_types i_num_neigh i_neigh_indices i_neigh_types i_xyz i_r]; auto. rewrite length_rotate. assumption. Qed.

Lemma nbrs_rot i : (i < n)%nat -> neighbours x' i = map (rot_nbr g) (neighbours x i).
Proof.
  intros Hi. unfold neighbours. cbn [rotated i_num_nodes i_node_types i_num_neigh i_neigh_indices i_neigh_types i_xyz i_r]. rewrite map_map. apply map_ext_in. intros p Hp. apply in_seq in Hp.
  assert (Hi' : (i < length (i_num_neigh x))%nat) by (rewrite (io_nn _ _ HX); exact Hi).
  pose proof (seg_le (i_num_neigh x) i Hi') as S. pose proof (io_xyz _ _ HX) as Lx. change (carrier RNum) with R in *.
  unfold rot_nbr. cbn [nb_type nb_index nb_x nb_y nb_z nb_r].
  assert (E0 : nth (3 * p) (rotate g (i_xyz x)) 0 = nth (3 * p + 0) (rotate g (i_xyz x)) 0) by (f_equal; lia).
  rewrite E0, !nth_rotate by lia. reflexivity.
Qed.

Lemma tp_rot i : tp x' i = tp x i.
Proof. reflexivity. Qed.
Lemma nbr_pos i e : (i < n)%nat -> In e (neighbours x i) -> nb_x e * nb_x e + nb_y e * nb_y e + nb_z e * nb_z e <> 0.
Proof.
  intros Hi He. unfold neighbours in He. apply in_map_iff in He. destruct He as (p & <- & Hp). apply in_seq in Hp.
  assert (Hi' : (i < length (i_num_neigh x))%nat) by (rewrite (io_nn _ _ HX); exact Hi).
  pose proof (seg_le (i_num_neigh x) i Hi') as S. apply (HP p). lia.
Qed.
Lemma Y_rot e l m : nb_x e * nb_x e + nb_y e * nb_y e + nb_z e * nb_z e <> 0 -> (l <= f_l_max f)%nat -> (m < 2 * l + 1)%nat -> Ylm sph f (rot_nbr g e) l m = turn D (Ylm sph f e) l m.
Proof.
  intros He Hl Hm. unfold Ylm at 1. unfold rot_nbr. cbn [nb_x nb_y nb_z]. etransitivity; [apply f_equal; exact (eq_sph _ _ _ _ EQ (nb_x e) (nb_y e) (nb_z e) l m He Hl Hm)|].
  unfold turn. rewrite <- sum_scal. apply sum_eq. intros m' _. unfold Ylm. ring.
Qed.
Lemma turn_eq a b l m : (forall m', (m' < 2 * l + 1)%nat -> a l m' = b l m') -> turn D a l m = turn D b l m.
Proof. intros H. unfold turn. apply sum_eq. intros m' Hm. rewrite H by exact Hm. reflexivity. Qed.
Lemma turn_scalar a : turn D a 0%nat 0%nat = a 0%nat 0%nat.
Proof. unfold turn, sum. cbn [seq map fold_right Nat.mul Nat.add]. rewrite (eq_scalar _ _ _ _ EQ). ring. Qed.

Lemma Phi0_rot i l m k : (i < n)%nat -> (l <= f_l_max f)%nat -> (m < 2 * l + 1)%nat -> Phi0 sph f x' i l m k = turn D (fun l m => Phi0 sph f x i l m k) l m.
Proof.
  intros Hi Hl Hm. unfold Phi0 at 1. rewrite nbrs_rot, suml_map by exact Hi.
  rewrite (suml_ext _ _ (fun e => sum (2 * l + 1) (fun m' => D l m m' * (radial0 f (tp x i) (nb_type e) (nb_r e) l k * Ylm sph f e l m' * nth (nb_type e * K + k) (f_H0_weights f) 0)))).
  - rewrite suml_sum. unfold turn. apply sum_eq. intros m' _. rewrite suml_scal. reflexivity.
  - intros e He. rewrite Y_rot by (auto; apply (nbr_pos i e Hi He)). unfold turn. cbn [rot_nbr nb_type nb_r]. rewrite tp_rot.
    transitivity (radial0 f (tp x i) (nb_type e) (nb_r e) l k * nth (nb_type e * K + k) (f_H0_weights f) 0 * sum (2 * l + 1) (fun m' => D l m m' * Ylm sph f e l m')); [ring|].
    rewrite <- sum_scal. apply sum_eq. intros m' _. ring.
Qed.
Lemma dens_rot i (d : nat -> nat -> R -> R) : (i < n)%nat -> suml (neighbours x' i) (fun e => d (tp x' i) (nb_type e) (nb_r e)) = suml (neighbours x i) (fun e => d (tp x i) (nb_type e) (nb_r e)).
Proof. intros Hi. rewrite nbrs_rot, suml_map by exact Hi. reflexivity. Qed.
Lemma A0_rot i l m k : (i < n)%nat -> (l <= f_l_max f)%nat -> (m < 2 * l + 1)%nat -> A0 sph f x' i l m k = turn D (fun l m => A0 sph f x i l m k) l m.
Proof.
  intros Hi Hl Hm. unfold A0. rewrite (dens_rot i (density0 f)) by exact Hi. rewrite tp_rot.
  set (den := if f_A0_scaled f then _ else _).
  rewrite (sum_eq K _ (fun q => sum (2 * l + 1) (fun m' => D l m m' * (Phi0 sph f x i l m' q * nth (q * K + k) (nth l (nth (tp x i) (f_A0_weights f) []) []) 0)))).
  - rewrite sum_swap. unfold turn, Rdiv. rewrite <- sum_scal_r. apply sum_eq. intros m' _. rewrite sum_scal. ring.
  - intros q _. rewrite Phi0_rot by assumption. unfold turn. rewrite <- sum_scal_r. apply sum_eq. intros; ring.
Qed.
Lemma all_eq (a b : nat -> nat -> R) : (forall l m, (l <= f_l_max f)%nat -> (m < 2 * l + 1)%nat -> a l m = b l m) -> all_lm f a = all_lm f b.
Proof. intros H. unfold all_lm. rewrite !flat_map_concat_map. f_equal. apply map_ext_in. intros l Hl. apply in_seq in Hl. apply map_ext_in. intros m Hm. apply in_seq in Hm. apply H; lia. Qed.
Lemma M0_rot i L M k : (i < n)%nat -> (L <= f_L_max f)%nat -> (M < 2 * L + 1)%nat -> (k < K)%nat -> M0 sph f x' i L M k = turn D (fun L M => M0 sph f x i L M k) L M.
Proof.
  intros Hi HL HM Hk. unfold M0 at 1. rewrite (all_eq _ (turn D (fun l m => A0 sph f x i l m k))) by (intros; apply A0_rot; assumption).
  rewrite tp_rot. apply (eq_M0 _ _ _ _ EQ); auto. apply (tp_lt f x HX i Hi).
Qed.
Lemma H1_rot i L M k : (i < n)%nat -> (L <= f_L_max f)%nat -> (M < 2 * L + 1)%nat -> H1 sph f x' i L M k = turn D (fun L M => H1 sph f x i L M k) L M.
Proof.
  intros Hi HL HM. unfold H1.
  rewrite (sum_eq K _ (fun q => sum (2 * L + 1) (fun m' => D L M m' * (M0 sph f x i L m' q * nth (L * K * K + q * K + k) (f_H1_weights f) 0)))).
  - rewrite sum_swap. unfold turn. apply sum_eq. intros m' _. rewrite sum_scal. reflexivity.
  - intros q Hq. rewrite M0_rot by assumption. unfold turn. rewrite <- sum_scal_r. apply sum_eq. intros; ring.
Qed.
Lemma column_ok c : (c < length (columns f))%nat -> let '(le, m1, m2) := nth c (columns f) (0, 0, 0)%nat in
  (le < length (f_Phi1_l f))%nat /\ (m1 < 2 * nth le (f_Phi1_l1 f) 0 + 1)%nat /\ (m2 < 2 * nth le (f_Phi1_l2 f) 0 + 1)%nat.
Proof.
  intros Hc. pose proof (nth_In (columns f) (0, 0, 0)%nat Hc) as H. destruct (nth c (columns f) (0, 0, 0)%nat) as [[le m1] m2]. unfold columns in H.
  apply in_flat_map in H. destruct H as (le' & H1 & H). apply in_flat_map in H. destruct H as (m1' & H2 & H). apply in_map_iff in H. destruct H as (m2' & E & H3). injection E as -> -> ->.
  apply in_seq in H1, H2, H3. lia.
Qed.
Definition msg (y : input RNum) (i k le m1 m2 : nat) : R := message sph f y i (le, m1, m2) k.
Lemma message_rot i k le m1 m2 : (i < n)%nat -> (le < length (f_Phi1_l f))%nat -> (m1 < 2 * nth le (f_Phi1_l1 f) 0 + 1)%nat -> (m2 < 2 * nth le (f_Phi1_l2 f) 0 + 1)%nat ->
  msg x' i k le m1 m2 = turn2 f D (msg x i k) le m1 m2.
Proof.
  intros Hi Hle H1' H2'. unfold msg at 1, message. rewrite nbrs_rot, suml_map by exact Hi. unfold turn2.
  set (l1 := nth le (f_Phi1_l1 f) 0%nat) in *. set (l2 := nth le (f_Phi1_l2 f) 0%nat) in *.
  rewrite (suml_ext _ _ (fun e => sum (2 * l1 + 1) (fun m1' => sum (2 * l2 + 1) (fun m2' => D l1 m1 m1' * D l2 m2 m2' *
     (radial1 f (tp x i) (nb_type e) (nb_r e) le k * Ylm sph f e l1 m1' * H1 sph f x (nb_index e) l2 m2' k))))).
  - rewrite suml_sum. apply sum_eq. intros m1' _. rewrite suml_sum. apply sum_eq. intros m2' _. rewrite suml_scal. reflexivity.
  - intros e He. destruct (nbr_ok f x HX i e Hi He) as (_ & Hj & _). cbn [rot_nbr nb_type nb_r nb_index]. rewrite Y_rot by (first [assumption | exact (nbr_pos i e Hi He) | apply (fo_l1_le _ F); exact Hle]).
    rewrite H1_rot by (auto; apply (fo_l2_le _ F); exact Hle). rewrite tp_rot. unfold turn.
    rewrite (Rmult_assoc (radial1 _ _ _ _ _ _)). rewrite <- sum_scal_r, <- sum_scal. apply sum_eq. intros m1' _.
    rewrite <- sum_scal, <- sum_scal. apply sum_eq. intros m2' _. ring.
Qed.
Lemma Phi1_rot i l m e k : (i < n)%nat -> (l <= f_l_max f)%nat -> (m < 2 * l + 1)%nat -> (e < npaths f l)%nat -> Phi1 sph f x' i l m e k = turn D (fun l m => Phi1 sph f x i l m e k) l m.
Proof.
  intros Hi Hl Hm He. assert (C : forall y l m, Phi1 sph f y i l m e k = coupled f (msg y i k) l m e).
  { intros y l' m'. unfold Phi1, coupled. apply sum_eq. intros p _. destruct (_ =? _)%nat; [|reflexivity]. f_equal; destruct (nth _ (columns f) _) as [[le m1] m2]; reflexivity. }
  rewrite C. rewrite (turn_eq _ (fun l m => coupled f (msg x i k) l m e)) by (intros; apply C).
  rewrite <- (eq_Phi1 _ _ _ _ EQ) by assumption. unfold coupled. apply sum_eq. intros p Hp. destruct (_ =? _)%nat; [|reflexivity]. f_equal.
  assert (Hc : (nth p (f_Phi1_lelm1lm2 f) 0 < length (columns f))%nat) by (rewrite (length_columns f F); apply (fo_lel_lt _ F); exact Hp).
  pose proof (column_ok _ Hc) as Q. destruct (nth _ (columns f) _) as [[le m1] m2]. apply message_rot; tauto.
Qed.
Lemma A1_rot i l m k : (i < n)%nat -> (l <= f_l_max f)%nat -> (m < 2 * l + 1)%nat -> A1 sph f x' i l m k = turn D (fun l m => A1 sph f x i l m k) l m.
Proof.
  intros Hi Hl Hm. unfold A1. rewrite (dens_rot i (density1 f)) by exact Hi.
  set (den := if f_A1_scaled f then _ else _).
  rewrite (sum_eq (npaths f l) _ (fun e => sum (2 * l + 1) (fun m' => D l m m' * sum K (fun q => Phi1 sph f x i l m' e q * nth ((e * K + q) * K + k) (nth l (f_A1_weights f) []) 0)))).
  - rewrite sum_swap. unfold turn, Rdiv. rewrite <- sum_scal_r. apply sum_eq. intros m' _. rewrite sum_scal. ring.
  - intros e He. rewrite (sum_eq K _ (fun q => sum (2 * l + 1) (fun m' => D l m m' * (Phi1 sph f x i l m' e q * nth ((e * K + q) * K + k) (nth l (f_A1_weights f) []) 0)))).
    + rewrite sum_swap. apply sum_eq. intros m' _. apply sum_scal.
    + intros q _. rewrite Phi1_rot by assumption. unfold turn. rewrite <- sum_scal_r. apply sum_eq. intros; ring.
Qed.
Lemma M1_rot i k : (i < n)%nat -> (k < K)%nat -> M1 sph f x' i k = M1 sph f x i k.
Proof.
  intros Hi Hk. unfold M1 at 1. rewrite (all_eq _ (turn D (fun l m => A1 sph f x i l m k))) by (intros; apply A1_rot; assumption).
  rewrite tp_rot. apply (eq_M1 _ _ _ _ EQ); auto. apply (tp_lt f x HX i Hi).
Qed.
Lemma H100_rot i k : (i < n)%nat -> H1 sph f x' i 0 0 k = H1 sph f x i 0 0 k.
Proof. intros Hi. rewrite H1_rot by (auto; lia). apply turn_scalar. Qed.
Lemma energy_rot i : (i < n)%nat -> node_energy sph f x' i = node_energy sph f x i.
Proof.
  intros Hi. unfold node_energy. rewrite tp_rot. f_equal; [f_equal; [f_equal|]|].
  - unfold repulsion. destruct (f_has_zbl f); [|reflexivity]. rewrite nbrs_rot, suml_map by exact Hi. reflexivity.
  - apply sum_eq. intros k _. rewrite H100_rot by exact Hi. reflexivity.
  - apply sum_eq. intros j _. do 2 f_equal. apply sum_eq. intros k Hk. f_equal. unfold H2. rewrite tp_rot. f_equal; apply sum_eq; intros q Hq.
    + rewrite H100_rot by exact Hi. reflexivity.
    + rewrite M1_rot by assumption. reflexivity.
Qed.
End Rot.
