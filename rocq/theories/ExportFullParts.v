(** The parts of an export: each part succeeds and its entries are given by formulas. *)
From Coq Require Import List Arith ZArith Lia Bool Permutation Sorted Reals Lra.
From Verif Require Import Base BaseLemmas Instances RSums RList MaceModel ExportModel ExportSpec ExportProofs ExportPolyModel ExportPolySpec ExportPoly ExportPolyThms
  EnergySpec EnergyProofs ExportFullModel TorchSpec ExportFullPre.
Import ListNotations.
Local Open Scope R_scope.

Lemma step_knots rc n : grid_step (N:=RNum) rc n = knot_step rc n.
Proof.
  unfold grid_step, knot_step. rewrite RNum_ofnat, RNum_lit. change (IZR (Z.pos (10 ^ 12))) with 1000000000000. replace (10 ^ 12) with 1000000000000 by ring. reflexivity.
Qed.
Lemma grid_knots rc n : grid (N:=RNum) rc n = knots rc n.
Proof.
  unfold grid, for_all, knots. apply map_ext. intros i. rewrite step_knots, RNum_ofnat, RNum_lit. change (IZR (Z.pos (10 ^ 12))) with 1000000000000.
  replace (10 ^ 12) with 1000000000000 by ring. reflexivity.
Qed.
Lemma length_knots rc n : length (knots rc n) = n.
Proof. unfold knots. rewrite map_length, seq_length. reflexivity. Qed.
Lemma sqrt_nat m : nsqrt (n:=RNum) (nofnat m) = sqrt (INR m).
Proof. rewrite RNum_ofnat. reflexivity. Qed.

Lemma rd_len {A} (l : list A) i d m : length l = m -> (i < m)%nat -> rd l i = Some (nth i l d).
Proof. intros <- H. apply rd_some. exact H. Qed.

Section Parts.
Variables (rank : nat -> list R -> nat) (inv : nat -> list R -> list R) (spl : list R -> list R -> list R * list R).
Variable t : torch_model RNum.
Variable C : nat -> nat -> nat -> nat -> R.
Hypothesis HT : torch_ok t C.
Hypothesis Hspl : spl_ok spl.
Variable an : list nat.
Hypothesis Han : StronglySorted lt an.
Hypothesis Hinc : incl an (t_atomic_numbers t).
Variable points : nat.
Notation mn := (t_atomic_numbers t).
Notation n := (length (t_atomic_numbers t)).
Notation K := (t_num_channels t).
Notation T := (length an).
Notation P := (length (t_paths t)).
Notation sK := (sqrt (INR K)).
Notation sn := (sqrt (INR n)).
Notation snK := (sqrt (INR (n * K))).

Definition ix (a : nat) : nat := match py_index mn a with Some i => i | None => 0%nat end.
Lemma ix_ok a : In a an -> py_index mn a = Some (ix a) /\ (ix a < n)%nat /\ nth (ix a) mn 0%nat = a.
Proof. intros H. destruct (py_index_ok mn a (Hinc a H)) as (z & E & Hz & En). unfold ix. rewrite E. auto. Qed.
Lemma ix_el j z : (j < T)%nat -> (z < n)%nat -> nth z mn 0%nat = nth j an 0%nat -> ix (nth j an 0%nat) = z.
Proof. intros Hj Hz E. unfold ix. rewrite <- E, (py_index_nth mn z (to_mn t C HT) Hz). reflexivity. Qed.
Lemma an_in j : (j < T)%nat -> In (nth j an 0%nat) an.
Proof. intros H. apply nth_In. exact H. Qed.

(** energies *)
Definition xE : list R := map (fun a => nth (ix a) (t_atomic_energies t) 0 + t_shift t) an.
Lemma energies_ok : export_energies t an = Some xE.
Proof.
  unfold export_energies. apply append_all_ok. intros a Ha. destruct (ix_ok a Ha) as (E & Hi & _). rewrite E. cbn.
  rewrite (rd_some _ _ 0); [reflexivity|]. exact (eq_ind_r (fun m => ix a < m)%nat Hi (to_E0 t C HT)).
Qed.

(** radial tables *)
Definition vals (g : R -> R) : list R := map g (knots (t_r_cut t) points).
Definition ders (g : R -> R) : list R := snd (spl (knots (t_r_cut t) points) (vals g)).
Definition xRv (cols : nat) (g : nat -> nat -> R -> list R) (p : nat * nat) : list (list R) :=
  map (fun k => vals (fun r => nth k (g (ix (fst p)) (ix (snd p)) r) 0)) (seq 0 cols).
Definition xRd (cols : nat) (g : nat -> nat -> R -> list R) (p : nat * nat) : list (list R) :=
  map (fun k => ders (fun r => nth k (g (ix (fst p)) (ix (snd p)) r) 0)) (seq 0 cols).
Lemma vals_ok g : fst (spl (knots (t_r_cut t) points) (vals g)) = vals g /\ length (ders g) = points /\ length (vals g) = points.
Proof.
  destruct (Hspl (knots (t_r_cut t) points) (vals g)) as [E1 E2]; [unfold vals; apply map_length|]. split; [exact E1|].
  unfold ders. rewrite E2. unfold vals. rewrite map_length, length_knots. auto.
Qed.
Lemma pairs_in p : In p (export_pairs an) -> In (fst p) an /\ In (snd p) an.
Proof.
  intros H. unfold export_pairs in H. apply in_flat_map in H. destruct H as (a & Ha & H). apply in_flat_map in H. destruct H as (b & Hb & H).
  destruct (b <? a)%nat; [destruct H|]. destruct H as [<-|[]]. auto.
Qed.
Lemma radial_ok cols g : export_radial spl t an points cols g = Some (map (xRv cols g) (export_pairs an), map (xRd cols g) (export_pairs an)).
Proof.
  unfold export_radial. rewrite (append_all_ok _ _ (fun p => (xRv cols g p, xRd cols g p))).
  - cbn. rewrite !map_map. reflexivity.
  - intros [a b] Hp. destruct (pairs_in _ Hp) as [Ha Hb]. cbn [fst snd] in Ha, Hb. destruct (ix_ok a Ha) as (Ea & _). destruct (ix_ok b Hb) as (Eb & _).
    rewrite Ea. cbn. rewrite Eb. cbn. rewrite !map_map, grid_knots. f_equal. f_equal. unfold xRv. apply map_ext. intros k. cbn [fst snd]. apply vals_ok.
Qed.
Definition xDv (g : nat -> nat -> R -> R) (p : nat * nat) : list R := vals (g (ix (fst p)) (ix (snd p))).
Definition xDd (g : nat -> nat -> R -> R) (p : nat * nat) : list R := ders (g (ix (fst p)) (ix (snd p))).
Lemma density_ok' g : export_density spl t an points g = Some (map (xDv g) (export_pairs an), map (xDd g) (export_pairs an)).
Proof.
  unfold export_density. rewrite (append_all_ok _ _ (fun p => (xDv g p, xDd g p))).
  - cbn. rewrite !map_map. reflexivity.
  - intros [a b] Hp. destruct (pairs_in _ Hp) as [Ha Hb]. cbn [fst snd] in Ha, Hb. destruct (ix_ok a Ha) as (Ea & _). destruct (ix_ok b Hb) as (Eb & _).
    rewrite Ea. cbn. rewrite Eb. cbn. rewrite grid_knots. f_equal. rewrite (surjective_pairing (spl _ _)) at 1. f_equal. apply vals_ok.
Qed.
(** the table of a pair of types *)
Lemma entry_pairs {A} (d : A) (G : nat * nat -> A) u v : (u < T)%nat -> (v < T)%nat ->
  pair_entry d T (map G (export_pairs an)) u v = G (nth (Nat.min u v) an 0%nat, nth (Nat.max u v) an 0%nat).
Proof.
  intros Hu Hv. unfold pair_entry. rewrite export_pairs_eq by exact Han. rewrite map_map.
  set (q := (Nat.min u v * (2 * T - Nat.min u v - 1) / 2 + Nat.max u v)%nat).
  assert (E : nth_error (upairs T) q = Some (Nat.min u v, Nat.max u v)) by (apply upairs_nth; lia).
  assert (Hq : (q < length (upairs T))%nat) by (apply nth_error_Some; rewrite E; discriminate).
  pose proof (find_combine (upairs T) (map (fun p => G (nth (fst p) an 0%nat, nth (snd p) an 0%nat)) (upairs T)) q (Nat.min u v, Nat.max u v) d (upairs_nodup T) E) as F.
  rewrite map_length in F. specialize (F Hq). cbn [fst snd] in F. rewrite F.
  rewrite (nth_indep _ d (G (nth (fst (0, 0)%nat) an 0%nat, nth (snd (0, 0)%nat) an 0%nat))) by (rewrite map_length; exact Hq).
  rewrite (map_nth (fun p => G (nth (fst p) an 0%nat, nth (snd p) an 0%nat))). rewrite (nth_error_nth _ _ _ E). reflexivity.
Qed.

(** H0 *)
Definition H0all : list R := mdiv (N:=RNum) (matmul (N:=RNum) n K K (mdiv (N:=RNum) (t_node_embedding t) sn) (t_linear_up0 t)) sK.
Definition xH0 : list R := flat_map (fun a => slice (N:=RNum) (ix a * K) K H0all) an.
Lemma H0_ok : export_H0 t an = Some xH0.
Proof.
  unfold export_H0. rewrite !sqrt_nat. rewrite (reshaped_ok _ _ (to_emb t C HT)). cbn. rewrite (reshaped_ok _ _ (to_up0 t C HT)). cbn.
  rewrite (append_all_ok _ _ ix) by (intros a Ha; apply ix_ok; exact Ha). cbn. fold H0all. unfold xH0. f_equal.
  rewrite flat_map_concat_map, map_map, <- flat_map_concat_map. reflexivity.
Qed.
Lemma length_H0all : length H0all = (n * K)%nat.
Proof. unfold H0all. rewrite length_mdiv, length_matmul. reflexivity. Qed.
Lemma slice_row a : In a an -> length (slice (N:=RNum) (ix a * K) K H0all) = K.
Proof. intros Ha. apply length_slice. rewrite length_H0all. destruct (ix_ok a Ha) as (_ & H & _). nia. Qed.
Lemma length_xH0 : length xH0 = (T * K)%nat.
Proof.
  unfold xH0. assert (G : forall l, incl l an -> length (flat_map (fun a => slice (N:=RNum) (ix a * K) K H0all) l) = (length l * K)%nat).
  { induction l as [|a l IH]; intros Hl; [reflexivity|]. cbn [flat_map length]. rewrite app_length, slice_row by (apply Hl; left; reflexivity).
    rewrite IH by (intros b Hb; apply Hl; right; exact Hb). lia. }
  apply G. apply incl_refl.
Qed.
Lemma nth_flat_rows {A} (g : A -> list R) c (l : list A) j k da : (forall a, In a l -> length (g a) = c) -> (j < length l)%nat -> (k < c)%nat ->
  nth (j * c + k) (flat_map g l) 0 = nth k (g (nth j l da)) 0.
Proof.
  intros H. revert j. induction l as [|a l IH]; intros j Hj Hk; [cbn in Hj; lia|]. cbn [flat_map]. pose proof (H a (or_introl eq_refl)) as La. destruct j as [|j].
  - cbn [Nat.mul Nat.add nth]. apply app_nth1. lia.
  - rewrite app_nth2 by nia. rewrite La. replace (S j * c + k - c)%nat with (j * c + k)%nat by nia. cbn [nth]. apply IH; auto; [intros b Hb; apply H; right; exact Hb|cbn in Hj; lia].
Qed.
Lemma nth_H0 j z k : (j < T)%nat -> (z < n)%nat -> nth z mn 0%nat = nth j an 0%nat -> (k < K)%nat -> nth (j * K + k) xH0 0 = up0 t z k.
Proof.
  intros Hj Hz Ez Hk. unfold xH0. etransitivity; [exact (nth_flat_rows (fun a => slice (N:=RNum) (ix a * K) K H0all) K an j k 0%nat (fun a Ha => slice_row a Ha) Hj Hk)|]. cbn beta. rewrite (ix_el j z Hj Hz Ez).
  rewrite nth_slice by exact Hk. unfold H0all. rewrite nth_mdiv, nth_matmul by auto. unfold up0. rewrite linear_r. f_equal. apply rsum_ext. intros q Hq.
  rewrite nth_mdiv, linear_one_hot by exact Hz. reflexivity.
Qed.

(** A0 *)
Definition xA0l (scaled : bool) (a l : nat) : list R :=
  let w := mdiv (N:=RNum) (nth l (t_linear0 t) []) sK in
  mdiv (N:=RNum) (matmul (N:=RNum) K K K (if scaled then w else mdiv (N:=RNum) w (t_avg_num_neighbors0 t)) (middle (N:=RNum) K n K (ix a) (nth l (t_skip_tp0 t) []))) snK.
Definition xA0 (scaled : bool) : list (list (list R)) := map (fun a => map (xA0l scaled a) (seq 0 (t_l_max t + 1))) an.
Lemma A0_ok scaled : export_A0 t scaled an = Some (xA0 scaled).
Proof.
  unfold export_A0. rewrite !sqrt_nat, (proj1 (to_skip0 t C HT)). apply append_all_ok. intros a Ha. destruct (ix_ok a Ha) as (E & _). rewrite E. cbn -[carrier].
  apply append_all_ok. intros l Hl. apply in_seq in Hl. rewrite (rd_len (t_skip_tp0 t) l [] _ (proj1 (to_skip0 t C HT)) ltac:(lia)). cbn -[carrier].
  rewrite (rd_len (t_linear0 t) l [] _ (proj1 (to_lin0 t C HT)) ltac:(lia)). reflexivity.
Qed.
Lemma nth_A0w scaled j z l q k : (j < T)%nat -> (z < n)%nat -> nth z mn 0%nat = nth j an 0%nat -> (l <= t_l_max t)%nat -> (q < K)%nat -> (k < K)%nat ->
  nth (q * K + k) (nth l (nth j (xA0 scaled) []) []) 0 =
  rsum K (fun u => nth (q * K + u) (nth l (t_linear0 t) []) 0 / sK / (if scaled then 1 else t_avg_num_neighbors0 t) * nth ((u * n + z) * K + k) (nth l (t_skip_tp0 t) []) 0) / snK.
Proof.
  intros Hj Hz Ez Hl Hq Hk. unfold xA0. rewrite (nth_indep _ [] (map (xA0l scaled 0%nat) (seq 0 (t_l_max t + 1)))) by (rewrite map_length; exact Hj).
  rewrite (map_nth (fun a => map (xA0l scaled a) (seq 0 (t_l_max t + 1)))). rewrite (nth_map_seq (xA0l scaled (nth j an 0%nat)) (t_l_max t + 1) l []) by lia. unfold xA0l.
  rewrite nth_mdiv, nth_matmul by auto. f_equal. apply rsum_ext. intros u Hu. rewrite nth_middle by auto. rewrite (ix_el j z Hj Hz Ez). f_equal.
  destruct scaled; rewrite ?nth_mdiv; [rewrite Rdiv_1|]; reflexivity.
Qed.

(** H1 *)
Definition xH1l (l : nat) : list R :=
  matmul (N:=RNum) K K K (slice (N:=RNum) (l * K * K) (K * K) (mdiv (N:=RNum) (t_prod_linear0 t) sK)) (slice (N:=RNum) (l * K * K) (K * K) (mdiv (N:=RNum) (t_linear_up1 t) sK)).
Definition xH1 : list R := flat_map xH1l (seq 0 (t_L_max t + 1)).
Lemma H1_ok : export_H1 t = Some xH1.
Proof. unfold export_H1. rewrite !sqrt_nat. rewrite (reshaped_ok _ _ (to_prod0 t C HT)). cbn. rewrite (reshaped_ok _ _ (to_up1 t C HT)). reflexivity. Qed.
Lemma length_xH1l l : length (xH1l l) = (K * K)%nat.
Proof. apply length_matmul. Qed.
Lemma length_xH1 : length xH1 = ((t_L_max t + 1) * K * K)%nat.
Proof. unfold xH1. rewrite (length_flat_map_const _ _ (K * K)) by (intros; apply length_xH1l). rewrite seq_length. lia. Qed.
Lemma nth_H1w L q k : (L <= t_L_max t)%nat -> (q < K)%nat -> (k < K)%nat ->
  nth (L * K * K + q * K + k) xH1 0 = rsum K (fun u => nth (q * K + u) (skipn (L * K * K) (t_prod_linear0 t)) 0 / sK * (nth (u * K + k) (skipn (L * K * K) (t_linear_up1 t)) 0 / sK)).
Proof.
  intros HL Hq Hk. unfold xH1. replace (L * K * K + q * K + k)%nat with (L * (K * K) + (q * K + k))%nat by lia.
  rewrite (nth_flat_rows xH1l (K * K) _ L (q * K + k) 0%nat) by (try (intros; apply length_xH1l); try (rewrite seq_length; lia); nia).
  rewrite seq_nth by lia. unfold xH1l. rewrite nth_matmul by auto. apply rsum_ext. intros u Hu. cbn [Nat.add].
  rewrite !nth_slice by nia. rewrite !nth_mdiv, !nth_skipn_add. reflexivity.
Qed.

(** A1 *)
Notation pl l := (length (paths_of t l)).
Lemma num_eta l : length (filter (fun p => fst (fst p) =? l)%nat (t_paths t)) = pl l.
Proof.
  unfold paths_of, degree. pose proof (filter_count_seq (map (fun p => fst (fst p)) (t_paths t)) l) as E. rewrite map_length in E.
  transitivity (length (filter (fun x => x =? l)%nat (map (fun p => fst (fst p)) (t_paths t)))).
  - generalize (t_paths t). intros ps. induction ps as [|p ps IH]; [reflexivity|]. cbn. destruct (_ =? l)%nat; cbn; rewrite IH; reflexivity.
  - rewrite <- E. f_equal. apply filter_ext. intros le. f_equal. exact (map_nth (fun p => fst (fst p)) (t_paths t) (0, 0, 0)%nat le).
Qed.
Definition xA1l (scaled : bool) (l : nat) : list R :=
  let w := mdiv (N:=RNum) (nth l (t_linear1 t) []) (sqrt (INR (pl l * K))) in if scaled then w else mdiv (N:=RNum) w (t_avg_num_neighbors1 t).
Definition xA1 (scaled : bool) : list (list R) := map (xA1l scaled) (seq 0 (t_l_max t + 1)).
Lemma length_xA1l scaled l : (l <= t_l_max t)%nat -> length (xA1l scaled l) = (pl l * K * K)%nat.
Proof. intros Hl. unfold xA1l. destruct scaled; rewrite ?length_mdiv; apply (proj2 (to_lin1 t C HT)); exact Hl. Qed.
Lemma A1_ok scaled : export_A1 t scaled = Some (xA1 scaled).
Proof.
  unfold export_A1. apply append_all_ok. intros l Hl. apply in_seq in Hl. rewrite (rd_len (t_linear1 t) l [] _ (proj1 (to_lin1 t C HT)) ltac:(lia)). rewrite sqrt_nat, num_eta. apply (reshaped_ok _ (xA1l scaled l)). apply length_xA1l. lia.
Qed.
Lemma nth_A1w scaled l p : (l <= t_l_max t)%nat ->
  nth p (nth l (xA1 scaled) []) 0 = nth p (nth l (t_linear1 t) []) 0 / sqrt (INR (pl l * K)) / (if scaled then 1 else t_avg_num_neighbors1 t).
Proof.
  intros Hl. unfold xA1. rewrite (nth_map_seq (xA1l scaled) (t_l_max t + 1) l []) by lia. unfold xA1l. destruct scaled; rewrite ?nth_mdiv; [rewrite Rdiv_1|]; reflexivity.
Qed.

(** H2 and readouts *)
Hypothesis Hinv : inv_ok rank inv.
Hypothesis Hrank : (K <= rank K (fused t))%nat.
Lemma length_fused : length (fused t) = (K * K)%nat.
Proof.
  unfold fused. rewrite map_length, firstn_length. pose proof (to_up1 t C HT) as H. rewrite H. nia.
Qed.
Lemma fused_inv i j : (i < K)%nat -> (j < K)%nat -> rsum K (fun q => nth (i * K + q) (fused t) 0 * nth (q * K + j) (inv K (fused t)) 0) = one_hot j i.
Proof. intros Hi Hj. rewrite <- sum_r. apply Hinv; auto. apply length_fused. Qed.
Lemma nth_fused i k : (i < K)%nat -> (k < K)%nat -> nth (i * K + k) (fused t) 0 = nth (i * K + k) (t_linear_up1 t) 0 / sK.
Proof.
  intros Hi Hk. unfold fused. transitivity (nth (i * K + k) (firstn (K * K) (t_linear_up1 t)) 0 / sK).
  - replace 0 with (0 / sK) at 1 by (unfold Rdiv; apply Rmult_0_l). exact (map_nth (fun v => v / sK) _ 0 _).
  - rewrite nth_firstn_lt by nia. reflexivity.
Qed.
Definition xH2 : list (list R) := map (fun a => matmul (N:=RNum) K K K (inv K (fused t)) (mdiv (N:=RNum) (middle (N:=RNum) K n K (ix a) (t_skip_tp1 t)) snK)) an.
Lemma H2_ok : export_H2_H1 rank inv t an = Some xH2.
Proof.
  unfold export_H2_H1. rewrite !sqrt_nat. change (mdiv (N:=RNum) (slice (N:=RNum) 0 (K * K) (t_linear_up1 t)) sK) with (fused t).
  replace (rank K (fused t) <? K)%nat with false by (symmetry; apply Nat.ltb_ge; exact Hrank).
  apply append_all_ok. intros a Ha. destruct (ix_ok a Ha) as (E & _). rewrite E. reflexivity.
Qed.
Lemma nth_H2w j z q k : (j < T)%nat -> (z < n)%nat -> nth z mn 0%nat = nth j an 0%nat -> (q < K)%nat -> (k < K)%nat ->
  nth (q * K + k) (nth j xH2 []) 0 = rsum K (fun u => nth (q * K + u) (inv K (fused t)) 0 * (nth ((u * n + z) * K + k) (t_skip_tp1 t) 0 / snK)).
Proof.
  intros Hj Hz Ez Hq Hk. unfold xH2. set (g := fun a => matmul (N:=RNum) K K K (inv K (fused t)) (mdiv (N:=RNum) (middle (N:=RNum) K n K (ix a) (t_skip_tp1 t)) snK)).
  rewrite (nth_indep _ [] (g 0%nat)) by (rewrite map_length; exact Hj). rewrite (map_nth g). unfold g. rewrite nth_matmul by auto.
  apply rsum_ext. intros u Hu. rewrite nth_mdiv, nth_middle by auto. rewrite (ix_el j z Hj Hz Ez). reflexivity.
Qed.
Definition xr1 : list R := map (fun v => v * t_scale t) (matmul (N:=RNum) K K 1 (inv K (fused t)) (mdiv (N:=RNum) (t_readout0 t) sK)).
Lemma r1_ok : export_readout_1 inv t = Some xr1.
Proof.
  unfold export_readout_1. rewrite !sqrt_nat. rewrite reshaped_ok by (rewrite length_mdiv; apply (to_up1 t C HT)). cbn. unfold xr1. f_equal. f_equal. f_equal. f_equal.
  unfold slice, fused, mdiv. cbn [skipn]. rewrite firstn_map. reflexivity.
Qed.
Lemma nth_r1 k : (k < K)%nat -> nth k xr1 0 = rsum K (fun u => nth (k * K + u) (inv K (fused t)) 0 * (nth u (t_readout0 t) 0 / sK)) * t_scale t.
Proof.
  intros Hk. unfold xr1. transitivity (nth k (matmul (N:=RNum) K K 1 (inv K (fused t)) (mdiv (N:=RNum) (t_readout0 t) sK)) 0 * t_scale t).
  - replace 0 with (0 * t_scale t) at 1 by apply Rmult_0_l. exact (map_nth (fun v => v * t_scale t) _ 0 k).
  - f_equal. replace k with (k * 1 + 0)%nat at 1 by lia. rewrite nth_matmul by lia. apply rsum_ext. intros u Hu. rewrite nth_mdiv. replace (u * 1 + 0)%nat with u by lia. reflexivity.
Qed.
Definition xr2 : list R := mdiv (N:=RNum) (for_all (16 * K) (fun p => nth (p mod K * 16 + p / K)%nat (t_readout1_1 t) 0)) sK.
Lemma r2_ok : export_readout_2_1 t = Some xr2.
Proof. unfold export_readout_2_1. rewrite sqrt_nat. rewrite (reshaped_ok _ _ (to_r1 t C HT)). reflexivity. Qed.
Lemma length_xr2 : length xr2 = (K * 16)%nat.
Proof. unfold xr2. rewrite length_mdiv, length_for_all. lia. Qed.
Lemma nth_r2 j k : (j < 16)%nat -> (k < K)%nat -> nth (j * K + k) xr2 0 = nth (k * 16 + j) (t_readout1_1 t) 0 / sK.
Proof. intros Hj Hk. unfold xr2. rewrite nth_mdiv, nth_for_all by nia. destruct (divK j K k Hk) as [-> ->]. reflexivity. Qed.
Lemma nth_r3 j : nth j (export_readout_2_2 t) 0 = nth j (t_readout1_2 t) 0 / sqrt (INR 16) * t_scale t.
Proof.
  unfold export_readout_2_2. rewrite sqrt_nat. replace 0 with (0 / sqrt (INR 16) * t_scale t) at 1 by (unfold Rdiv; ring).
  exact (map_nth (fun v => v / sqrt (INR 16) * t_scale t) (t_readout1_2 t) 0 j).
Qed.
Lemma nth_H2M q : nth q (export_H2_M1 t) 0 = nth q (t_prod_linear1 t) 0 / sK.
Proof. unfold export_H2_M1. rewrite sqrt_nat. apply nth_mdiv. Qed.
End Parts.
