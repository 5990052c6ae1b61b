(** The coupling table of an export: its entries are the coupling coefficients of conv_tp, each filed under its row and column. *)
From Coq Require Import List Arith ZArith Lia Bool Permutation Sorted Reals Lra.
From Verif Require Import Base BaseLemmas Instances RSums RList MaceModel ExportModel ExportSpec ExportProofs ExportPolyModel ExportPolySpec ExportPoly ExportPolyThms
  EnergySpec EnergyProofs ExportFullModel TorchSpec ExportFullPre ExportFullParts.
Import ListNotations.
Local Open Scope R_scope.

Section Coupling.
Variable t : torch_model RNum.
Variable C : nat -> nat -> nat -> nat -> R.
Hypothesis HT : torch_ok t C.
Notation K := (t_num_channels t).
Notation P := (length (t_paths t)).
Notation path le := (nth le (t_paths t) (0, 0, 0)%nat).
Notation Ll := (map (fun p => fst (fst p)) (t_paths t)).
Notation L1 := (map (fun p => snd (fst p)) (t_paths t)).
Notation L2 := (map snd (t_paths t)).
Definition pl1 (le : nat) : nat := snd (fst (path le)).
Definition pl2 (le : nat) : nat := snd (path le).
Lemma nth_Ll le : nth le Ll 0%nat = degree t le.
Proof. exact (map_nth (fun p => fst (fst p)) (t_paths t) (0, 0, 0)%nat le). Qed.
Lemma nth_L1 le : nth le L1 0%nat = pl1 le.
Proof. exact (map_nth (fun p => snd (fst p)) (t_paths t) (0, 0, 0)%nat le). Qed.
Lemma nth_L2 le : nth le L2 0%nat = pl2 le.
Proof. exact (map_nth snd (t_paths t) (0, 0, 0)%nat le). Qed.
Lemma Ll_at le : (le < P)%nat -> nth_error Ll le = Some (degree t le).
Proof. intros H. rewrite <- nth_Ll. apply nth_error_nth'. rewrite map_length. exact H. Qed.
Lemma pl_le le : (le < P)%nat -> (degree t le <= t_l_max t)%nat /\ (pl1 le <= t_l_max t)%nat /\ (pl2 le <= t_L_max t)%nat.
Proof.
  intros H. split.
  - apply (to_all_l t C HT). rewrite <- nth_Ll. apply nth_In. rewrite map_length. exact H.
  - apply (to_l12 t C HT). apply nth_In. exact H.
Qed.

(** reading the tensor product *)
Lemma uvu_block le W H Y : nth le (t_paths t) (0, 0, 0)%nat = (degree t le, pl1 le, pl2 le) /\
  forall k, (k < K)%nat -> forall m, (m < 2 * degree t le + 1)%nat -> (le < P)%nat ->
  nth (out_pos t le k m) (uvu K (t_paths t) C H Y W) 0 =
  nth (le * K + k) W 0 * rsum (2 * pl1 le + 1) (fun m1 => rsum (2 * pl2 le + 1) (fun m2 =>
    C le m m1 m2 * nth (pl1 le * pl1 le + m1) Y 0 * nth (pl2 le * pl2 le * K + k * (2 * pl2 le + 1) + m2) H 0)).
Proof.
  assert (E : forall j, path j = (degree t j, pl1 j, pl2 j)) by (intros j; unfold degree, pl1, pl2; destruct (path j) as [[a b] c]; reflexivity).
  split; [apply E|]. intros k Hk m Hm Hle. unfold uvu. match goal with |- nth _ (flat_map ?G _) _ = _ => set (g := G) end. unfold out_pos.
  assert (Lg : forall j, length (g j) = ((2 * degree t j + 1) * K)%nat).
  { intros j. unfold g. rewrite E. rewrite (length_flat_map_const _ _ (2 * degree t j + 1)) by (intros; rewrite map_length, seq_length; reflexivity). rewrite seq_length. lia. }
  replace (list_sum (map (fun j => 2 * degree t j + 1) (seq 0 le)) * K + k * (2 * degree t le + 1) + m)%nat
    with (list_sum (map (fun j => length (g j)) (seq 0 le)) + (k * (2 * degree t le + 1) + m))%nat.
  2:{ rewrite (map_ext (fun j => length (g j)) (fun j => (2 * degree t j + 1) * K)%nat Lg). rewrite <- Nat.add_assoc. f_equal. clear.
      induction (seq 0 le) as [|j l IH]; [reflexivity|]. cbn [map list_sum fold_right] in *. unfold list_sum in IH. rewrite IH. lia. }
  rewrite (nth_by_offs g P le (k * (2 * degree t le + 1) + m) _ 0 Hle eq_refl) by (rewrite Lg; nia).
  unfold g. rewrite E. rewrite (nth_flat_const _ _ (2 * degree t le + 1) k m k) by (auto; try (intros; rewrite map_length, seq_length; reflexivity); apply seq_error; exact Hk).
  rewrite (nth_map_seq (fun m => _)) by exact Hm. f_equal. rewrite sum_r. apply rsum_ext. intros m1 _. rewrite sum_r. reflexivity.
Qed.

(** one unit vector *)
Definition unitY (l1 m1 : nat) : list R := upd (repeat 0 ((t_l_max t + 1) * (t_l_max t + 1))) (l1 * l1 + m1) 1.
Definition unitH (l2 m2 : nat) : list R := upd (repeat 0 ((t_L_max t + 1) * (t_L_max t + 1) * K)) (l2 * l2 * K + m2) 1.
Lemma nth_upd_unit n p q : (p < n)%nat -> nth q (upd (repeat 0 n) p 1) 0 = if (q =? p)%nat then 1 else 0.
Proof.
  intros Hp. revert p q Hp. induction n as [|n IH]; intros p q Hp; [lia|]. cbn [repeat]. destruct p as [|p].
  - cbn. destruct q as [|q]; [reflexivity|]. cbn. clear. revert q. induction n as [|n IH]; intros [|q]; cbn; auto.
  - destruct q as [|q]; [reflexivity|]. cbn. apply IH. lia.
Qed.
Lemma length_upd' {A} (l : list A) p v : length (upd l p v) = length l.
Proof. revert p. induction l as [|a l IH]; intros [|p]; cbn; auto. Qed.
Lemma lm_inj l m l' m' : (m < 2 * l + 1)%nat -> (m' < 2 * l' + 1)%nat -> (l * l + m = l' * l' + m')%nat -> l = l' /\ m = m'.
Proof. intros H H' E. assert (l = l'). { destruct (lt_eq_lt_dec l l') as [[?|?]|?]; [nia|auto|nia]. } subst. split; lia. Qed.
Lemma kpos_inj l m l' m' : (1 <= K)%nat -> (m < 2 * l + 1)%nat -> (m' < 2 * l' + 1)%nat -> (l * l * K + m = l' * l' * K + m')%nat -> l = l' /\ m = m'.
Proof.
  intros HK H H' E. assert (l = l').
  { destruct (lt_eq_lt_dec l l') as [[Q|?]|Q]; [|auto|].
    - assert (l * l + 2 * l + 1 <= l' * l')%nat by nia. assert ((l * l + 2 * l + 1) * K <= l' * l' * K)%nat by (apply Nat.mul_le_mono_r; auto). nia.
    - assert (l' * l' + 2 * l' + 1 <= l * l)%nat by nia. assert ((l' * l' + 2 * l' + 1) * K <= l * l * K)%nat by (apply Nat.mul_le_mono_r; auto). nia. }
  subst. split; lia.
Qed.
Definition cpl (le m l1 m1 l2 m2 : nat) : R := if ((l1 =? pl1 le) && (l2 =? pl2 le))%bool%nat then C le m m1 m2 else 0.
Lemma conv_unit l1 m1 l2 m2 le m : (l1 <= t_l_max t)%nat -> (m1 < 2 * l1 + 1)%nat -> (l2 <= t_L_max t)%nat -> (m2 < 2 * l2 + 1)%nat -> (le < P)%nat -> (m < 2 * degree t le + 1)%nat ->
  @eq R (nth (out_pos t le 0 m) (t_conv_tp t (unitH l2 m2) (unitY l1 m1) (repeat 1 (P * K))) 0) (cpl le m l1 m1 l2 m2).
Proof.
  intros Hl1 Hm1 Hl2 Hm2 Hle Hm. pose proof (to_K t C HT) as HK. rewrite (to_conv t C HT).
  2:{ unfold unitH. rewrite length_upd', repeat_length. reflexivity. }
  2:{ unfold unitY. rewrite length_upd', repeat_length. reflexivity. }
  2:{ apply repeat_length. }
  rewrite (proj2 (uvu_block le _ _ _) 0%nat) by (auto; lia).
  assert (E1 : nth (le * K + 0) (repeat 1 (P * K)) 0 = 1).
  { apply nth_error_nth. apply nth_error_repeat. nia. }
  rewrite E1, Rmult_1_l. destruct (pl_le le Hle) as (_ & HL1 & HL2). unfold cpl.
  assert (EY : forall a, (a < 2 * pl1 le + 1)%nat -> nth (pl1 le * pl1 le + a) (unitY l1 m1) 0 = if ((l1 =? pl1 le) && (a =? m1))%bool%nat then 1 else 0).
  { intros a Ha. unfold unitY. rewrite nth_upd_unit by nia. destruct (Nat.eqb_spec (pl1 le * pl1 le + a) (l1 * l1 + m1)) as [E|E].
    - apply lm_inj in E; auto. destruct E as [<- <-]. rewrite !Nat.eqb_refl. reflexivity.
    - destruct (Nat.eqb_spec l1 (pl1 le)); [|reflexivity]. destruct (Nat.eqb_spec a m1); [|reflexivity]. subst. congruence. }
  assert (EH : forall b, (b < 2 * pl2 le + 1)%nat -> nth (pl2 le * pl2 le * K + 0 * (2 * pl2 le + 1) + b) (unitH l2 m2) 0 = if ((l2 =? pl2 le) && (b =? m2))%bool%nat then 1 else 0).
  { intros b Hb. cbn [Nat.mul]. rewrite Nat.add_0_r. unfold unitH. assert (B : (l2 * l2 * K + m2 < (t_L_max t + 1) * (t_L_max t + 1) * K)%nat).
    { assert (Q : (l2 * l2 + 2 * l2 + 1 <= (t_L_max t + 1) * (t_L_max t + 1))%nat) by nia. apply (Nat.mul_le_mono_r _ _ K) in Q. nia. }
    rewrite nth_upd_unit by exact B. destruct (Nat.eqb_spec (pl2 le * pl2 le * K + b) (l2 * l2 * K + m2)) as [E|E].
    - apply kpos_inj in E; auto. destruct E as [<- <-]. rewrite !Nat.eqb_refl. reflexivity.
    - destruct (Nat.eqb_spec l2 (pl2 le)); [|reflexivity]. destruct (Nat.eqb_spec b m2); [|reflexivity]. subst. congruence. }
  rewrite (rsum_ext _ _ (fun a => rsum (2 * pl2 le + 1) (fun b => C le m a b * (if ((l1 =? pl1 le) && (a =? m1))%bool%nat then 1 else 0) * (if ((l2 =? pl2 le) && (b =? m2))%bool%nat then 1 else 0)))).
  2:{ intros a Ha. apply rsum_ext. intros b Hb. rewrite EY, EH by auto. reflexivity. }
  destruct (Nat.eqb_spec l1 (pl1 le)) as [->|]; cbn [andb].
  - destruct (Nat.eqb_spec l2 (pl2 le)) as [->|]; cbn [andb].
    + rewrite (rsum_single _ m1); [|exact Hm1|].
      2:{ intros a Ha Hne. apply rsum_0. intros b Hb. apply Nat.eqb_neq in Hne. rewrite Hne. ring. }
      rewrite (rsum_single _ m2); [|exact Hm2|].
      2:{ intros b Hb Hne. apply Nat.eqb_neq in Hne. rewrite Hne. ring. }
      rewrite !Nat.eqb_refl. ring.
    + apply rsum_0. intros a Ha. apply rsum_0. intros b Hb. ring.
  - apply rsum_0. intros a Ha. apply rsum_0. intros b Hb. ring.
Qed.

(** the table as one list *)
Definition lme (le m : nat) : nat := Z.to_nat (compute_lme Ll le (degree t le) (Z.of_nat m - Z.of_nat (degree t le))).
Definition lel (le l1 m1 l2 m2 : nat) : nat := Z.to_nat (compute_lelm1lm2 L1 L2 le (Z.of_nat m1 - Z.of_nat l1) (Z.of_nat m2 - Z.of_nat l2)).
Definition kept_entry (l1 m1 l2 m2 le m : nat) : list (nat * R * nat) :=
  let v := cpl le m l1 m1 l2 m2 in if kept (N:=RNum) v then [(lme le m, v, lel le l1 m1 l2 m2)] else [].
Definition xat (l1 m1 l2 m2 : nat) : list (nat * R * nat) :=
  flat_map (fun le => flat_map (kept_entry l1 m1 l2 m2 le) (seq 0 (2 * degree t le + 1))) (seq 0 P).
Definition xcoupling : list (nat * R * nat) :=
  flat_map (fun l1 => flat_map (fun m1 => flat_map (fun l2 => flat_map (fun m2 => xat l1 m1 l2 m2) (seq 0 (2 * l2 + 1))) (seq 0 (t_L_max t + 1))) (seq 0 (2 * l1 + 1))) (seq 0 (t_l_max t + 1)).
Lemma out_pos_0 le m : out_pos t le 0 m = (list_sum (map (fun p => 2 * nth p Ll 0 + 1)%nat (seq 0 le)) * K + m)%nat.
Proof. unfold out_pos. rewrite Nat.add_0_r. do 3 f_equal. apply map_ext. intros j. rewrite nth_Ll. reflexivity. Qed.
Lemma coupling_at_ok l1 m1 l2 m2 : (l1 <= t_l_max t)%nat -> (m1 < 2 * l1 + 1)%nat -> (l2 <= t_L_max t)%nat -> (m2 < 2 * l2 + 1)%nat ->
  export_coupling_at t l1 m1 l2 m2 = Some (xat l1 m1 l2 m2).
Proof.
  intros Hl1 Hm1 Hl2 Hm2. pose proof (to_K t C HT) as HK. unfold export_coupling_at. rewrite sum_odd.
  change (upd (repeat (nzero (N:=RNum)) ((t_L_max t + 1) * (t_L_max t + 1) * K)) (l2 * l2 * K + m2) none) with (unitH l2 m2).
  change (upd (repeat (nzero (N:=RNum)) ((t_l_max t + 1) * (t_l_max t + 1))) (l1 * l1 + m1) none) with (unitY l1 m1).
  change (repeat (none (N:=RNum)) (P * K)) with (repeat 1 (P * K)).
  set (Phi := t_conv_tp t _ _ _).
  assert (LP : forall le m, (le < P)%nat -> (m < 2 * degree t le + 1)%nat -> rd Phi (out_pos t le 0 m) = Some (cpl le m l1 m1 l2 m2)).
  { intros le m Hle Hm. rewrite (rd_some _ _ 0).
    - f_equal. apply conv_unit; auto.
    - unfold Phi. rewrite (to_conv t C HT).
      2:{ unfold unitH. rewrite length_upd', repeat_length. reflexivity. }
      2:{ unfold unitY. rewrite length_upd', repeat_length. reflexivity. }
      2:{ apply repeat_length. }
      unfold uvu. rewrite length_by. unfold out_pos.
      replace (list_sum (map (fun j => 2 * degree t j + 1) (seq 0 le)) * K)%nat with (list_sum (map (fun j => (2 * degree t j + 1) * K) (seq 0 le)))%nat.
      2:{ clear. induction (seq 0 le) as [|j l IH]; [reflexivity|]. cbn [map list_sum fold_right] in *. unfold list_sum in IH. rewrite IH. lia. }
      replace P with (le + 1 + (P - le - 1))%nat at 1 by lia. rewrite !seq_app, !map_app, !list_sum_app. cbn [seq map list_sum fold_right Nat.add].
      assert (E : forall j, length (let '(l0, l3, l4) := path j in flat_map (fun k => map (fun m0 => nth (j * K + k) (repeat 1 (P * K)) 0 *
           sum (2 * l3 + 1) (fun m3 => sum (2 * l4 + 1) (fun m4 => C j m0 m3 m4 * nth (l3 * l3 + m3) (unitY l1 m1) 0 *
             nth (l4 * l4 * K + k * (2 * l4 + 1) + m4) (unitH l2 m2) 0))) (seq 0 (2 * l0 + 1))) (seq 0 K)) = ((2 * degree t j + 1) * K)%nat).
      { intros j. unfold degree. destruct (path j) as [[a b] c]. cbn [fst]. rewrite (length_flat_map_const _ _ (2 * a + 1)) by (intros; rewrite map_length, seq_length; reflexivity).
        rewrite seq_length. lia. }
      rewrite !(map_ext _ (fun j => (2 * degree t j + 1) * K)%nat E), E. nia. }
  set (Q := flat_map (fun le => map (fun m => cpl le m l1 m1 l2 m2) (seq 0 (2 * degree t le + 1))) (seq 0 P)).
  match goal with |- (x <- ?b ;; _) = _ => assert (EQ : b = Some Q) end.
  { unfold Q. rewrite <- (app_nil_l (flat_map _ (seq 0 P))). apply for_in_append. intros le acc Hle. apply in_seq in Hle.
    rewrite nth_Ll. replace (map (fun m => cpl le m l1 m1 l2 m2) (seq 0 (2 * degree t le + 1))) with (flat_map (fun m => [cpl le m l1 m1 l2 m2]) (seq 0 (2 * degree t le + 1))) by reflexivity.
    apply for_in_append. intros m acc' Hm. apply in_seq in Hm. rewrite <- out_pos_0. rewrite LP by lia. reflexivity. }
  rewrite EQ. cbn [bind]. cbv beta iota zeta.
  unfold xat. rewrite <- (app_nil_l (flat_map _ (seq 0 P))). apply for_in_append. intros le acc Hle. apply in_seq in Hle. rewrite nth_Ll.
  apply for_in_append. intros m acc' Hm. apply in_seq in Hm.
  assert (ER : rd Q (list_sum (map (fun j => 2 * nth j Ll 0 + 1)%nat (seq 0 le)) + m) = Some (cpl le m l1 m1 l2 m2)).
  { unfold rd. rewrite (map_ext (fun j => (2 * nth j Ll 0 + 1)%nat) (fun j => length (map (fun m => cpl j m l1 m1 l2 m2) (seq 0 (2 * degree t j + 1))))).
    2:{ intros j. rewrite nth_Ll, map_length, seq_length. reflexivity. }
    set (g := fun j => map (fun m => cpl j m l1 m1 l2 m2) (seq 0 (2 * degree t j + 1))).
    assert (O : forall i, (i <= P)%nat -> offs g (seq 0 P) i = list_sum (map (fun j => length (g j)) (seq 0 i))).
    { induction i as [|i IH]; intros Hi; [reflexivity|]. rewrite (offs_S g _ i i) by (apply seq_error; lia). rewrite IH by lia. rewrite seq_S, map_app, list_sum_app. cbn. lia. }
    change (fun j => length (map (fun m => cpl j m l1 m1 l2 m2) (seq 0 (2 * degree t j + 1)))) with (fun j => length (g j)).
    rewrite <- O by lia. unfold Q. change (fun le => map (fun m => cpl le m l1 m1 l2 m2) (seq 0 (2 * degree t le + 1))) with g.
    rewrite (nth_error_flat_map_offs g (seq 0 P) le m le) by (try (apply seq_error; lia); unfold g; rewrite map_length, seq_length; lia).
    unfold g. rewrite nth_error_map, seq_error by lia. reflexivity. }
  change (carrier RNum) with R. rewrite ER. unfold kept_entry. fold (lme le m). fold (lel le l1 m1 l2 m2). cbn [bind]. cbv beta iota zeta. destruct (kept (cpl le m l1 m1 l2 m2)); [reflexivity|rewrite app_nil_r; reflexivity].
Qed.
Lemma coupling_ok : export_coupling t = Some xcoupling.
Proof.
  unfold export_coupling, xcoupling. rewrite <- (app_nil_l (flat_map _ (seq 0 (t_l_max t + 1)))).
  apply for_in_append. intros l1 a1 H1. apply in_seq in H1. apply for_in_append. intros m1 a2 H2. apply in_seq in H2.
  apply for_in_append. intros l2 a3 H3. apply in_seq in H3. apply for_in_append. intros m2 a4 H4. apply in_seq in H4.
  rewrite coupling_at_ok by lia. reflexivity.
Qed.

(** rows and columns *)
Lemma map_flat_map' {A B D} (h : B -> D) (g : A -> list B) l : map h (flat_map g l) = flat_map (fun a => map h (g a)) l.
Proof. induction l as [|a l IH]; [reflexivity|]. cbn. rewrite map_app, IH. reflexivity. Qed.
Variable f : mace_file RNum.
Hypothesis Fl : f_Phi1_l f = Ll.
Hypothesis F1 : f_Phi1_l1 f = L1.
Hypothesis F2 : f_Phi1_l2 f = L2.
Lemma npaths_eq l : npaths f l = length (paths_of t l).
Proof.
  unfold npaths. rewrite Fl, <- num_eta. generalize (t_paths t). intros ps. induction ps as [|p ps IH]; [reflexivity|]. cbn [map count_occ filter].
  destruct (Nat.eq_dec (fst (fst p)) l) as [E|E].
  - rewrite IH. apply Nat.eqb_eq in E. rewrite E. reflexivity.
  - rewrite IH. apply Nat.eqb_neq in E. rewrite E. reflexivity.
Qed.
Lemma path_at l e : (e < length (paths_of t l))%nat -> let le := nth e (paths_of t l) 0%nat in
  (le < P)%nat /\ degree t le = l /\ (Z.of_nat e = Z.of_nat le - below Ll l)%Z.
Proof.
  intros He le. pose proof (nth_In (paths_of t l) 0%nat He) as Hin. fold le in Hin. unfold paths_of in Hin. apply filter_In in Hin. destruct Hin as [Hs Hd].
  apply in_seq in Hs. apply Nat.eqb_eq in Hd. split; [lia|]. split; [exact Hd|].
  assert (HP : (le < P)%nat) by lia. pose proof (Ll_at le HP) as EL. rewrite Hd in EL.
  pose proof (sorted_rank Ll le l (to_sorted t C HT) EL) as HR. pose proof (nth_filter_rank Ll l le (to_sorted t C HT) EL) as HF. rewrite map_length in HF.
  assert (EF : filter (fun le => nth le Ll 0 =? l)%nat (seq 0 P) = paths_of t l).
  { unfold paths_of. apply filter_ext. intros j. rewrite nth_Ll. reflexivity. }
  rewrite EF in HF. unfold below in *. set (b := length (filter (fun x => x <? l)%nat Ll)) in *.
  assert (ND : NoDup (paths_of t l)) by (apply NoDup_filter, seq_NoDup).
  assert (E : (le - b)%nat = e).
  { apply (proj1 (NoDup_nth_error _) ND); [apply nth_error_Some; rewrite HF; discriminate|]. rewrite HF. symmetry. apply nth_error_nth'. exact He. }
  lia.
Qed.
Lemma cnt_paths l : ExportProofs.cnt Ll l = Z.of_nat (length (paths_of t l)).
Proof.
  unfold ExportProofs.cnt. f_equal. rewrite <- num_eta. generalize (t_paths t). intros ps. induction ps as [|p ps IH]; [reflexivity|]. cbn [map filter]. destruct (_ =? l)%nat; cbn [length]; rewrite IH; reflexivity.
Qed.
Lemma blk_paths l : blk Ll l = Z.of_nat (list_sum (map (fun l' => (2 * l' + 1) * npaths f l')%nat (seq 0 l))).
Proof. induction l as [|l IH]; [reflexivity|]. rewrite blk_S, IH, cnt_paths, <- npaths_eq, seq_S, map_app, list_sum_app. cbn [map list_sum fold_right Nat.add]. lia. Qed.
Lemma row_lme l m e : (e < length (paths_of t l))%nat -> row f l m e = lme (nth e (paths_of t l) 0%nat) m.
Proof.
  intros He. destruct (path_at l e He) as (HP & Hd & Ez). unfold lme. rewrite Hd, compute_lme_eq, blk_paths, cnt_paths. unfold row. rewrite npaths_eq. rewrite <- Ez. lia.
Qed.
Lemma lme_eq le m le' m' : (le < P)%nat -> (le' < P)%nat -> (m < 2 * degree t le + 1)%nat -> (m' < 2 * degree t le' + 1)%nat -> lme le m = lme le' m' -> le = le' /\ m = m'.
Proof.
  intros H H' Hm Hm' E. pose proof (to_sorted t C HT) as HS.
  pose proof (lme_in_block Ll le (degree t le) (Z.of_nat m - Z.of_nat (degree t le)) HS (Ll_at le H) ltac:(lia)) as B.
  pose proof (lme_in_block Ll le' (degree t le') (Z.of_nat m' - Z.of_nat (degree t le')) HS (Ll_at le' H') ltac:(lia)) as B'.
  assert (N0 : forall l, (0 <= blk Ll l)%Z) by (intros l; pose proof (blk_mono Ll 0 l ltac:(lia)) as Q; cbn in Q; exact Q).
  pose proof (N0 (degree t le)). pose proof (N0 (degree t le')). unfold lme in E. apply Z2Nat.inj in E; [|lia|lia].
  assert (D : le = le' /\ (Z.of_nat m - Z.of_nat (degree t le) = Z.of_nat m' - Z.of_nat (degree t le'))%Z)
    by (apply (lme_inj Ll le (degree t le) _ le' (degree t le') _ HS (Ll_at le H) (Ll_at le' H')); [lia|lia|exact E]).
  destruct D as [E1 E2]. subst le'. split; [reflexivity|lia].
Qed.
Lemma column_lel le m1 m2 : (le < P)%nat -> (m1 < 2 * pl1 le + 1)%nat -> (m2 < 2 * pl2 le + 1)%nat ->
  nth_error (columns f) (lel le (pl1 le) m1 (pl2 le) m2) = Some (le, m1, m2).
Proof.
  intros Hle H1 H2. destruct (lel_eq L1 L2 P le (Z.of_nat m1 - Z.of_nat (pl1 le)) (Z.of_nat m2 - Z.of_nat (pl2 le)) Hle) as [E _]; [rewrite nth_L1; lia|rewrite nth_L2; lia|].
  fold (lel le (pl1 le) m1 (pl2 le) m2) in E. set (q := lel le (pl1 le) m1 (pl2 le) m2) in *.
  assert (EP : prows L1 L2 P = map (fun c => let '(le, a, b) := c in (le, (Z.of_nat a - Z.of_nat (pl1 le))%Z, (Z.of_nat b - Z.of_nat (pl2 le))%Z)) (columns f)).
  { unfold prows, columns. rewrite Fl, F1, F2, map_length. rewrite map_flat_map'. apply flat_map_ext. intros j. rewrite map_flat_map', nth_L1, nth_L2.
    apply flat_map_ext. intros a. rewrite map_map. reflexivity. }
  rewrite EP, nth_error_map in E. destruct (nth_error (columns f) q) as [[[a b] c]|] eqn:Ec; [|discriminate]. cbn in E. injection E as -> Eb Ecc.
  do 2 f_equal; [f_equal|]; lia.
Qed.

(** reading the table: only the coefficients of the path of this row remain *)
Hypothesis Flme : f_Phi1_lme f = map (fun e => fst (fst e)) xcoupling.
Hypothesis Fcg : f_Phi1_clebsch_gordan f = map (fun e => snd (fst e)) xcoupling.
Hypothesis Flel : f_Phi1_lelm1lm2 f = map snd xcoupling.
Lemma kept_0 : kept (N:=RNum) 0 = false.
Proof.
  unfold kept, py_abs. cbn -[Rlt_dec Rle_dec].
  destruct (Rlt_dec 0 0); [lra|]. destruct (Rlt_dec _ 0); [lra|reflexivity].
Qed.
Lemma kept_R v : (v = 0 \/ 1 / 10 ^ 12 < Rabs v) -> kept (N:=RNum) v = false -> v = 0.
Proof.
  intros H Hk. pose proof (kept_cut v) as E. rewrite Hk in E. unfold cut1 in E. destruct H as [H|H]; [exact H|]. destruct (Rlt_dec _ _); [symmetry; exact E|contradiction].
Qed.
Lemma cpl_small le m l1 m1 l2 m2 : cpl le m l1 m1 l2 m2 = 0 \/ 1 / 10 ^ 12 < Rabs (cpl le m l1 m1 l2 m2).
Proof. unfold cpl. destruct (_ && _)%bool; [apply (to_small t C HT)|left; reflexivity]. Qed.
Lemma nth_seq_rl {A} (l : list A) (d : A) (g : A -> R) : rsum (length l) (fun p => g (nth p l d)) = rl l g.
Proof. induction l as [|a l IH]; [reflexivity|]. cbn [length]. rewrite rsum_shift, rl_cons. cbn [nth]. rewrite IH. reflexivity. Qed.
Lemma coupling_sum l m e (g : nat * nat * nat -> R) : (l <= t_l_max t)%nat -> (m < 2 * l + 1)%nat -> (e < length (paths_of t l))%nat ->
  let le := nth e (paths_of t l) 0%nat in
  sum (length (f_Phi1_clebsch_gordan f)) (fun p =>
    if (nth p (f_Phi1_lme f) 0 =? row f l m e)%nat then nth p (f_Phi1_clebsch_gordan f) 0 * g (nth (nth p (f_Phi1_lelm1lm2 f) 0%nat) (columns f) (0, 0, 0)%nat) else 0) =
  rsum (2 * pl1 le + 1) (fun m1 => rsum (2 * pl2 le + 1) (fun m2 => C le m m1 m2 * g (le, m1, m2))).
Proof.
  intros Hl Hm He le0. destruct (path_at l e He) as (HP & Hd & _). fold le0 in HP, Hd. rewrite (row_lme l m e He). fold le0. rewrite sum_r.
  rewrite Flme, Fcg, Flel, map_length.
  set (G := fun en : nat * R * nat => if (fst (fst en) =? lme le0 m)%nat then snd (fst en) * g (nth (snd en) (columns f) (0, 0, 0)%nat) else 0).
  transitivity (rsum (length xcoupling) (fun p => G (nth p xcoupling (0%nat, 0, 0%nat)))).
  { apply rsum_ext. intros p Hp. unfold G. rewrite <- (map_nth (fun e => fst (fst e))), <- (map_nth (fun e => snd (fst e))), <- (map_nth snd). reflexivity. }
  rewrite nth_seq_rl. unfold xcoupling. rewrite rl_flat_map.
  (* one unit vector *)
  assert (X : forall l1 m1 l2 m2, (l1 <= t_l_max t)%nat -> (m1 < 2 * l1 + 1)%nat -> (l2 <= t_L_max t)%nat -> (m2 < 2 * l2 + 1)%nat ->
    rl (xat l1 m1 l2 m2) G = if ((l1 =? pl1 le0) && (l2 =? pl2 le0))%bool%nat then C le0 m m1 m2 * g (le0, m1, m2) else 0).
  { intros l1 m1 l2 m2 H1 H2 H3 H4. unfold xat. rewrite rl_flat_map, rl_seq.
    assert (Y1 : forall le m', rl (kept_entry l1 m1 l2 m2 le m') G = if (lme le m' =? lme le0 m)%nat then cpl le m' l1 m1 l2 m2 * g (nth (lel le l1 m1 l2 m2) (columns f) (0, 0, 0)%nat) else 0).
    { intros le m'. unfold kept_entry. cbv zeta. destruct (kept (cpl le m' l1 m1 l2 m2)) eqn:Ek.
      - rewrite rl_cons, rl_nil. unfold G. cbn [fst snd]. apply Rplus_0_r.
      - rewrite rl_nil. rewrite (kept_R _ (cpl_small le m' l1 m1 l2 m2) Ek). destruct (_ =? _)%nat; ring. }
    rewrite (rsum_single P le0); [|exact HP|].
    2:{ intros le Hle Hne. rewrite rl_flat_map. apply rl_0. intros m' Hm'. apply in_seq in Hm'. rewrite Y1.
        destruct (Nat.eqb_spec (lme le m') (lme le0 m)) as [E|]; [|reflexivity]. apply lme_eq in E; try lia. }
    rewrite rl_flat_map, rl_seq. rewrite (rsum_single _ m); [|rewrite Hd; exact Hm|].
    2:{ intros m' Hm' Hne. rewrite Y1. destruct (Nat.eqb_spec (lme le0 m') (lme le0 m)) as [E|]; [|reflexivity]. apply lme_eq in E; try lia. }
    rewrite Y1, Nat.eqb_refl. unfold cpl. destruct (Nat.eqb_spec l1 (pl1 le0)) as [E1|]; cbn [andb]; [|ring].
    destruct (Nat.eqb_spec l2 (pl2 le0)) as [E2|]; [|ring]. subst l1 l2. rewrite (nth_error_nth _ _ _ (column_lel le0 m1 m2 HP H2 H4)). reflexivity. }
  destruct (pl_le le0 HP) as (_ & B1 & B2).
  rewrite rl_seq. rewrite (rsum_single _ (pl1 le0)); [|lia|].
  - rewrite rl_flat_map, rl_seq. apply rsum_ext. intros m1 Hm1. rewrite rl_flat_map, rl_seq. rewrite (rsum_single _ (pl2 le0)); [|lia|].
    + rewrite rl_flat_map, rl_seq. apply rsum_ext. intros m2 Hm2. rewrite X by lia. rewrite !Nat.eqb_refl. reflexivity.
    + intros l2 Hl2 Hne. rewrite rl_flat_map, rl_seq. apply rsum_0. intros m2 Hm2. rewrite X by lia. apply Nat.eqb_neq in Hne. rewrite Hne, andb_false_r. reflexivity.
  - intros l1 Hl1 Hne. rewrite rl_flat_map, rl_seq. apply rsum_0. intros m1 Hm1. rewrite rl_flat_map, rl_seq. apply rsum_0. intros l2 Hl2. rewrite rl_flat_map, rl_seq.
    apply rsum_0. intros m2 Hm2. rewrite X by lia. apply Nat.eqb_neq in Hne. rewrite Hne. reflexivity.
Qed.
(** every entry is inside the tables *)
Lemma entry_range en : In en xcoupling -> (fst (fst en) < list_sum (map (fun l => 2 * l + 1) Ll))%nat /\
  (snd en < list_sum (map (fun q => (2 * nth q L1 0 + 1) * (2 * nth q L2 0 + 1)) (seq 0 P)))%nat.
Proof.
  intros H. unfold xcoupling in H. apply in_flat_map in H. destruct H as (l1 & Hl1 & H). apply in_flat_map in H. destruct H as (m1 & Hm1 & H).
  apply in_flat_map in H. destruct H as (l2 & Hl2 & H). apply in_flat_map in H. destruct H as (m2 & Hm2 & H). unfold xat in H.
  apply in_flat_map in H. destruct H as (le & Hle & H). apply in_flat_map in H. destruct H as (m & Hm & H). unfold kept_entry in H.
  apply in_seq in Hl1, Hm1, Hl2, Hm2, Hle, Hm. destruct (kept _) eqn:Ek; [|destruct H]. destruct H as [<-|[]]. cbn [fst snd].
  assert (HP : (le < P)%nat) by lia. split.
  - pose proof (lme_range Ll le (degree t le) (Z.of_nat m - Z.of_nat (degree t le)) (to_sorted t C HT) (Ll_at le HP) ltac:(lia)) as B. unfold lme. lia.
  - assert (E : l1 = pl1 le /\ l2 = pl2 le).
    { unfold cpl in Ek. destruct (Nat.eqb_spec l1 (pl1 le)); [|exfalso]. 1:destruct (Nat.eqb_spec l2 (pl2 le)); [auto|exfalso].
      all: cbn [andb] in Ek; rewrite kept_0 in Ek; discriminate. }
    destruct E as [-> ->].
    destruct (lemma_C49_lel L1 L2 P le (Z.of_nat m1 - Z.of_nat (pl1 le)) (Z.of_nat m2 - Z.of_nat (pl2 le)) HP) as [B _]; [rewrite nth_L1; lia|rewrite nth_L2; lia|]. unfold lel. lia.
Qed.
End Coupling.
