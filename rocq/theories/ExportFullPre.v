(** Lemmas about the list operations of the exporter and about the vocabulary of TorchSpec. *)
From Coq Require Import List Arith ZArith Lia Bool Permutation Sorted Reals Lra.
From Verif Require Import Base BaseLemmas Instances RSums RList MaceModel ExportModel ExportSpec ExportProofs ExportPolyModel ExportPolySpec ExportPoly ExportPolyThms
  EnergySpec EnergyProofs ExportFullModel TorchSpec.
Import ListNotations.
Local Open Scope R_scope.

Lemma sum_r n g : sum n g = rsum n g.
Proof. apply sum_rsum. Qed.
Lemma for_in_append {A B} (l : list A) (body : A -> list B -> option (list B)) (g : A -> list B) :
  (forall a acc, In a l -> body a acc = Some (acc ++ g a)) -> forall acc, for_in l body acc = Some (acc ++ flat_map g l).
Proof.
  induction l as [|a l IH]; intros H acc; cbn [for_in flat_map]; [rewrite app_nil_r; reflexivity|].
  rewrite H by (left; reflexivity). cbn. rewrite IH by (intros; apply H; right; auto). rewrite app_assoc. reflexivity.
Qed.
Lemma append_all_ok {A B} (l : list A) (g : A -> option B) (h : A -> B) : (forall a, In a l -> g a = Some (h a)) -> append_all l g = Some (map h l).
Proof.
  intros H. unfold append_all.
  assert (E : for_in l (fun x acc => y <- g x ;; Some (acc ++ [y])) [] = Some ([] ++ flat_map (fun a => [h a]) l)).
  { apply for_in_append. intros a acc Ha. rewrite H by exact Ha. reflexivity. }
  rewrite E. reflexivity.
Qed.
Lemma append_all_none {A B} (l : list A) (g : A -> option B) a : In a l -> g a = None -> append_all l g = None.
Proof.
  intros Ha Hg. unfold append_all. assert (G : forall acc, for_in l (fun x acc => y <- g x ;; Some (acc ++ [y])) acc = None); [|apply G].
  induction l as [|b l IH]; intros acc; [destruct Ha|]. cbn [for_in]. destruct Ha as [->|Ha].
  - rewrite Hg. reflexivity.
  - destruct (g b); [|reflexivity]. apply IH. exact Ha.
Qed.
Lemma fold_sum_R (g : nat -> R) n : fold_left (fun s k => nadd (n:=RNum) s (g k)) (seq 0 n) 0 = rsum n g.
Proof. induction n as [|n IH]; [reflexivity|]. rewrite seq_S, fold_left_app, IH. reflexivity. Qed.
Lemma nth_for_all {A} n (g : nat -> A) i d : (i < n)%nat -> nth i (for_all n g) d = g i.
Proof. apply nth_tab. Qed.
Lemma length_for_all {A} n (g : nat -> A) : length (for_all n g) = n.
Proof. apply length_tab. Qed.
Lemma divK i c k : (k < c)%nat -> ((i * c + k) / c = i /\ (i * c + k) mod c = k)%nat.
Proof.
  intros H. split.
  - rewrite Nat.div_add_l by lia. rewrite Nat.div_small by lia. lia.
  - rewrite Nat.add_comm, Nat.mod_add by lia. apply Nat.mod_small. exact H.
Qed.
Lemma length_matmul a b c (X Y : list R) : length (matmul (N:=RNum) a b c X Y) = (a * c)%nat.
Proof. apply length_for_all. Qed.
Lemma nth_matmul a b c (X Y : list R) i k : (i < a)%nat -> (k < c)%nat ->
  nth (i * c + k) (matmul (N:=RNum) a b c X Y) 0 = rsum b (fun q => nth (i * b + q) X 0 * nth (q * c + k) Y 0).
Proof.
  intros Hi Hk. unfold matmul. rewrite nth_for_all by nia. destruct (divK i c k Hk) as [-> ->]. rewrite RNum_zero. apply (fold_sum_R (fun q => nth (i * b + q) X 0 * nth (q * c + k) Y 0)).
Qed.
Lemma nth_mdiv (X : list R) s i : nth i (mdiv (N:=RNum) X s) 0 = nth i X 0 / s.
Proof.
  unfold mdiv. replace 0 with (0 / s) at 1 by (unfold Rdiv; apply Rmult_0_l). exact (map_nth (fun v => v / s) X 0 i).
Qed.
Lemma length_mdiv (X : list R) s : length (mdiv (N:=RNum) X s) = length X.
Proof. apply map_length. Qed.
Lemma nth_slice (X : list R) a n i : (i < n)%nat -> nth i (slice (N:=RNum) a n X) 0 = nth (a + i) X 0.
Proof. intros H. unfold slice. rewrite nth_firstn_lt by exact H. apply nth_skipn_add. Qed.
Lemma length_slice (X : list R) a n : (a + n <= length X)%nat -> length (slice (N:=RNum) a n X) = n.
Proof. intros H. unfold slice. change (carrier RNum) with R. rewrite firstn_length, skipn_length. lia. Qed.
Lemma nth_middle a n c v (X : list R) u k : (u < a)%nat -> (k < c)%nat -> nth (u * c + k) (middle (N:=RNum) a n c v X) 0 = nth ((u * n + v) * c + k) X 0.
Proof. intros Hu Hk. unfold middle. rewrite nth_for_all by nia. destruct (divK u c k Hk) as [-> ->]. reflexivity. Qed.
Lemma reshaped_ok n (X : list R) : length X = n -> reshaped (N:=RNum) n X = Some X.
Proof. intros H. unfold reshaped. change (carrier RNum) with R. rewrite H, Nat.eqb_refl. reflexivity. Qed.

(** linear maps *)
Lemma linear_r a c w v k : linear a c w v k = rsum a (fun q => v q * nth (q * c + k) w 0) / sqrt (INR a).
Proof. unfold linear. rewrite sum_r. reflexivity. Qed.
Lemma linear_ext a c w v v' k : (forall q, (q < a)%nat -> v q = v' q) -> linear a c w v k = linear a c w v' k.
Proof. intros H. rewrite !linear_r. f_equal. apply rsum_ext. intros q Hq. rewrite H by exact Hq. reflexivity. Qed.
Lemma one_hot_sum n z g : (z < n)%nat -> rsum n (fun e => one_hot z e * g e) = g z.
Proof.
  intros Hz. rewrite (rsum_single n z) by (auto; intros i Hi Hne; unfold one_hot; apply Nat.eqb_neq in Hne; rewrite Hne; apply Rmult_0_l).
  unfold one_hot. rewrite Nat.eqb_refl. apply Rmult_1_l.
Qed.
Lemma with_element_r a n c w v z k : (z < n)%nat -> with_element a n c w v z k = rsum a (fun u => v u * nth ((u * n + z) * c + k) w 0) / sqrt (INR (a * n)).
Proof.
  intros Hz. unfold with_element. rewrite sum_r. f_equal. apply rsum_ext. intros u Hu. rewrite sum_r.
  rewrite (rsum_ext n _ (fun e => one_hot z e * (v u * nth ((u * n + e) * c + k) w 0))) by (intros; ring). apply one_hot_sum. exact Hz.
Qed.
Lemma linear_one_hot n c w z k : (z < n)%nat -> linear n c w (one_hot z) k = nth (z * c + k) w 0 / sqrt (INR n).
Proof. intros Hz. rewrite linear_r. f_equal. apply (one_hot_sum n z (fun q => nth (q * c + k) w 0) Hz). Qed.
Lemma rsum_div n g c : rsum n g / c = rsum n (fun i => g i / c).
Proof. unfold Rdiv. rewrite rsum_scal_r. reflexivity. Qed.

(** lists by degree *)
Lemma nth_by_offs {B} (g : nat -> list B) n i p o d : (i < n)%nat -> o = list_sum (map (fun j => length (g j)) (seq 0 i)) -> (p < length (g i))%nat ->
  nth (o + p) (flat_map g (seq 0 n)) d = nth p (g i) d.
Proof.
  intros Hi Ho Hp. apply nth_error_nth. replace o with (offs g (seq 0 n) i).
  - rewrite (nth_error_flat_map_offs g (seq 0 n) i p i (seq_error i n Hi) Hp). apply nth_error_nth'. exact Hp.
  - rewrite Ho. clear Ho Hp p o d. induction i as [|i IH]; [reflexivity|]. rewrite (offs_S g _ i i) by (apply seq_error; lia). rewrite IH by lia.
    rewrite seq_S, map_app, list_sum_app. cbn. lia.
Qed.
Lemma sum_odd l : list_sum (map (fun p => 2 * p + 1)%nat (seq 0 l)) = (l * l)%nat.
Proof. induction l as [|l IH]; [reflexivity|]. rewrite seq_S, map_app, list_sum_app, IH. cbn. lia. Qed.
Lemma nth_by_degree (L : nat) (g : nat -> nat -> R) l m : (l <= L)%nat -> (m < 2 * l + 1)%nat -> nth (l * l + m) (by_degree L g) 0 = g l m.
Proof.
  intros Hl Hm. unfold by_degree. rewrite (nth_by_offs _ (L + 1) l m (l * l)); [| lia | |rewrite map_length, seq_length; lia].
  - apply (nth_tab (2 * l + 1) (g l) m 0 Hm).
  - rewrite <- sum_odd. f_equal. apply map_ext. intros j. rewrite map_length, seq_length. reflexivity.
Qed.
Lemma length_by {B} (g : nat -> list B) n : length (flat_map g (seq 0 n)) = list_sum (map (fun j => length (g j)) (seq 0 n)).
Proof. induction n as [|n IH]; [reflexivity|]. rewrite seq_S, flat_map_app, app_length, IH, map_app, list_sum_app. cbn. rewrite app_nil_r. lia. Qed.
