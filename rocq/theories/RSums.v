(** Finite sums over the reals and derivatives. *)
From Coq Require Import List Arith ZArith Reals Lia Lra.
From Coquelicot Require Import Coquelicot.
From Verif Require Import Base BaseLemmas Segs Instances BlasLemmas.
Import ListNotations.
Local Open Scope R_scope.

Fixpoint rsum (n : nat) (f : nat -> R) : R :=
  match n with O => 0 | S n' => rsum n' f + f n' end.

Lemma nsum_rsum n f : nsum (N:=RNum) n f = rsum n f.
Proof. induction n as [|n IH]; simpl; [apply RNum_zero|]. rewrite IH. reflexivity. Qed.

Lemma rsum_ext n f g : (forall i, (i < n)%nat -> f i = g i) -> rsum n f = rsum n g.
Proof. induction n as [|n IH]; intros H; simpl; auto. rewrite IH, H by auto. reflexivity. Qed.

Lemma rsum_plus n f g : rsum n (fun i => f i + g i) = rsum n f + rsum n g.
Proof. induction n as [|n IH]; simpl; [lra|]. rewrite IH. lra. Qed.

Lemma rsum_minus n f g : rsum n (fun i => f i - g i) = rsum n f - rsum n g.
Proof. induction n as [|n IH]; simpl; [lra|]. rewrite IH. lra. Qed.

Lemma rsum_scal_l n c f : rsum n (fun i => c * f i) = c * rsum n f.
Proof. induction n as [|n IH]; simpl; [lra|]. rewrite IH. lra. Qed.

Lemma rsum_scal_r n c f : rsum n (fun i => f i * c) = rsum n f * c.
Proof. induction n as [|n IH]; simpl; [lra|]. rewrite IH. lra. Qed.

Lemma rsum_zero n : rsum n (fun _ => 0) = 0.
Proof. induction n as [|n IH]; simpl; [lra|]. rewrite IH. lra. Qed.

Lemma rsum_0 n f : (forall i, (i < n)%nat -> f i = 0) -> rsum n f = 0.
Proof. intros H. rewrite (rsum_ext n f (fun _ => 0)) by auto. apply rsum_zero. Qed.

Lemma rsum_opp n f : rsum n (fun i => - f i) = - rsum n f.
Proof. induction n as [|n IH]; simpl; [lra|]. rewrite IH. lra. Qed.

Lemma rsum_swap n m f : rsum n (fun i => rsum m (fun j => f i j)) = rsum m (fun j => rsum n (fun i => f i j)).
Proof.
  induction n as [|n IH]; simpl; [symmetry; apply rsum_zero|].
  rewrite IH, <- rsum_plus. reflexivity.
Qed.

Lemma rsum_add n m f : rsum (n + m) f = rsum n f + rsum m (fun i => f (n + i)%nat).
Proof.
  induction m as [|m IH]; [rewrite Nat.add_0_r; simpl; lra|].
  rewrite Nat.add_succ_r. simpl. rewrite IH. lra.
Qed.

Lemma rsum_prod n m f : rsum (n * m) f = rsum n (fun i => rsum m (fun j => f (i * m + j)%nat)).
Proof.
  induction n as [|n IH]; simpl; auto.
  rewrite Nat.add_comm, rsum_add, IH. reflexivity.
Qed.

Lemma rsum_single n k f : (k < n)%nat -> (forall i, (i < n)%nat -> i <> k -> f i = 0) -> rsum n f = f k.
Proof.
  induction n as [|n IH]; intros Hk H; [lia|]. simpl.
  destruct (Nat.eq_dec k n) as [->|E].
  - rewrite rsum_0; [lra|]. intros; apply H; lia.
  - rewrite IH by (auto; lia). rewrite (H n) by lia. lra.
Qed.

Lemma rsum_shift n f : rsum (S n) f = f 0%nat + rsum n (fun i => f (S i)).
Proof. change (S n) with (1 + n)%nat. rewrite rsum_add. simpl. lra. Qed.

Lemma rsum_nonneg n f : (forall i, (i < n)%nat -> 0 <= f i) -> 0 <= rsum n f.
Proof.
  induction n as [|n IH]; intros H; simpl; [lra|].
  pose proof (IH (fun i Hi => H i (Nat.lt_lt_succ_r _ _ Hi))). pose proof (H n ltac:(lia)). lra.
Qed.

(** sums over lists *)
Fixpoint lsumR (l : list R) : R := match l with [] => 0 | x :: t => x + lsumR t end.

Lemma lsumR_app a b : lsumR (a ++ b) = lsumR a + lsumR b.
Proof. induction a as [|x a IH]; simpl; [lra|]. rewrite IH. lra. Qed.

Lemma lsumR_rsum l : lsumR l = rsum (length l) (fun i => nth i l 0).
Proof.
  induction l as [|x l IH]; [reflexivity|]. cbn [length]. rewrite rsum_shift. simpl. rewrite IH. reflexivity.
Qed.

Lemma lsumR_tab n f : lsumR (tab n f) = rsum n f.
Proof.
  induction n as [|n IH]; [reflexivity|]. rewrite tab_S, lsumR_app, IH. simpl. lra.
Qed.

Lemma lsumR_map_ext {A} (f g : A -> R) l : (forall x, In x l -> f x = g x) -> lsumR (map f l) = lsumR (map g l).
Proof. intros H. f_equal. apply map_ext_in; auto. Qed.

Lemma lsumR_map_plus {A} (f g : A -> R) l : lsumR (map (fun x => f x + g x) l) = lsumR (map f l) + lsumR (map g l).
Proof. induction l as [|x l IH]; simpl; [lra|]. rewrite IH. lra. Qed.

Lemma lsumR_map_scal {A} c (f : A -> R) l : lsumR (map (fun x => c * f x) l) = c * lsumR (map f l).
Proof. induction l as [|x l IH]; simpl; [lra|]. rewrite IH. lra. Qed.

Lemma lsumR_flat_map {A} (f : A -> list R) l : lsumR (flat_map f l) = lsumR (map (fun x => lsumR (f x)) l).
Proof. induction l as [|x l IH]; simpl; [lra|]. rewrite lsumR_app, IH. lra. Qed.

(** ** derivatives *)
Lemma dlim_ext f g x l : (forall y, f y = g y) -> derivable_pt_lim f x l -> derivable_pt_lim g x l.
Proof. intros E H eps He. destruct (H eps He) as [d Hd]. exists d. intros h Hh Hlt. rewrite <- !E. auto. Qed.

Lemma dlim_ext_loc f g x l del : 0 < del -> (forall y, Rabs (y - x) < del -> f y = g y) ->
  derivable_pt_lim f x l -> derivable_pt_lim g x l.
Proof.
  intros Hd E H eps He. destruct (H eps He) as [d D].
  assert (Hm : 0 < Rmin del d) by (apply Rmin_pos; auto; apply cond_pos).
  exists (mkposreal _ Hm). intros h Hh Hlt. simpl in Hlt.
  rewrite <- !E.
  - apply D; auto. eapply Rlt_le_trans; [exact Hlt|apply Rmin_r].
  - replace (x - x) with 0 by ring. rewrite Rabs_R0. auto.
  - replace (x + h - x) with h by ring. eapply Rlt_le_trans; [exact Hlt|apply Rmin_l].
Qed.

Lemma dlim_eq f x l l' : l = l' -> derivable_pt_lim f x l -> derivable_pt_lim f x l'.
Proof. intros ->; auto. Qed.

Lemma dlim_const c x : derivable_pt_lim (fun _ => c) x 0.
Proof. apply (derivable_pt_lim_const c x). Qed.

Lemma dlim_id x : derivable_pt_lim (fun t => t) x 1.
Proof. apply derivable_pt_lim_id. Qed.

Lemma dlim_plus f g x a b : derivable_pt_lim f x a -> derivable_pt_lim g x b ->
  derivable_pt_lim (fun t => f t + g t) x (a + b).
Proof. intros. apply (derivable_pt_lim_plus f g); auto. Qed.

Lemma dlim_minus f g x a b : derivable_pt_lim f x a -> derivable_pt_lim g x b ->
  derivable_pt_lim (fun t => f t - g t) x (a - b).
Proof. intros. apply (derivable_pt_lim_minus f g); auto. Qed.

Lemma dlim_opp f x a : derivable_pt_lim f x a -> derivable_pt_lim (fun t => - f t) x (- a).
Proof. intros. apply (derivable_pt_lim_opp f); auto. Qed.

Lemma dlim_mult f g x a b : derivable_pt_lim f x a -> derivable_pt_lim g x b ->
  derivable_pt_lim (fun t => f t * g t) x (a * g x + f x * b).
Proof. intros. apply (derivable_pt_lim_mult f g); auto. Qed.

Lemma dlim_scal c f x a : derivable_pt_lim f x a -> derivable_pt_lim (fun t => c * f t) x (c * a).
Proof. intros. apply (derivable_pt_lim_scal f); auto. Qed.

Lemma dlim_comp f g x a b : derivable_pt_lim f x a -> derivable_pt_lim g (f x) b ->
  derivable_pt_lim (fun t => g (f t)) x (b * a).
Proof. intros. apply (derivable_pt_lim_comp f g); auto. Qed.

Lemma dlim_rsum n (f : R -> nat -> R) (d : nat -> R) x :
  (forall i, (i < n)%nat -> derivable_pt_lim (fun t => f t i) x (d i)) ->
  derivable_pt_lim (fun t => rsum n (f t)) x (rsum n d).
Proof.
  induction n as [|n IH]; intros H; simpl; [apply dlim_const|]. apply dlim_plus; auto.
Qed.

Lemma dlim_lsumR {A} (l : list A) (f : R -> A -> R) (d : A -> R) x :
  (forall a, In a l -> derivable_pt_lim (fun t => f t a) x (d a)) ->
  derivable_pt_lim (fun t => lsumR (map (f t) l)) x (lsumR (map d l)).
Proof.
  induction l as [|a l IH]; intros H; simpl; [apply dlim_const|].
  apply dlim_plus; [apply H; simpl; auto|apply IH; intros; apply H; simpl; auto].
Qed.

Lemma dlim_unique f x a b : derivable_pt_lim f x a -> derivable_pt_lim f x b -> a = b.
Proof. apply uniqueness_limite. Qed.
