(** Sums of a real function over a list. *)
From Coq Require Import List Arith Reals Lia Lra Permutation Bool.
From Verif Require Import Base BaseLemmas Segs Instances BlasLemmas RSums SysLoops.
Import ListNotations.
Local Open Scope R_scope.

Definition rl {A} (l : list A) (g : A -> R) : R := lsumR (map g l).

Lemma rl_nil {A} (g : A -> R) : rl [] g = 0.
Proof. reflexivity. Qed.
Lemma rl_cons {A} x (l : list A) g : rl (x :: l) g = g x + rl l g.
Proof. reflexivity. Qed.
Lemma rl_app {A} (l1 l2 : list A) g : rl (l1 ++ l2) g = rl l1 g + rl l2 g.
Proof. unfold rl. rewrite map_app. apply lsumR_app. Qed.
Lemma rl_ext {A} (l : list A) g h : (forall x, In x l -> g x = h x) -> rl l g = rl l h.
Proof. intros H. unfold rl. f_equal. apply map_ext_in. auto. Qed.
Lemma rl_0 {A} (l : list A) g : (forall x, In x l -> g x = 0) -> rl l g = 0.
Proof. intros H. induction l as [|x l IH]; [reflexivity|]. rewrite rl_cons, IH, H; simpl; auto; [lra|]. intros; apply H; simpl; auto. Qed.
Lemma rl_plus {A} (l : list A) g h : rl l (fun x => g x + h x) = rl l g + rl l h.
Proof. apply lsumR_map_plus. Qed.
Lemma rl_scal {A} (l : list A) c g : rl l (fun x => c * g x) = c * rl l g.
Proof. apply lsumR_map_scal. Qed.
Lemma rl_scal_r {A} (l : list A) c g : rl l (fun x => g x * c) = rl l g * c.
Proof. induction l as [|x l IH]; [unfold rl; simpl; lra|]. rewrite !rl_cons, IH. lra. Qed.
Lemma rl_opp {A} (l : list A) g : rl l (fun x => - g x) = - rl l g.
Proof. induction l as [|x l IH]; [unfold rl; simpl; lra|]. rewrite !rl_cons, IH. lra. Qed.
Lemma rl_minus {A} (l : list A) g h : rl l (fun x => g x - h x) = rl l g - rl l h.
Proof. induction l as [|x l IH]; [unfold rl; simpl; lra|]. rewrite !rl_cons, IH. lra. Qed.
Lemma rl_perm {A} (l l' : list A) g : Permutation l l' -> rl l g = rl l' g.
Proof. induction 1; rewrite ?rl_cons in *; try lra; auto. Qed.
Lemma rl_map {A B} (l : list A) (h : A -> B) g : rl (map h l) g = rl l (fun x => g (h x)).
Proof. unfold rl. rewrite map_map. reflexivity. Qed.
Lemma rl_flat_map {A B} (l : list A) (h : A -> list B) g : rl (flat_map h l) g = rl l (fun x => rl (h x) g).
Proof. induction l as [|x l IH]; [reflexivity|]. cbn [flat_map]. rewrite rl_app, rl_cons, IH. reflexivity. Qed.
Lemma rl_seq n g : rl (seq 0 n) g = rsum n g.
Proof. unfold rl. change (map g (seq 0 n)) with (tab n g). apply lsumR_tab. Qed.
Lemma rl_filter {A} (l : list A) P g : rl (filter P l) g = rl l (fun x => if P x then g x else 0).
Proof. induction l as [|x l IH]; [reflexivity|]. cbn [filter]. rewrite rl_cons. destruct (P x); rewrite ?rl_cons, IH; lra. Qed.
Lemma rl_swap {A B} (l : list A) (l' : list B) g :
  rl l (fun x => rl l' (fun y => g x y)) = rl l' (fun y => rl l (fun x => g x y)).
Proof.
  induction l as [|x l IH]; [symmetry; apply rl_0; reflexivity|]. rewrite rl_cons, IH.
  rewrite <- rl_plus. apply rl_ext. intros y _. reflexivity.
Qed.
Lemma rl_rsum_swap {A} (l : list A) n g :
  rl l (fun x => rsum n (fun y => g x y)) = rsum n (fun y => rl l (fun x => g x y)).
Proof.
  rewrite <- rl_seq, <- rl_swap. apply rl_ext. intros x _. symmetry. apply rl_seq.
Qed.
Lemma rl_select n k g : (k < n)%nat -> rsum n (fun j => if (k =? j)%nat then g j else 0) = g k.
Proof.
  intros H. rewrite (rsum_single n k); auto; [rewrite Nat.eqb_refl; auto|].
  intros i _ E. destruct (Nat.eqb_spec k i); [lia|auto].
Qed.

Lemma nfold_rl {A} (l : list A) (g : A -> R) a : nfold (N:=RNum) l g a = a + rl l g.
Proof.
  unfold nfold. revert a; induction l as [|x l IH]; intros a; [unfold rl; simpl; lra|].
  cbn [fold_left]. rewrite IH, rl_cons. cbn [nadd RNum]. lra.
Qed.
Lemma nfold_rl0 {A} (l : list A) (g : A -> R) : nfold (N:=RNum) l g nzero = rl l g.
Proof. rewrite nfold_rl, RNum_zero. lra. Qed.

Lemma dlim_rl {A} (l : list A) (f : R -> A -> R) (d : A -> R) x :
  (forall a, In a l -> derivable_pt_lim (fun t => f t a) x (d a)) ->
  derivable_pt_lim (fun t => rl l (f t)) x (rl l d).
Proof. apply dlim_lsumR. Qed.
