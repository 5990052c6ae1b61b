(** Data for the examples beside the rotation theorems: a small file whose tables are equivariant (first layer: scalars and vectors of degree up to three;
    coupling: product of scalars, dot product, scalar times vector, vector times scalar, cross product), and a rotation with rational entries. *)
From Coq Require Import List Arith ZArith Reals Lia Lra Permutation.
From Verif Require Import Base BaseLemmas Instances RSums SplineModel MpSpec MaceModel MaceSpec MaceSpec2 ExportSpec MaceExamples MaceGradSpec GradExamples
  ExportPolySpec EnergySpec SymSpec.
Import ListNotations.
Local Open Scope nat_scope.

Section Ex.
Context {N : Num}.
Definition sym_monos (lm : nat) : list (list nat) :=
  match lm with 0 => [[0]; [0; 0]; [1; 1]; [2; 2]; [3; 3]] | _ => [[lm]; [0; lm]; [1; 1; lm]; [2; 2; lm]; [3; 3; lm]] end.
Definition sym_weights (s : nat) : list N := [nofZ (Z.of_nat s + 1); nofZ (2 - Z.of_nat s); nofZ (Z.of_nat s - 3); nofZ (Z.of_nat s - 3); nofZ (Z.of_nat s - 3)].
Definition sym_file : mace_file N :=
  mkFile 2 1 1 [1; 2] [nofZ (-3); nofZ 5]
    true (nlit 23 100) (nlit 22 25) (wts 3 4) [nlit 1 5; nlit 1 3; nlit 1 2] 6
    none
    (map (fun p => ex_V 0 (fst p) (snd p)) (upairs 2)) (map (fun p => ex_V 1 (fst p) (snd p)) (upairs 2))
    (map (fun p => ex_V1 2 (fst p) (snd p)) (upairs 2)) (map (fun p => ex_V1 3 (fst p) (snd p)) (upairs 2))
    (wts 1 4)
    [[wts 2 4; wts 3 4]; [wts 4 4; wts 1 4]]
    true none (map (fun p => ex_D 0 (fst p) (snd p)) (upairs 2)) (map (fun p => ex_D 1 (fst p) (snd p)) (upairs 2))
    (fun a lm k => match lm with 0 => sym_weights (a + k) | _ => sym_weights (a + k + 2) end) sym_monos
    (wts 2 8)
    [0; 0; 1; 1; 1] [0; 1; 0; 1; 1] [0; 1; 1; 0; 1]
    [0; 1; 1; 1; 2; 5; 8; 3; 6; 9; 4; 4; 7; 7; 10; 10]
    [nofZ 2; nofZ (-1); nofZ (-1); nofZ (-1); nofZ 1; nofZ 1; nofZ 1; nofZ 3; nofZ 3; nofZ 3; nofZ 1; nofZ (-1); nofZ 1; nofZ (-1); nofZ 1; nofZ (-1)]
    [0; 1; 5; 9; 10; 11; 12; 13; 14; 15; 21; 23; 22; 18; 17; 19]
    [wts 3 8; wts 1 12]
    true none (map (fun p => ex_D 2 (fst p) (snd p)) (upairs 2)) (map (fun p => ex_D 3 (fst p) (snd p)) (upairs 2))
    (fun a k => sym_weights (a + 2 * k)) (sym_monos 0)
    [wts 2 4; wts 1 4] (wts 3 4)
    (wts 1 2) (wts 2 32) (wts 1 16) none.

Lemma sym_file_ok : file_ok sym_file.
Proof.
  destruct (ex_file_ok (N:=N)). constructor; try assumption;
  cbn [sym_file f_num_channels f_l_max f_L_max f_atomic_numbers f_M0_weights f_M0_monomials f_Phi1_l f_Phi1_l1 f_Phi1_l2 f_Phi1_lme
    f_Phi1_clebsch_gordan f_Phi1_lelm1lm2 f_M1_weights f_M1_monomials]; try (vm_compute; lia).
  - intros a lm k Ha Hlm Hk. cbn in Ha, Hlm. split.
    + destruct lm as [|[|[|[|lm]]]]; [| | | |lia]; repeat constructor; intro; discriminate.
    + destruct lm as [|lm]; reflexivity.
  - intros p Hp. cbn [length] in Hp. do 16 (destruct p as [|p]; [vm_compute; lia|]). lia.
  - intros p Hp. cbn [length] in Hp. do 16 (destruct p as [|p]; [vm_compute; lia|]). lia.
  - intros a k Ha Hk. split; [|reflexivity]. repeat constructor; intro; discriminate.
Qed.
End Ex.

Lemma sym_once : monomials_once sym_file.
Proof.
  split; [intros lm Hlm; change (lm < 4)%nat in Hlm; cbn [sym_file f_M0_monomials]|cbn [sym_file f_M1_monomials]].
  - do 4 (destruct lm as [|lm]; [cbn [sym_monos]; repeat constructor; cbn [In]; intuition discriminate|]). lia.
  - cbn [sym_monos]. repeat constructor; cbn [In]; intuition discriminate.
Qed.
Lemma sym_smooth : smooth_ok sym_file.
Proof. destruct ex_smooth. constructor; assumption. Qed.
Lemma sym_input x : input_ok (N:=RNum) ex_file x -> input_ok sym_file x.
Proof. intros []. constructor; assumption. Qed.
Lemma sym_smooth_at x xs : smooth_at ex_file x xs -> smooth_at sym_file x xs.
Proof. intros []. constructor; try assumption. apply sym_input. assumption. Qed.

Local Open Scope R_scope.
(** the rotation about (1, 1, 1) by 60 degrees *)
Definition sym_g (a c : nat) : R := nth c (nth a [[2 / 3; - (1 / 3); 2 / 3]; [2 / 3; 2 / 3; - (1 / 3)]; [- (1 / 3); 2 / 3; 2 / 3]] []) 0.
Definition sym_D (l m c : nat) : R := match l with 0%nat => 1 | 1%nat => sym_g m c | _ => if (m =? c)%nat then 1 else 0 end.

Lemma sym_orthogonal : orthogonal sym_g.
Proof.
  intros a b Ha Hb. unfold sum. do 3 (destruct a as [|a]; [do 3 (destruct b as [|b]; [cbn [seq fold_right map sym_g nth Nat.eqb suml]; split; unfold sym_g; cbn; lra|]); lia|]). lia.
Qed.
Lemma sym_w s : exists w1 w2 w3 : R, sym_weights (N:=RNum) s = [w1; w2; w3; w3; w3].
Proof. unfold sym_weights. eexists _, _, _. reflexivity. Qed.
Lemma sym_lm a : all_lm (sym_file (N:=RNum)) a = [a 0%nat 0%nat; a 1%nat 0%nat; a 1%nat 1%nat; a 1%nat 2%nat].
Proof. reflexivity. Qed.
Lemma sym_equivariant : equivariant (ex_sph (N:=RNum)) sym_file sym_g sym_D.
Proof.
  constructor.
  - reflexivity.
  - intros x y z l m _ Hl Hm. change (l <= 1)%nat in Hl. cbv zeta. change (f_l_max sym_file) with 1%nat. unfold turn, sum.
    destruct l as [|[|l]]; [| |lia].
    + assert (m = 0)%nat by lia. subst. cbn. ring.
    + do 3 (destruct m as [|m]; [cbn; unfold sym_g; cbn; lra|]). lia.
  - intros t L M k a Ht HL HM Hk. change (L <= 1)%nat in HL. rewrite !sym_lm. destruct L as [|[|L]]; [| |lia].
    + assert (M = 0)%nat by lia. subst. unfold turn, sum. cbn [f_M0_weights f_M0_monomials sym_file Nat.mul Nat.add].
      destruct (sym_w (t + k)) as (w1 & w2 & w3 & ->). unfold poly, mono, sym_D, sym_g. cbn. field.
    + unfold turn, sum. cbn [f_M0_weights f_M0_monomials sym_file Nat.mul Nat.add].
      destruct (sym_w (t + k + 2)) as (w1 & w2 & w3 & E). do 3 (destruct M as [|M]; [cbn [seq map fold_right Nat.add Nat.mul]; rewrite !E; unfold poly, mono, sym_D, sym_g; cbn; field|]). lia.
  - intros v l m e Hl Hm He. change (l <= 1)%nat in Hl. destruct l as [|[|l]]; [| |lia].
    + assert (m = 0)%nat by lia. subst. change (e < 2)%nat in He. unfold turn, sum.
      destruct e as [|[|e]]; [| |lia]; unfold coupled, turn2, sum, sym_D, sym_g; cbn; lra.
    + change (e < 3)%nat in He. unfold turn, sum.
      do 3 (destruct m as [|m]; [do 3 (destruct e as [|e]; [unfold coupled, turn2, sum, sym_D, sym_g; cbn; lra|]); lia|]). lia.
  - intros t k a Ht Hk. rewrite !sym_lm. unfold turn, sum. cbn [f_M1_weights f_M1_monomials sym_file].
    destruct (sym_w (t + 2 * k)) as (w1 & w2 & w3 & ->). unfold poly, mono, sym_D, sym_g. cbn. field.
Qed.
