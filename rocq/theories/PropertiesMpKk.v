(** Property theorems for the Kokkos class of multivariate polynomials: C80.
    Model: MpKkModel.v over KkSem.v (the Kokkos class) and MpModel.v (the CPU class).  Calls and what it means to give the same
    result: MpKkSpec.v. *)
From Coq Require Import List Arith ZArith Reals Lra Permutation.
From Verif Require Import Base Instances MpModel MpSpec MpThms KkSem MpKkModel MpKkSpec MpKkThms PropertiesMp.
Import ListNotations.
Local Open Scope R_scope.

(** ** C80: evaluation with Kokkos gives the results of the CPU class *)
Theorem C80_polynomial_kokkos_partial : forall (srt : list (list (list nat)) -> list (list (list nat))),
  (forall l, Permutation l (srt l)) ->
  forall (n : nat) (cs : list R) (ms : list (list nat)),
  monos_ok n ms -> length cs = length ms -> ms <> [] ->
  exists p q, make_mpoly (N:=RNum) srt n cs ms = Some p /\ make_mpkk (N:=RNum) true srt n cs ms = Some q /\
  forall (l : list mpkk_call) (c : mpkk_call), (forall d, In d l -> mpkk_call_ok n ms d) -> mpkk_call_ok n ms c ->
  exists m0 m1, (forall o, hexec (flat_map (mpkk_cmds true q) l) (mpkk_mem q) o <-> o = Some m0) /\
    (forall o, hexec (mpkk_cmds true q c) m0 o <-> o = Some m1) /\ same_result p c m1.
Proof. exact lemma_C80. Qed.
Print Assumptions C80_polynomial_kokkos_partial.

(** 2 x0^2 x1 + 5 x1 x0 + 7 x2 x2 x0 x1 at (2, 3, 5), after two other calls *)
Example C80_example : exists q, make_mpkk (N:=RNum) true (fun l => l) 3 [2; 5; 7] ex_ms = Some q /\
  exists m0 m1, (forall o, hexec (flat_map (mpkk_cmds true q) [QGrad [1; 1; 1] [9; 9; 9]; QSimple [0; 4; 1]]) (mpkk_mem q) o <-> o = Some m0) /\
    (forall o, hexec (mpkk_cmds true q (QEval [2; 3; 5])) m0 o <-> o = Some m1) /\ mpkk_f m1 = 1104.
Proof.
  destruct (C80_polynomial_kokkos_partial (fun l => l) (fun l => Permutation_refl l) 3 [2; 5; 7] ex_ms) as (p & q & Ep & Eq & H);
    try apply ex_ms_ok; auto; [discriminate|].
  exists q. split; auto.
  destruct (H [QGrad [1; 1; 1] [9; 9; 9]; QSimple [0; 4; 1]] (QEval [2; 3; 5])) as (m0 & m1 & H0 & H1 & p' & E); [|reflexivity|].
  - intros d [<-|[<-|[]]]; cbn; auto.
  - exists m0, m1. split; auto. split; auto.
    destruct (C15_poly_value (fun l => l) (fun l => Permutation_refl l) 3 [2; 5; 7] ex_ms [2; 3; 5]) as (p2 & p2' & E2 & E3 & _);
      try apply ex_ms_ok; auto.
    assert (p2 = p) by congruence. subst p2. rewrite E3 in E. injection E as _ <-. unfold poly, mono. cbn. ring.
Qed.

Example C80_separate_example : mpkk_call_ok 3 [[0; 0; 1]; [2]]%nat (QGradSimple [1; 2; 3] [7; 7; 7]).
Proof.
  repeat split. intros i i' v Hi Hi'.
  destruct i as [|[|[|i]]], i' as [|[|[|i']]]; cbn in *; auto; exfalso; repeat match goal with H : _ \/ _ |- _ => destruct H end; subst; try contradiction; try discriminate.
Qed.

(** the gradient of evaluate_gradient_simple: two terms with a common variable race for its entry *)
Theorem C80_gradient_race_refuted : forall (srt : list (list (list nat)) -> list (list (list nat))), (forall l, Permutation l (srt l)) ->
  exists q, make_mpkk (N:=RNum) true srt 2 [1; 1] [[0]; [0; 1]]%nat = Some q /\
    hexec (mpkk_cmds true q (QGradSimple [1; 1] [0; 0])) (mpkk_mem q) None.
Proof. exact lemma_C80_race. Qed.
Print Assumptions C80_gradient_race_refuted.

(** in memory that the host cannot access: evaluate does not run *)
Theorem C80_device_refuted : forall (srt : list (list (list nat)) -> list (list (list nat))), (forall l, Permutation l (srt l)) ->
  forall (n : nat) (cs : list R) (ms : list (list nat)) (x : list R),
  monos_ok n ms -> ms <> [] -> length cs = length ms -> length x = n ->
  exists q, make_mpkk (N:=RNum) false srt n cs ms = Some q /\ hexec (mpkk_cmds false q (QEval x)) (mpkk_mem q) None.
Proof. exact lemma_C80_device. Qed.
Print Assumptions C80_device_refuted.

(** there, evaluate_simple multiplies short terms by the first variable: x1 + x0 x1 at (2, 3) is 9, not 12 *)
Theorem C80_padding_refuted : forall (srt : list (list (list nat)) -> list (list (list nat))), (forall l, Permutation l (srt l)) ->
  exists p q m', make_mpoly (N:=RNum) srt 2 [1; 1] [[1]; [0; 1]]%nat = Some p /\
    make_mpkk (N:=RNum) false srt 2 [1; 1] [[1]; [0; 1]]%nat = Some q /\
    mp_evaluate_simple p [2; 3] = Some 9 /\
    (forall o, hexec (mpkk_cmds false q (QSimple [2; 3])) (mpkk_mem q) o <-> o = Some m') /\ mpkk_f m' = 12.
Proof. exact lemma_C80_padding. Qed.
Print Assumptions C80_padding_refuted.

(** a polynomial without terms: the CPU class accepts it, the constructor of the Kokkos class writes out of bounds *)
Theorem C80_no_terms_refuted : forall (srt : list (list (list nat)) -> list (list (list nat))), (forall l, Permutation l (srt l)) ->
  forall (host : bool) (n : nat), (0 < n)%nat ->
  (exists p, make_mpoly (N:=RNum) srt n [] [] = Some p) /\ make_mpkk (N:=RNum) host srt n [] [] = None.
Proof. exact lemma_C80_no_terms. Qed.
Print Assumptions C80_no_terms_refuted.
