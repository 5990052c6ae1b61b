(** Example data for C89: the periodic system of PairExamples.v is the structure of AseExamples.v. *)
From Coq Require Import List Arith ZArith Lia Permutation Reals Lra.
From Verif Require Import Base BaseLemmas Instances MaceModel MaceSpec MaceSpec2 MaceExamples ExportSpec AseModel AseSpec AseExamples PairModel PairSpec PairExamples AgreeSpec.
Import ListNotations.
Local Open Scope R_scope.

Definition same (i : nat) : nat := i.
Lemma same_px : same_structure [1; 2]%nat ax_numbers ax_il ax_jl ax_D px_types px_rc px_owner px same.
Proof.
  constructor.
  - cbn. apply Permutation_refl.
  - intros j Hj. cbn [px px_lmp nlocal nghost Nat.add] in Hj. do 6 (destruct j as [|j]; [split; [reflexivity|intros k Hk; cbn in Hk; first [lia|destruct k as [|k]; [cbn; congruence|lia]]]|]). lia.
  - intros i Hi. cbn [px px_lmp nlocal] in Hi. destruct px_kept as (K0 & K1 & K2).
    destruct i as [|[|[|i]]]; [| | |lia]; [rewrite K0|rewrite K1|rewrite K2];
      (match goal with |- Permutation ?a ?b => replace b with a; [apply Permutation_refl|] end);
      cbn [ax_il ax_jl length seq filter nth Nat.eqb map px_owner same];
      unfold vec, vec_to, sep, ax_D, nl_vectors; change (atom_x px) with px_x; rewrite px_x_eq;
      cbn; repeat (f_equal; try lra).
Qed.
