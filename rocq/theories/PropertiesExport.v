(** C49 (coupling indices written by the exporter) and the exporter half of C10. *)
From Coq Require Import List Arith ZArith Sorted Lia.
From Verif Require Import ExportModel ExportSpec ExportProofs.
Import ListNotations.

(** The exporter writes one table per unordered species pair, and the table of species a <= b is at the position
    that mace.cpp computes, a*(2n-a-1)/2 + b. *)
Theorem C10_exporter_order : forall zs a b za zb, StronglySorted lt zs ->
  nth_error zs a = Some za -> nth_error zs b = Some zb -> a <= b ->
  nth_error (export_pairs zs) (a * (2 * length zs - a - 1) / 2 + b) = Some (za, zb) /\
  length (export_pairs zs) = length zs * (length zs + 1) / 2.
Proof. exact lemma_C10_export. Qed.
Print Assumptions C10_exporter_order.

Example C10_exporter_example : StronglySorted lt [1; 6; 8] /\
  export_pairs [1; 6; 8] = [(1, 1); (1, 6); (1, 8); (6, 6); (6, 8); (8, 8)] /\
  nth_error (export_pairs [1; 6; 8]) (1 * (2 * 3 - 1 - 1) / 2 + 2) = Some (6, 8).
Proof. split; [repeat constructor|split; reflexivity]. Qed.

Local Open Scope Z_scope.

(** (path, m) indices: inside the allocated range, collision free, and equal to the row that compute_A1 uses *)
Theorem C49_lme : forall Phi1_l le l m, StronglySorted Peano.le Phi1_l ->
  nth_error Phi1_l le = Some l -> - Z.of_nat l <= m <= Z.of_nat l ->
  0 <= compute_lme Phi1_l le l m < Z.of_nat (list_sum (map (fun l => 2 * l + 1)%nat Phi1_l)) /\
  nth_error (lrows Phi1_l) (Z.to_nat (compute_lme Phi1_l le l m)) = Some (le, m) /\
  (forall le' l' m', nth_error Phi1_l le' = Some l' -> - Z.of_nat l' <= m' <= Z.of_nat l' ->
     compute_lme Phi1_l le l m = compute_lme Phi1_l le' l' m' -> le = le' /\ m = m').
Proof. exact lemma_C49_lme. Qed.
Print Assumptions C49_lme.

(** (path, m1, m2) indices *)
Theorem C49_lelm1lm2 : forall Phi1_l1 Phi1_l2 n le m1 m2, (le < n)%nat ->
  - Z.of_nat (nth le Phi1_l1 0%nat) <= m1 <= Z.of_nat (nth le Phi1_l1 0%nat) ->
  - Z.of_nat (nth le Phi1_l2 0%nat) <= m2 <= Z.of_nat (nth le Phi1_l2 0%nat) ->
  0 <= compute_lelm1lm2 Phi1_l1 Phi1_l2 le m1 m2 <
    Z.of_nat (list_sum (map (fun q => (2 * nth q Phi1_l1 0 + 1) * (2 * nth q Phi1_l2 0 + 1))%nat (seq 0 n))) /\
  nth_error (prows Phi1_l1 Phi1_l2 n) (Z.to_nat (compute_lelm1lm2 Phi1_l1 Phi1_l2 le m1 m2)) = Some (le, m1, m2) /\
  (forall le' m1' m2', (le' < n)%nat ->
     - Z.of_nat (nth le' Phi1_l1 0%nat) <= m1' <= Z.of_nat (nth le' Phi1_l1 0%nat) ->
     - Z.of_nat (nth le' Phi1_l2 0%nat) <= m2' <= Z.of_nat (nth le' Phi1_l2 0%nat) ->
     compute_lelm1lm2 Phi1_l1 Phi1_l2 le m1 m2 = compute_lelm1lm2 Phi1_l1 Phi1_l2 le' m1' m2' ->
     le = le' /\ m1 = m1' /\ m2 = m2').
Proof. exact lemma_C49_lel. Qed.
Print Assumptions C49_lelm1lm2.

(** l_max = 1 with three paths *)
Example C49_example : StronglySorted Peano.le [0; 1; 1]%nat /\
  map (fun p => compute_lme [0; 1; 1]%nat (fst p) (nth (fst p) [0; 1; 1]%nat 0%nat) (snd p))
    [(0%nat, 0); (1%nat, -1); (2%nat, -1); (1%nat, 0); (2%nat, 0); (1%nat, 1); (2%nat, 1)] = [0; 1; 2; 3; 4; 5; 6] /\
  lrows [0; 1; 1]%nat = [(0%nat, 0); (1%nat, -1); (2%nat, -1); (1%nat, 0); (2%nat, 0); (1%nat, 1); (2%nat, 1)] /\
  compute_lelm1lm2 [0; 1; 1]%nat [0; 0; 1]%nat 2 0 1 = 1 + 3 + 1 * 3 + 2.
Proof. split; [repeat constructor|repeat split]. Qed.
