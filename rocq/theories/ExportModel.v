(** Index computations of the exporter symmetrix/source/symmetrix/extract_mace_data.py. *)
From Coq Require Import List Arith ZArith.
Import ListNotations.

(** extract_mace_data.py:150-153 (also 207-210 and 392-395): the pairs for which a radial table is appended,
    in order.  [atomic_numbers] has been sorted (line 115). *)
Definition export_pairs (atomic_numbers : list nat) : list (nat * nat) :=
  flat_map (fun a_i => flat_map (fun a_j => if a_j <? a_i then [] else [(a_i, a_j)]) atomic_numbers) atomic_numbers.

Local Open Scope Z_scope.

Section Coupling.
Variables Phi1_l Phi1_l1 Phi1_l2 : list nat.

(** extract_mace_data.py:336-342 compute_lme; [sum(np.array(Phi1_l)<l)] counts the smaller entries *)
Definition compute_lme (le l : nat) (m : Z) : Z :=
  let e := Z.of_nat le - Z.of_nat (length (filter (fun x => x <? l)%nat Phi1_l)) in
  let num_e := map (fun ll => Z.of_nat (length (filter (fun x => x =? ll)%nat Phi1_l))) (seq 0 (l + 1)) in
  let lme := fold_left (fun acc ll => acc + (2 * Z.of_nat ll + 1) * nth ll num_e 0) (seq 0 l) 0 in
  lme + (Z.of_nat l + m) * nth l num_e 0 + e.

(** extract_mace_data.py:343-349 compute_lelm1lm2 (the arguments l1 and l2 are overwritten) *)
Definition compute_lelm1lm2 (le : nat) (m1 m2 : Z) : Z :=
  let lelm1lm2 := fold_left (fun acc j =>
    acc + (2 * Z.of_nat (nth j Phi1_l1 0%nat) + 1) * (2 * Z.of_nat (nth j Phi1_l2 0%nat) + 1)) (seq 0 le) 0 in
  let l1 := Z.of_nat (nth le Phi1_l1 0%nat) in
  let l2 := Z.of_nat (nth le Phi1_l2 0%nat) in
  lelm1lm2 + (l1 + m1) * (2 * l2 + 1) + l2 + m2.
End Coupling.
