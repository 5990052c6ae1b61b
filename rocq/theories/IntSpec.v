(** Vocabulary for C90: the sizes of the arrays that an evaluation reads and writes. *)
From Coq Require Import List ZArith.
From Verif Require Import Base MaceModel MaceSpec.
Import ListNotations.
Local Open Scope Z_scope.

(** fewer than 2^31 entries *)
Definition indexable (z : Z) : Prop := z < 2147483648.

(** The numbers of entries, used for something, of the arrays of an evaluation with [n] nodes and [E] neighbours in total.  T species, K channels, P paths. *)
Definition array_sizes {N : Num} (f : mace_file N) (n E : nat) : list Z :=
  let n := Z.of_nat n in let E := Z.of_nat E in
  let K := Z.of_nat (f_num_channels f) in let T := Z.of_nat (length (f_atomic_numbers f)) in
  let l := Z.of_nat (f_l_max f) + 1 in let L := Z.of_nat (f_L_max f) + 1 in
  let P := Z.of_nat (length (f_Phi1_l f)) in
  let lme := Z.of_nat (list_sum (map (fun l => 2 * l + 1)%nat (f_Phi1_l f))) in
  let lel := Z.of_nat (list_sum (map (fun q => (2 * nth q (f_Phi1_l1 f) 0 + 1) * (2 * nth q (f_Phi1_l2 f) 0 + 1))%nat (seq 0 (length (f_Phi1_l f))))) in
  [ E * (l * l) * 3;          (* Y_grad; Y, xyz, node_forces have fewer *)
    E * l * K;                (* R0, R0_deriv *)
    E * P * K;                (* R1, R1_deriv *)
    n * (l * l) * K;          (* A0, A0_adj, A1, A1_adj, M1_grad *)
    n * (L * L) * K;          (* M0, M0_adj, H1, H1_adj *)
    n * (L * L) * (l * l) * K; (* M0_grad *)
    n * lel * K;              (* Phi1r, dPhi1r *)
    n * lme * K;              (* Phi1, dPhi1 *)
    T * K;                    (* H0_weights *)
    T * (L * L) * K;          (* P0 *)
    L * K * K;                (* H1_weights *)
    T * (T + 1) / 2           (* the tables of radial functions *) ].
