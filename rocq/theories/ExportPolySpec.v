(** Specification of symmetric contractions, independent of the exporter. *)
From Coq Require Import List Arith Reals.
From Verif Require Import Base Instances MpSpec.
Import ListNotations.
Local Open Scope R_scope.

Definition sum (n : nat) (f : nat -> R) : R := fold_right Rplus 0 (map f (seq 0 n)).
(** index [p] of the [c]-th tuple of [corr] indices below [n] *)
Definition digit (n corr c p : nat) : nat := ((c / n ^ (corr - 1 - p)) mod n)%nat.
(** x_{i_1} ... x_{i_corr} for the [c]-th tuple *)
Definition vars (n corr c : nat) (x : list R) : R := fold_right Rmult 1 (map (fun p => nth (digit n corr c p) x 0) (seq 0 corr)).

(** sum over corr = 1 .. correlation, eta and all tuples of W[corr][eta] U[corr][row, i_1, ..., i_corr, eta] x_{i_1} ... x_{i_corr}
    (the sums over tuples are over ordered tuples, without symmetrisation) *)
Definition contraction (correlation n row : nat) (U : nat -> nat * list R) (W : nat -> nat -> R) (x : list R) : R :=
  sum correlation (fun q => let corr := (q + 1)%nat in let num_eta := fst (U corr) in
    sum num_eta (fun eta => W corr eta * sum (n ^ corr) (fun c => nth (((row * n ^ corr + c) * num_eta + eta)%nat) (snd (U corr)) 0 * vars n corr c x))).

(** entries of magnitude up to 1e-12 replaced by zero *)
Definition cut (U : nat * list R) : nat * list R := (fst U, map (fun u => if Rlt_dec (1 / 10 ^ 12) (Rabs u) then u else 0) (snd U)).

(** the weights of order corr of a contraction of MACE: its attribute weights lists the orders correlation-1, ..., 1 and weights_max is for order
    correlation *)
Definition order_weights (correlation : nat) (Wt : list (list (list (list R))) * list (list (list R))) (corr : nat) : list (list (list R)) :=
  if (corr =? correlation)%nat then snd Wt else nth (correlation - 1 - corr) (fst Wt) [].
(** the arrays of one contraction: U[corr] has the axes row, i_1, ..., i_corr, eta and W[corr] the axes element, eta, channel *)
Record shapes_ok (rows n correlation num_elements num_channels : nat) (U : nat -> nat * list R) (W : nat -> list (list (list R))) : Prop := {
  so_U : forall corr, (1 <= corr <= correlation)%nat -> length (snd (U corr)) = (rows * n ^ corr * fst (U corr))%nat;
  so_el : forall corr, (1 <= corr <= correlation)%nat -> length (W corr) = num_elements;
  so_eta : forall corr z, (1 <= corr <= correlation)%nat -> (z < num_elements)%nat -> length (nth z (W corr) []) = fst (U corr);
  so_k : forall corr z eta, (1 <= corr <= correlation)%nat -> (z < num_elements)%nat -> (eta < fst (U corr))%nat ->
    length (nth eta (nth z (W corr) []) []) = num_channels
}.
(** W[corr][z,eta,k] *)
Definition weight (W : nat -> list (list (list R))) (z k corr eta : nat) : R := nth k (nth eta (nth z (W corr) []) []) 0.
(** nondecreasing *)
Definition ordered (m : list nat) : Prop := forall i j, (i < j < length m)%nat -> (nth i m 0 <= nth j m 0)%nat.
(** the terms (cs, ms) are the polynomial f in n variables: every monomial is nonempty, ordered, over 0..n-1 and listed once *)
Definition poly_of (n : nat) (cs : list R) (ms : list (list nat)) (f : list R -> R) : Prop :=
  length cs = length ms /\ monos_ok n ms /\ NoDup ms /\ Forall ordered ms /\ forall x, poly cs ms x = f x.
(** every entry is zero or larger than 1e-12 in magnitude *)
Definition no_small (U : nat * list R) : Prop := forall u, In u (snd U) -> u = 0 \/ 1 / 10 ^ 12 < Rabs u.
