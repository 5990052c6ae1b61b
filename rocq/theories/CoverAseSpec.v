(** Vocabulary for renumbered structures and supercells in the ASE calculator. *)
From Coq Require Import List Arith.
From Verif Require Import CoverSpec.
Import ListNotations.

(** every pair of [l] at the image of atom [i] stands below exactly one pair of [l'] at [i] *)
Definition lifts (sg ep : nat -> nat) (l' l : list nat) (i : nat) : Prop :=
  forall q, q < length l -> nth q l 0 = sg i ->
  exists p, (p < length l' /\ nth p l' 0 = i /\ ep p = q) /\ forall p', p' < length l' /\ nth p' l' 0 = i /\ ep p' = q -> p' = p.

(** Atom [i] of the structure ([numbers'], [il'], [jl']) stands for atom [sg i] of ([numbers], [il], [jl]) and pair [p] for pair [ep p]:
    elements and end points agree, and the pairs that start (end) at an atom correspond to those that start (end) at its image. *)
Record nl_covers (sg ep : nat -> nat) (numbers' il' jl' numbers il jl : list nat) : Prop := {
  nc_atom : forall i, i < length numbers' -> sg i < length numbers;
  nc_number : forall i, i < length numbers' -> nth i numbers' 0 = nth (sg i) numbers 0;
  nc_pair : forall p, p < length il' -> ep p < length il;
  nc_first : forall p, p < length il' -> nth (ep p) il 0 = sg (nth p il' 0);
  nc_second : forall p, p < length il' -> nth (ep p) jl 0 = sg (nth p jl' 0);
  nc_out : forall i, i < length numbers' -> lifts sg ep il' il i;
  nc_in : forall i, i < length numbers' -> lifts sg ep jl' jl i
}.

(** symmetries over the small structure (the translations of the supercell) carry any pair to any other pair above the same pair *)
Definition nl_translations (ep : nat -> nat) (numbers' il' jl' : list nat) : Prop :=
  forall q q1, q < length il' -> q1 < length il' -> ep q = ep q1 ->
  exists tau te, nl_covers tau te numbers' il' jl' numbers' il' jl' /\ fold_of tau (length numbers') (length numbers') 1 /\
    (forall j, j < length il' -> ep (te j) = ep j) /\ te q = q1.
