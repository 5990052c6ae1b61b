(** Vocabulary for ghost communication: which messages bring every ghost the data of its owner. *)
From Coq Require Import List Arith Permutation.
From Verif Require Import Base PairMpiModel.
Import ListNotations.

(** an atom of a process: (process, index) *)
Notation slot := (nat * nat)%type.

(** the ghosts that message [g] fills *)
Definition dests (g : msg) : list slot := map (fun k => (g_dst g, g_first g + k)) (seq 0 (length (g_list g))).

Section Plan.
(** number of atoms, local and ghost, of every process; the local atom behind every atom *)
Variable size : list nat.
Variable own : slot -> slot.

(** a sequence of messages is a plan when every message takes atoms whose data is known and fills ghosts of the same owners
    that have not been filled; [known] are the atoms whose data is known *)
Fixpoint plan_ok (known : list slot) (gs : list msg) : Prop :=
  match gs with
  | [] => True
  | g :: gs' =>
      g_src g < length size /\ g_dst g < length size /\
      (forall k i, nth_error (g_list g) k = Some i ->
         i < nth (g_src g) size 0 /\ g_first g + k < nth (g_dst g) size 0 /\
         In (g_src g, i) known /\ ~ In (g_dst g, g_first g + k) known /\ own (g_src g, i) = own (g_dst g, g_first g + k)) /\
      plan_ok (known ++ dests g) gs'
  end.
End Plan.

(** the local atoms of all processes *)
Definition locals (nloc : list nat) : list slot := flat_map (fun r => map (pair r) (seq 0 (nth r nloc 0))) (seq 0 (length nloc)).
(** all atoms of all processes *)
Definition atoms (size : list nat) : list slot := flat_map (fun r => map (pair r) (seq 0 (nth r size 0))) (seq 0 (length size)).

(** a complete plan: local atoms own themselves, all ghosts are filled *)
Record comm_ok (nloc size : list nat) (own : slot -> slot) (gs : list msg) : Prop := {
  co_len : length nloc = length size;
  co_le : forall r, r < length size -> nth r nloc 0 <= nth r size 0;
  co_self : forall z, In z (locals nloc) -> own z = z;
  co_own : forall z, In z (atoms size) -> In (own z) (locals nloc);
  co_plan : plan_ok size own (locals nloc) gs;
  co_all : forall z, In z (atoms size) -> In z (locals nloc) \/ exists g, In g gs /\ In z (dests g)
}.

(** arrays with [W] numbers per atom *)
Definition arrays_ok {A} (W : nat) (size : list nat) (hs : list (list A)) : Prop :=
  length hs = length size /\ forall r, r < length size -> length (nth r hs []) = nth r size 0 * W.
(** number [k] of an atom *)
Definition at_slot {A} (W : nat) (d : A) (hs : list (list A)) (z : slot) (k : nat) : A := nth (snd z * W + k) (nth (fst z) hs []) d.

Definition slot_eqb (a b : slot) : bool := (fst a =? fst b) && (snd a =? snd b).
(** the atoms, local and ghost, behind which stands [o] *)
Definition owned (size : list nat) (own : slot -> slot) (o : slot) : list slot := filter (fun z => slot_eqb (own z) o) (atoms size).

(** orders of the loops over (atom of the message, number of the atom), two for every message *)
Definition ords_ok (W : nat) (gs : list msg) (ords : msg -> list (nat * nat) * list (nat * nat)) : Prop :=
  forall g, In g gs -> Permutation (fst (ords g)) (list_prod (seq 0 (length (g_list g))) (seq 0 W)) /\
                       Permutation (snd (ords g)) (list_prod (seq 0 (length (g_list g))) (seq 0 W)).
