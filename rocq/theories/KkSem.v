(** Kokkos kernels: programs over views, executed by threads that interleave in any order.

    Nothing in this file models a particular function of /repo; it is the vocabulary in which the Kokkos classes
    (libsymmetrix/source/*_kokkos.cpp) are modelled in KkModel.v.

    - A view is a block of memory with extents; a cell is one element of one view, given by its indices.
      An access with an index outside the extents is undefined behaviour.
    - A kernel is a [prog].  Every single load, store and atomic addition is one step; [Fork] runs two programs
      concurrently and continues when both have ended.  [x += v] on a cell is a load followed by a store, so two
      threads doing it at the same time may lose an addition; [Kokkos::atomic_add] is one step.
    - [step] picks any of the threads for the next step: an execution is an arbitrary interleaving
      (memory is sequentially consistent).
    - The host runs one command after the other: an operation on the views (allocation, copy, fill) or a kernel. *)
From Coq Require Import List Arith ZArith Bool.
From Verif Require Import Base.
Import ListNotations.

(** the views of class [MACEKokkos] (mace_kokkos.hpp), of its readout (multilayer_perceptron_kokkos.hpp), and those of class
    [PairSymmetrixMACEKokkos] (pair_symmetrix_mace_kokkos.h) that kernels write *)
Inductive buf :=
| bE | bF                                   (* node_energies, node_forces *)
| bR0 | bR0d | bR1 | bR1d                   (* R0, R0_deriv, R1, R1_deriv *)
| bXs | bY | bYg | bYgs                     (* xyz_shuffled, Y, Y_grad, Y_grad_shuffled *)
| bA0 | bA0a | bA0v | bA0d                  (* A0, A0_adj, A0_spline_values, A0_spline_derivs *)
| bM0 | bM0a | bM0v (LM : nat) | bM0j (LM : nat)  (* M0, M0_adj, M0_poly_values(LM), M0_poly_adjoints(LM) *)
| bH1 | bH1a                                (* H1, H1_adj *)
| bP1r | bdP1r | bP1 | bdP1                 (* Phi1r, dPhi1r, Phi1, dPhi1 *)
| bA1 | bA1a | bA1v | bA1d                  (* A1, A1_adj, A1_spline_values, A1_spline_derivs *)
| bM1 | bM1a | bM1v | bM1j                  (* M1, M1_adj, M1_poly_values, M1_poly_adjoints *)
| bH2 | bH2a | bRo                          (* H2, H2_adj, readout_2_output *)
| bNv (l : nat) | bNd (l : nat)             (* readout_2.node_values(l), readout_2.node_derivatives(l) *)
| bLf | bLe | bLv                           (* LAMMPS pair style: atomKK->k_f, k_eatom, v *)
| bLh | bLha                                (* LAMMPS pair style: H1, H1_adj *)
| bScr.                                     (* team scratch memory and the variables of reductions *)

Definition buf_dec (a b : buf) : {a = b} + {a <> b}.
Proof. decide equality; apply Nat.eq_dec. Defined.

Definition cell : Type := buf * list nat.
Definition cell_dec (a b : cell) : {a = b} + {a <> b}.
Proof. decide equality; [apply (list_eq_dec Nat.eq_dec)|apply buf_dec]. Defined.

(** all indices within the extents *)
Fixpoint inb (ext idx : list nat) : bool :=
  match ext, idx with
  | [], [] => true
  | e :: ext', i :: idx' => (i <? e) && inb ext' idx'
  | _, _ => false
  end.

Section Sem.
Context {N : Num}.

(** extents and contents of all views *)
Record mem := mkMem { dims : buf -> list nat; val : cell -> N }.

(** scratch cells always exist *)
Definition alloc (m : mem) (c : cell) : bool :=
  match fst c with bScr => true | b => inb (dims m b) (snd c) end.

Definition store (m : mem) (c : cell) (v : N) : mem :=
  mkMem (dims m) (fun c' => if cell_dec c c' then v else val m c').

Inductive prog (A : Type) : Type :=
| Ret (a : A)
| Fail                                             (* undefined behaviour *)
| Get (c : cell) (k : N -> prog A)
| Put (c : cell) (v : N) (k : prog A)
| Add (c : cell) (v : N) (k : prog A)              (* Kokkos::atomic_add *)
| Fork (p q : prog unit) (k : prog A).
Arguments Ret {A} a.
Arguments Fail {A}.
Arguments Get {A} c k.
Arguments Put {A} c v k.
Arguments Add {A} c v k.
Arguments Fork {A} p q k.

Fixpoint pbind {A B} (p : prog A) (f : A -> prog B) : prog B :=
  match p with
  | Ret a => f a
  | Fail => Fail
  | Get c k => Get c (fun v => pbind (k v) f)
  | Put c v k => Put c v (pbind k f)
  | Add c v k => Add c v (pbind k f)
  | Fork p q k => Fork p q (pbind k f)
  end.

(** ** Execution *)
Inductive step : forall A, prog A -> mem -> prog A -> mem -> Prop :=
| step_get A c (k : N -> prog A) m : alloc m c = true -> step A (Get c k) m (k (val m c)) m
| step_put A c v (k : prog A) m : alloc m c = true -> step A (Put c v k) m k (store m c v)
| step_add A c v (k : prog A) m : alloc m c = true -> step A (Add c v k) m k (store m c (nadd (val m c) v))
| step_left A p q (k : prog A) m p' m' : step unit p m p' m' -> step A (Fork p q k) m (Fork p' q k) m'
| step_right A p q (k : prog A) m q' m' : step unit q m q' m' -> step A (Fork p q k) m (Fork p q' k) m'
| step_join A (k : prog A) m : step A (Fork (Ret tt) (Ret tt) k) m k m.

Inductive steps (A : Type) : prog A -> mem -> prog A -> mem -> Prop :=
| steps_refl p m : steps A p m p m
| steps_step p m p1 m1 p2 m2 : step A p m p1 m1 -> steps A p1 m1 p2 m2 -> steps A p m p2 m2.

(** some thread of the program is about to access the cell *)
Inductive access := Read | Write | Atomic.
Inductive about : forall A, prog A -> access -> cell -> Prop :=
| about_get A c (k : N -> prog A) : about A (Get c k) Read c
| about_put A c v (k : prog A) : about A (Put c v k) Write c
| about_add A c v (k : prog A) : about A (Add c v k) Atomic c
| about_left A p q (k : prog A) a c : about unit p a c -> about A (Fork p q k) a c
| about_right A p q (k : prog A) a c : about unit q a c -> about A (Fork p q k) a c.
Definition conflict (a b : access) : Prop :=
  match a, b with Read, Read | Atomic, Atomic => False | _, _ => True end.

(** some thread is about to do something undefined, or two threads are in a data race *)
Inductive ub : forall A, prog A -> mem -> Prop :=
| ub_fail A m : ub A Fail m
| ub_get A c (k : N -> prog A) m : alloc m c = false -> ub A (Get c k) m
| ub_put A c v (k : prog A) m : alloc m c = false -> ub A (Put c v k) m
| ub_add A c v (k : prog A) m : alloc m c = false -> ub A (Add c v k) m
| ub_left A p q (k : prog A) m : ub unit p m -> ub A (Fork p q k) m
| ub_right A p q (k : prog A) m : ub unit q m -> ub A (Fork p q k) m
| ub_race A p q (k : prog A) m a b c : about unit p a c -> about unit q b c -> conflict a b -> ub A (Fork p q k) m.

(** host commands *)
Inductive hcmd :=
| HOp (f : mem -> option mem)
| HRun (p : prog unit).

(** [hexec l m o]: the commands [l] can end with memory [o]; [None] is undefined behaviour *)
Inductive hexec : list hcmd -> mem -> option mem -> Prop :=
| hexec_nil m : hexec [] m (Some m)
| hexec_op f l m m1 o : f m = Some m1 -> hexec l m1 o -> hexec (HOp f :: l) m o
| hexec_op_ub f l m : f m = None -> hexec (HOp f :: l) m None
| hexec_run p l m m1 o : steps unit p m (Ret tt) m1 -> hexec l m1 o -> hexec (HRun p :: l) m o
| hexec_run_ub p l m p1 m1 : steps unit p m p1 m1 -> ub unit p1 m1 -> hexec (HRun p :: l) m None.

(** ** One particular execution, for examples: threads one after the other *)
Fixpoint seq_run {A} (p : prog A) (m : mem) : option (A * mem) :=
  match p with
  | Ret a => Some (a, m)
  | Fail => None
  | Get c k => if alloc m c then seq_run (k (val m c)) m else None
  | Put c v k => if alloc m c then seq_run k (store m c v) else None
  | Add c v k => if alloc m c then seq_run k (store m c (nadd (val m c) v)) else None
  | Fork p q k =>
    '(_, m) <- seq_run p m ;;
    '(_, m) <- seq_run q m ;;
    seq_run k m
  end.

(** ** Kernel vocabulary *)
Definition get (b : buf) (idx : list nat) : prog N := Get (b, idx) (fun v => Ret v).
Definition put (b : buf) (idx : list nat) (v : N) : prog unit := Put (b, idx) v (Ret tt).
Definition atomic_add (b : buf) (idx : list nat) (v : N) : prog unit := Add (b, idx) v (Ret tt).
(** [b(idx) += v], not atomic *)
Definition plus_eq (b : buf) (idx : list nat) (v : N) : prog unit :=
  Get (b, idx) (fun x => Put (b, idx) (nadd x v) (Ret tt)).
(** [b(idx) -= v], not atomic *)
Definition minus_eq (b : buf) (idx : list nat) (v : N) : prog unit :=
  Get (b, idx) (fun x => Put (b, idx) (nsub x v) (Ret tt)).
(** read-only views that never change: indices outside are undefined *)
Definition lift {A} (o : option A) : prog A := match o with Some a => Ret a | None => Fail end.
Definition pguard {A} (b : bool) (p : prog A) : prog A := if b then p else Fail.

(** [for (int i=0; i<n; ++i)] inside a thread *)
Fixpoint for_p_from {S} (n i : nat) (body : nat -> S -> prog S) (s : S) : prog S :=
  match n with
  | O => Ret s
  | Datatypes.S n' => pbind (body i s) (fun s' => for_p_from n' (Datatypes.S i) body s')
  end.
Definition for_p {S} (n : nat) (body : nat -> S -> prog S) (s : S) : prog S := for_p_from n 0 body s.

(** [Kokkos::parallel_for] over 0..n-1 (a league of teams, the threads of a team, or the vector lanes of a thread):
    all iterations concurrently; ends when all have ended *)
Fixpoint par_for (n : nat) (body : nat -> prog unit) : prog unit :=
  match n with
  | O => Ret tt
  | S n' => Fork (par_for n' body) (body n') (Ret tt)
  end.

(** [Kokkos::parallel_reduce] with a sum: every iteration contributes a value, the contributions are added in any
    order.  The variable of the reduction is the scratch cell [c], which must belong to the caller. *)
Definition par_reduce (c : list nat) (n : nat) (body : nat -> prog N) : prog N :=
  pbind (put bScr c nzero) (fun _ =>
  pbind (par_for n (fun j => pbind (body j) (fun v => atomic_add bScr c v))) (fun _ =>
  get bScr c)).
(** two and three sums at once; the variables are the scratch cells c++[0], c++[1], c++[2] *)
Definition par_reduce2 (c : list nat) (n : nat) (body : nat -> prog (N * N)) : prog (N * N) :=
  pbind (put bScr (c ++ [0]) nzero) (fun _ => pbind (put bScr (c ++ [1]) nzero) (fun _ =>
  pbind (par_for n (fun j => pbind (body j) (fun v =>
    pbind (atomic_add bScr (c ++ [0]) (fst v)) (fun _ => atomic_add bScr (c ++ [1]) (snd v))))) (fun _ =>
  pbind (get bScr (c ++ [0])) (fun a => pbind (get bScr (c ++ [1])) (fun b => Ret (a, b)))))).
Definition par_reduce3 (c : list nat) (n : nat) (body : nat -> prog (N * N * N)) : prog (N * N * N) :=
  pbind (put bScr (c ++ [0]) nzero) (fun _ => pbind (put bScr (c ++ [1]) nzero) (fun _ =>
  pbind (put bScr (c ++ [2]) nzero) (fun _ =>
  pbind (par_for n (fun j => pbind (body j) (fun v =>
    pbind (atomic_add bScr (c ++ [0]) (fst (fst v))) (fun _ =>
    pbind (atomic_add bScr (c ++ [1]) (snd (fst v))) (fun _ => atomic_add bScr (c ++ [2]) (snd v)))))) (fun _ =>
  pbind (get bScr (c ++ [0])) (fun x => pbind (get bScr (c ++ [1])) (fun y =>
  pbind (get bScr (c ++ [2])) (fun z => Ret (x, y, z)))))))).

(** ** Host operations *)
Definition extent (m : mem) (b : buf) (d : nat) : nat := nth d (dims m b) 0.
Definition set_view (m : mem) (b : buf) (ext : list nat) (v : list nat -> N) : mem :=
  mkMem (fun b' => if buf_dec b b' then ext else dims m b')
        (fun c => if buf_dec b (fst c) then v (snd c) else val m c).
(** Kokkos::realloc: a new view filled with zeros *)
Definition realloc (b : buf) (ext : list nat) (m : mem) : mem := set_view m b ext (fun _ => nzero).
(** allocation WithoutInitializing: arbitrary contents [junk] *)
Definition realloc_uninit (junk : cell -> N) (b : buf) (ext : list nat) (m : mem) : mem :=
  set_view m b ext (fun idx => junk (b, idx)).
(** Kokkos::resize keeps the elements with indices inside both the old and the new extents *)
Definition resize_view (b : buf) (ext : list nat) (m : mem) : mem :=
  set_view m b ext (fun idx => if inb (dims m b) idx then val m (b, idx) else nzero).
(** Kokkos::deep_copy(view, value) *)
Definition fill_view (b : buf) (v : N) (m : mem) : mem := set_view m b (dims m b) (fun _ => v).
(** Kokkos::deep_copy(dst, src); throws if the extents differ *)
Definition copy_view (dst src : buf) (m : mem) : option mem :=
  if list_eq_dec Nat.eq_dec (dims m dst) (dims m src)
  then Some (set_view m dst (dims m dst) (fun idx => val m (src, idx))) else None.

End Sem.
Arguments mem : clear implicits.
Arguments prog : clear implicits.
Arguments hcmd : clear implicits.
Arguments Ret {N A} a.
Arguments Fail {N A}.
Arguments Get {N A} c k.
Arguments Put {N A} c v k.
Arguments Add {N A} c v k.
Arguments Fork {N A} p q k.
Notation "x <~ e ;; f" := (pbind e (fun x => f)) (at level 61, e at next level, right associativity).
Notation "' pat <~ e ;; f" := (pbind e (fun x => match x with pat => f end))
  (at level 61, pat pattern, e at next level, right associativity).
