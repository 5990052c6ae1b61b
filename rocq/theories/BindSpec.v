(** What a numpy array contains, and when numpy calls it C-contiguous. *)
From Coq Require Import List Arith ZArith Bool.
From Verif Require Import BindModel.
Import ListNotations.

(** positions in memory of the elements, in the order of a.flatten() *)
Fixpoint nd_pos (shape : list nat) (strides : list Z) (o : Z) : list Z :=
  match shape, strides with
  | [], _ => [o]
  | n :: sh, s :: st => flat_map (fun i => nd_pos sh st (o + Z.of_nat i * s)%Z) (seq 0 n)
  | _ :: _, [] => []
  end.

(** [a.flatten()] is the list [l]; in particular all elements lie inside the block of memory *)
Definition nd_list {T} (a : ndarray T) (l : list T) : Prop :=
  length (nd_strides a) = length (nd_shape a) /\
  map (fun z => if (z <? 0)%Z then None else nth_error (nd_base a) (Z.to_nat z))
    (nd_pos (nd_shape a) (nd_strides a) (Z.of_nat (nd_off a))) = map Some l.

(** numpy's flag C_CONTIGUOUS: empty, or every dimension of more than one element has the stride of row-major order *)
Fixpoint row_major (shape : list nat) (strides : list Z) : Prop :=
  match shape, strides with
  | [], [] => True
  | n :: sh, s :: st => (n = 1 \/ s = Z.of_nat (prod sh)) /\ row_major sh st
  | _, _ => False
  end.
Definition c_contiguous {T} (a : ndarray T) : Prop :=
  prod (nd_shape a) = 0 \/ row_major (nd_shape a) (nd_strides a).

(** position of the element [idx] of an array with extents [ext] in row-major order *)
Fixpoint row_index (ext idx : list nat) : nat :=
  match ext, idx with
  | _ :: ext', i :: idx' => i * prod ext' + row_index ext' idx'
  | _, _ => 0
  end.
