(** Model of libsymmetrix/source/tools.cpp and tools.hpp.

    [std::vector<int>] is [list A] for any element type [A] where the code never inspects the
    elements.  Simplifications: 32-bit overflow is not modelled; the nested brace initialisers are read
    as "one partition with one block with one element" (tools.cpp:30,40,74,86);
    [std::sort] is a parameter (an arbitrary function; its contract [sort_contract] is a hypothesis
    of the theorems), because the order of equivalent elements is unspecified. *)
From Coq Require Import List Arith ZArith Permutation Sorted.
From Verif Require Import Base.
Import ListNotations.

(** tools.cpp:8-17.  [fuel] bounds the recursion depth ([None]: not enough). *)
Fixpoint binomial_coefficient (fuel : nat) (n k : Z) : option Z :=
  match fuel with
  | O => None
  | S fuel' =>
    if orb (k <? 0)%Z (k >? n)%Z then Some 0%Z
    else if orb (k =? 0)%Z (k =? n)%Z then Some 1%Z
    else a <- binomial_coefficient fuel' (n-1)%Z (k-1)%Z ;;
         b <- binomial_coefficient fuel' (n-1)%Z k ;;
         Some (a + b)%Z
  end.

(** tools.cpp:19-22.  [std::reduce] of integers (exact, so its order does not matter). *)
Definition sum_ (v : list Z) : Z := fold_left Z.add v 0%Z.

(** Contract of [std::sort] with a comparator "[key] less than": a permutation, sorted by [key]. *)
Definition sort_contract {T} (key : T -> nat) (srt : list T -> list T) : Prop :=
  forall l, Permutation l (srt l) /\ Sorted (fun a b => key a <= key b) (srt l).

Section Partitions.
Context {A : Type}.
Variable sort_by_size : list (list (list A)) -> list (list (list A)).

(** [p[j].push_back(a)] *)
Definition push_block (p : list (list A)) (j : nat) (a : A) : option (list (list A)) :=
  b <- rd p j ;; wr p j (b ++ [a]).

(** tools.cpp:24-67 _partitions *)
Definition partitions (v : list A) : option (list (list (list A))) :=
  if length v =? 0 then Some [] else
  v0 <- rd v 0 ;;
  ps <- for_range 1 (length v) (fun i prev_partitions =>
      vi <- rd v i ;;
      for_ (length prev_partitions) (fun q ps =>
          prev_partition <- rd prev_partitions q ;;
          let ps := ps ++ [prev_partition ++ [[vi]]] in
          for_ (length prev_partition) (fun j ps =>
              p <- push_block prev_partition j vi ;;
              Some (ps ++ [p])) ps) []) [[[v0]]] ;;
  Some (sort_by_size ps).

(** tools.cpp:69-109 _two_part_partitions *)
Definition two_part_partitions (v : list A) : option (list (list (list A))) :=
  if length v =? 0 then Some [] else
  v0 <- rd v 0 ;;
  ps <- for_range 1 (length v) (fun i prev_partitions =>
      vi <- rd v i ;;
      for_ (length prev_partitions) (fun q ps =>
          prev_partition <- rd prev_partitions q ;;
          let ps := if length prev_partition =? 1 then ps ++ [prev_partition ++ [[vi]]] else ps in
          if length prev_partition <=? 2 then
            for_ (length prev_partition) (fun j ps =>
                p <- push_block prev_partition j vi ;;
                Some (ps ++ [p])) ps
          else Some ps) []) [[[v0]]] ;;
  let ps := filter (fun p => negb (length p =? 1)) ps in
  Some (sort_by_size ps).
End Partitions.

(** [std::next_permutation] on integers, the textbook algorithm: returns the new contents and whether
    a next permutation existed (if not, the contents become sorted). *)
Section NextPermutation.
(** largest [i] with [v[i] < v[i+1]], searching down from [i] *)
Fixpoint np_pivot (v : list nat) (i : nat) : option nat :=
  match i with
  | O => None
  | S i' =>
    match rd v i', rd v (S i') with
    | Some a, Some b => if a <? b then Some i' else np_pivot v i'
    | _, _ => np_pivot v i'
    end
  end.
(** largest [j] with [x < v[j]], searching down from [j-1] *)
Fixpoint np_succ (v : list nat) (x : nat) (j : nat) : option nat :=
  match j with
  | O => None
  | S j' =>
    match rd v j' with
    | Some b => if x <? b then Some j' else np_succ v x j'
    | None => np_succ v x j'
    end
  end.
Definition next_permutation (v : list nat) : option (list nat * bool) :=
  match np_pivot v (length v) with
  | None => Some (rev v, false)
  | Some i =>
    x <- rd v i ;;
    j <- np_succ v x (length v) ;;
    y <- rd v j ;;
    v <- wr v i y ;;
    v <- wr v j x ;;
    Some (firstn (S i) v ++ rev (skipn (S i) v), true)
  end.
End NextPermutation.

(** tools.cpp:111-120 _permutations; [fuel] bounds the number of loop tests. *)
Fixpoint permutations_loop (fuel : nat) (v : list nat) (ps : list (list nat)) : option (list (list nat)) :=
  match fuel with
  | O => None
  | S fuel' =>
    '(v, more) <- next_permutation v ;;
    if (more : bool) then permutations_loop fuel' v (ps ++ [v]) else Some ps
  end.
Definition permutations (fuel : nat) (size : nat) : option (list (list nat)) :=
  v <- for_ size (fun i v => wr v i i) (repeat 0 size) ;;
  permutations_loop fuel v [v].

(** tools.cpp:122-130 _combinations *)
Definition combinations {A} (set : list A) (k : Z) : option (list (list A)) :=
  if negb (k =? 2)%Z then None else
  for_ (length set) (fun i cs =>
    for_range (i+1) (length set) (fun j cs =>
      a <- rd set i ;;
      b <- rd set j ;;
      Some (cs ++ [[a; b]])) cs) [].

(** tools.hpp:19-33 _product *)
Definition product {A} (inputs : list (list A)) : list (list A) :=
  fold_left (fun outputs input =>
    fold_left (fun new_outputs output =>
      fold_left (fun new_outputs i => new_outputs ++ [output ++ [i]]) input new_outputs)
      outputs []) inputs [[]].

(** tools.cpp:132-137 _product_repeat (a negative count gives no iterations) *)
Definition product_repeat {A} (input : list A) (repeat : Z) : list (list A) :=
  product (match for_ (Z.to_nat repeat) (fun _ inputs => Some (inputs ++ [input])) [] with
           | Some inputs => inputs | None => [] end).

(** tools.cpp:139-147 _generate_indices.  [std::vector<int>(max)] with negative [max] throws. *)
Definition generate_indices (dim max : Z) : option (list (list Z)) :=
  if (max <? 0)%Z then None else
  indices <- for_ (Z.to_nat max) (fun i v => wr v i (Z.of_nat i)) (repeat 0%Z (Z.to_nat max)) ;;
  inputs <- for_ (Z.to_nat dim) (fun _ inputs => Some (inputs ++ [indices])) [] ;;
  Some (product inputs).
