(** C83, C84: numpy arrays through the Python bindings. *)
From Coq Require Import List Arith ZArith Bool Lia.
From Verif Require Import Base MaceModel SplineModel BindModel BindSpec BindProofs.
Import ListNotations.

(** ** C83: C++ sees the elements of the numpy arrays it is given.  True for C-contiguous arrays (all scalar types, any shape);
    missing: all other arrays, see below. *)
Theorem C83_arguments_partial : forall (N : Num) sph (m : @mace_model N) (b : @mace_bufs N) num_nodes
    (node_types num_neigh neigh_indices neigh_types : ndarray nat) (xyz r : ndarray N) nt nn ni nj lxyz lr,
  nd_list node_types nt -> nd_list num_neigh nn -> nd_list neigh_indices ni -> nd_list neigh_types nj ->
  nd_list xyz lxyz -> nd_list r lr ->
  c_contiguous node_types -> c_contiguous num_neigh -> c_contiguous neigh_indices -> c_contiguous neigh_types ->
  c_contiguous xyz -> c_contiguous r ->
  py_compute sph m b num_nodes node_types num_neigh neigh_indices neigh_types xyz r =
  compute_node_energies_forces sph m b num_nodes nt nn ni nj lxyz lr.
Proof. intros N. exact lemma_C83_compute. Qed.
Print Assumptions C83_arguments_partial.

(** every array that is not C-contiguous is misread, whatever its shape and strides, if the numbers in its memory differ *)
Theorem C83_strided_refuted : forall (T : Type) (a : ndarray T) l,
  nd_list a l -> NoDup (nd_base a) -> ~ c_contiguous a -> py_span a <> Some l.
Proof. intros T. exact lemma_C83_strided. Qed.
Print Assumptions C83_strided_refuted.

(** output arguments *)
Theorem C83_output_partial : forall (N : Num) (S : @spline_set N) (r : N) (values : ndarray N) l l',
  nd_list values l -> c_contiguous values -> css_evaluate S r l 0 = Some l' ->
  exists values', py_css_evaluate S r values = Some values' /\ nd_list values' l' /\
    nd_shape values' = nd_shape values /\ nd_strides values' = nd_strides values /\ nd_off values' = nd_off values /\
    length (nd_base values') = length (nd_base values) /\
    (* nothing else in memory changes *)
    forall k, (k < nd_off values \/ nd_off values + prod (nd_shape values) <= k)%nat ->
      nth_error (nd_base values') k = nth_error (nd_base values) k.
Proof. intros N. exact lemma_C83_output. Qed.
Print Assumptions C83_output_partial.

(** a column of a matrix with at least as many columns: its elements after the first stay as they were, and the values go to
    elements of other columns *)
Theorem C83_output_strided_refuted : forall (N : Num) (S : @spline_set N) (r : N) (values values' : ndarray N) n s,
  nd_shape values = [n] -> nd_strides values = [Z.of_nat s] -> (n <= s)%nat -> (1 <= n)%nat ->
  py_css_evaluate S r values = Some values' ->
  exists l l', py_span values = Some l /\ css_evaluate S r l 0 = Some l' /\
    forall k, (k < n)%nat ->
      nth_error (nd_base values') (nd_off values + k) = nth_error l' k /\
      (0 < k -> nth_error (nd_base values') (nd_off values + k * s) = nth_error (nd_base values) (nd_off values + k * s))%nat.
Proof. intros N. exact lemma_C83_output_strided. Qed.
Print Assumptions C83_output_strided_refuted.

(** a 2 by 3 array that starts at the second element of its memory; the same numbers stored by columns; every second element;
    backwards *)
Example C83_example :
  let a := mkNd [9; 1; 2; 3; 4; 5; 6] 1 [2; 3] [3; 1]%Z in
  nd_list a [1; 2; 3; 4; 5; 6] /\ c_contiguous a /\ py_span a = Some [1; 2; 3; 4; 5; 6].
Proof. cbn. repeat split; auto. right. cbn. auto. Qed.
Example C83_fortran_example :
  let a := mkNd [1; 4; 2; 5; 3; 6] 0 [2; 3] [1; 2]%Z in
  nd_list a [1; 2; 3; 4; 5; 6] /\ NoDup (nd_base a) /\ ~ c_contiguous a /\ py_span a = Some [1; 4; 2; 5; 3; 6].
Proof.
  cbn. repeat split; auto. { repeat (constructor; [cbn; lia|]). constructor. }
  intros [H|H]; cbn in H; [lia|]. destruct H as [[H|H] _]; discriminate.
Qed.
Example C83_slice_example :
  let a := mkNd [1; 7; 2; 8; 3] 0 [3] [2]%Z in nd_list a [1; 2; 3] /\ py_span a = Some [1; 7; 2].
Proof. cbn. repeat split. Qed.
Example C83_reverse_example :
  let a := mkNd [3; 2; 1] 2 [3] [-1]%Z in nd_list a [1; 2; 3] /\ py_span a = None.
Proof. cbn. repeat split. Qed.

(** ** C84: an attribute of MACEKokkos that is set and then read.  Holds for contiguous arrays that fill whole rows; missing:
    other lengths (C84_remainder_refuted), other arrays (C83). *)
Theorem C84_attributes_partial : forall (T : Type) (d : T) inner (view : @kview T) (a : ndarray T) l,
  (length inner <= 2)%nat -> prod inner <> 0 -> length (kv_ext view) = S (length inner) ->
  nd_list a l -> c_contiguous a ->
  exists view', attr_set d inner view a = Some view' /\
    (* the kernels see the elements in row-major order *)
    kv_ext view' = (length l / prod inner) :: inner /\
    (forall idx, Forall2 lt idx (kv_ext view') -> kv_at view' idx = nth (row_index (kv_ext view') idx) l d) /\
    attr_get d view' = Some (firstn (length l / prod inner * prod inner) l) /\
    (Nat.divide (prod inner) (length l) -> attr_get d view' = Some l).
Proof. intros T. exact lemma_C84. Qed.
Print Assumptions C84_attributes_partial.

(** no error, and numbers are lost *)
Theorem C84_remainder_refuted : forall (T : Type) (d : T) inner (view : @kview T) (a : ndarray T) l,
  (length inner <= 2)%nat -> prod inner <> 0 -> length (kv_ext view) = S (length inner) ->
  nd_list a l -> c_contiguous a -> ~ Nat.divide (prod inner) (length l) ->
  exists view' l', attr_set d inner view a = Some view' /\ attr_get d view' = Some l' /\ (length l' < length l)%nat.
Proof. intros T. exact lemma_C84_remainder. Qed.
Print Assumptions C84_remainder_refuted.

Example C84_example :
  let view := mkKv [7; 5; 1] (fun _ => 42) in
  (v <- attr_set 0 [2; 3] view (mkNd [1; 2; 3; 4; 5; 6; 7; 8; 9; 10; 11; 12] 0 [2; 6] [6; 1]%Z) ;; attr_get 0 v) =
    Some [1; 2; 3; 4; 5; 6; 7; 8; 9; 10; 11; 12] /\
  (v <- attr_set 0 [2; 3] view (mkNd [1; 2; 3; 4; 5; 6; 7; 8; 9; 10] 0 [10] [1]%Z) ;; attr_get 0 v) = Some [1; 2; 3; 4; 5; 6].
Proof. split; reflexivity. Qed.
