(** Model of how the Python bindings hand numpy arrays to C++: symmetrix/source/cpp/mace.cpp (py::array_t arguments),
    cubic_spline_set.cpp, mace_kokkos.cpp (attributes), utilities_kokkos.hpp, and of libsymmetrix/source/tools_kokkos.hpp
    (set_kokkos_view, view2vector).

    A numpy array is a window on a block of memory: offset, shape and strides (here in units of elements).  External contract
    (pybind11): a py::array_t<T> argument without array::c_style accepts an array of element type T as it is, whatever its
    strides; [data()] points to the element with all indices zero and [size()] is the product of the shape.  (For another
    element type pybind11 makes a converted copy; not modelled.)
    Simplified: [int] extents are natural numbers; host and device copies of a view are copies of values. *)
From Coq Require Import List Arith ZArith Bool.
From Verif Require Import Base MaceModel SplineModel.
Import ListNotations.

Record ndarray (T : Type) := mkNd
  { nd_base : list T;          (* the block of memory *)
    nd_off : nat;              (* position of the element with all indices zero *)
    nd_shape : list nat;
    nd_strides : list Z }.
Arguments mkNd {T}. Arguments nd_base {T}. Arguments nd_off {T}. Arguments nd_shape {T}. Arguments nd_strides {T}.

Fixpoint prod (l : list nat) : nat := match l with [] => 1 | n :: l' => n * prod l' end.

(** [std::span<const T>(a.data(), a.size())], e.g. symmetrix/source/cpp/mace.cpp:45-50, and
    [Kokkos::View<const T*,HostSpace,Unmanaged>(array.data(), array.size())], utilities_kokkos.hpp:21-24:
    the next [size()] elements of memory.  [None]: they are not all inside the block. *)
Definition py_span {T} (a : ndarray T) : option (list T) :=
  let n := prod (nd_shape a) in
  if (n =? 0)%nat || (nd_off a + n <=? length (nd_base a))%nat then Some (firstn n (skipn (nd_off a) (nd_base a))) else None.

(** memory after C++ has changed the elements of [std::span<T>(a.mutable_data(), a.size())] to [l] *)
Definition py_store {T} (a : ndarray T) (l : list T) : ndarray T :=
  mkNd (firstn (nd_off a) (nd_base a) ++ l ++ skipn (nd_off a + length l) (nd_base a)) (nd_off a) (nd_shape a) (nd_strides a).

(** symmetrix/source/cpp/mace.cpp:35-52: the binding of MACE.compute_node_energies_forces *)
Definition py_compute {N : Num} sph (m : @mace_model N) (b : @mace_bufs N) (num_nodes : nat)
    (node_types num_neigh neigh_indices neigh_types : ndarray nat) (xyz r : ndarray N) : option (@mace_bufs N) :=
  node_types <- py_span node_types ;;
  num_neigh <- py_span num_neigh ;;
  neigh_indices <- py_span neigh_indices ;;
  neigh_types <- py_span neigh_types ;;
  xyz <- py_span xyz ;;
  r <- py_span r ;;
  compute_node_energies_forces sph m b num_nodes node_types num_neigh neigh_indices neigh_types xyz r.

(** symmetrix/source/cpp/cubic_spline_set.cpp:14-18: the binding of CubicSplineSet.evaluate.  The argument after the call. *)
Definition py_css_evaluate {N : Num} (S : @spline_set N) (r : N) (values_numpy : ndarray N) : option (ndarray N) :=
  values <- py_span values_numpy ;;
  values <- css_evaluate S r values 0 ;;
  Some (py_store values_numpy values).

Section Views.
Context {T : Type} (d : T).

(** a Kokkos::View with LayoutRight: extents and elements *)
Record kview := mkKv { kv_ext : list nat; kv_at : list nat -> T }.

(** Kokkos::realloc: fresh elements are zero *)
Definition kv_realloc (ext : list nat) : kview := mkKv ext (fun _ => d).

(** Kokkos::deep_copy: throws if the extents differ *)
Definition kv_deep_copy (dst src : kview) : option kview :=
  if list_eq_dec Nat.eq_dec (kv_ext dst) (kv_ext src) then Some (mkKv (kv_ext dst) (kv_at src)) else None.

(** an unmanaged View with LayoutRight on [array.data()]; [None] if it sticks out of the block *)
Definition kv_unmanaged (a : ndarray T) (ext : list nat) : option kview :=
  if (prod ext =? 0)%nat || (nd_off a + prod ext <=? length (nd_base a))%nat then
    Some (mkKv ext (fun idx =>
      match ext, idx with
      | [_], [i] => nth (nd_off a + i) (nd_base a) d
      | [_; N1], [i; j] => nth (nd_off a + (i * N1 + j)) (nd_base a) d
      | [_; N1; N2], [i; j; k] => nth (nd_off a + ((i * N1 + j) * N2 + k)) (nd_base a) d
      | _, _ => d
      end))
  else None.

(** utilities_kokkos.hpp:28-40 (tools_kokkos.hpp:111-123 for a std::vector) *)
Definition set_kokkos_view1 (view : kview) (array : ndarray T) : option kview :=
  d_array <- kv_unmanaged array [prod (nd_shape array)] ;;
  let view := if negb (prod (kv_ext view) =? prod (nd_shape array))%nat then kv_realloc [prod (nd_shape array)] else view in
  kv_deep_copy view d_array.

(** utilities_kokkos.hpp:42-58 (tools_kokkos.hpp:125-141) *)
Definition set_kokkos_view2 (view : kview) (array : ndarray T) (N0 N1 : nat) : option kview :=
  d_array <- kv_unmanaged array [N0; N1] ;;
  let view := if negb (nth 0 (kv_ext view) 0 =? N0)%nat || negb (nth 1 (kv_ext view) 0 =? N1)%nat
              then kv_realloc [N0; N1] else view in
  kv_deep_copy view d_array.

(** utilities_kokkos.hpp:60-75 (tools_kokkos.hpp:143-161) *)
Definition set_kokkos_view3 (view : kview) (array : ndarray T) (N0 N1 N2 : nat) : option kview :=
  d_array <- kv_unmanaged array [N0; N1; N2] ;;
  let view := if negb (nth 0 (kv_ext view) 0 =? N0)%nat || negb (nth 1 (kv_ext view) 0 =? N1)%nat || negb (nth 2 (kv_ext view) 0 =? N2)%nat
              then kv_realloc [N0; N1; N2] else view in
  kv_deep_copy view d_array.

(** tools_kokkos.hpp:74-107 view2vector, for the three ranks *)
Definition view2vector (view : kview) : option (list T) :=
  let vector := repeat d (prod (kv_ext view)) in
  match kv_ext view with
  | [n] => for_ n (fun i v => wr v i (kv_at view [i])) vector
  | [e0; e1] => for_ e0 (fun i v => for_ e1 (fun j v => wr v (i * e1 + j) (kv_at view [i; j])) v) vector
  | [e0; e1; e2] =>
      for_ e0 (fun i v => for_ e1 (fun j v => for_ e2 (fun k v =>
        wr v ((i * e1 + j) * e2 + k) (kv_at view [i; j; k])) v) v) vector
  | _ => None
  end.

(** The attributes of MACEKokkos, symmetrix/source/cpp/mace_kokkos.cpp:22-386.  [inner]: the extents that the object
    prescribes: [] for node_energies, node_forces (27, 35); [(l_max+1)*num_channels] for R0 (62-63),
    [num_le*num_channels] for R1 (85-87), [num_channels] for M1, M1_adj, H2, H2_adj (343-344, 351-352, 376-377, 384-385);
    [num_lm; num_channels] for A0, A0_adj, A1, A1_adj (116-125, 288-297), [num_LM; num_channels] for M0, M0_adj, H1, H1_adj
    (191-200, 224-233), [num_lme; num_channels] for Phi1, Phi1_adj (243-252).  The first extent is
    [array.size()/prod inner], integer division; [None] if the divisor is zero. *)
Definition attr_set (inner : list nat) (view : kview) (array : ndarray T) : option kview :=
  match inner with
  | [] => set_kokkos_view1 view array
  | [w] => if (w =? 0)%nat then None else set_kokkos_view2 view array (prod (nd_shape array) / w) w
  | [w1; w2] => if (w1 * w2 =? 0)%nat then None else set_kokkos_view3 view array (prod (nd_shape array) / (w1 * w2)) w1 w2
  | _ => None
  end.
Definition attr_get (view : kview) : option (list T) := view2vector view.
End Views.
Arguments mkKv {T}. Arguments kv_ext {T}. Arguments kv_at {T}.
