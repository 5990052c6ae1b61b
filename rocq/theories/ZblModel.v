(** Model of libsymmetrix/source/zbl.cpp and zbl.hpp (class [ZBL]).
    Simplifications: [int] is unbounded; an atomic number is a [nat] (it is used as an array
    index and as a [double]); reading outside [c] or [covalent_radii] is [None]. *)
From Coq Require Import List Arith ZArith.
From Verif Require Import Base.
Import ListNotations.

Section Zbl.
Context {N : Num}.
Local Open Scope num_scope.

(** zbl.hpp:43-47: the members set by the constructor (zbl.cpp:9-20) *)
Record ZBL := mkZBL {
  z_a_exp : N;
  z_a_prefactor : N;
  z_c : list N;
  z_covalent_radii : list N;
  z_p : Z
}.

(** zbl.hpp:50-54: static constexpr members *)
Definition c_exps_0 : N := nlit (-32) 10.
Definition c_exps_1 : N := nlit (-9423) 10000.
Definition c_exps_2 : N := nlit (-4028) 10000.
Definition c_exps_3 : N := nlit (-2016) 10000.
Definition v_prefactor : N := nlit 143996 10000.

(** zbl.cpp:75-84 ZBL::compute_envelope; [r >= r_max] is [r_max <= r] *)
Definition compute_envelope (r r_max : N) (p : Z) : N :=
  if nleb r_max r then nzero else
  let r_over_r_max := r / r_max in
  none - ((nofZ p + none) * (nofZ p + nofZ 2) / nofZ 2) * npowi r_over_r_max p
       + nofZ p * (nofZ p + nofZ 2) * npowi r_over_r_max (p + 1)%Z
       - (nofZ p * (nofZ p + none) / nofZ 2) * npowi r_over_r_max (p + 2)%Z.

(** zbl.cpp:86-96 ZBL::compute_envelope_gradient *)
Definition compute_envelope_gradient (r r_max : N) (p : Z) : N :=
  if nleb r_max r then nzero else
  let r_over_r_max := r / r_max in
  let v := (- ((nofZ p + none) * (nofZ p + nofZ 2) / nofZ 2)) * nofZ p * npowi r_over_r_max (p - 1)%Z
           + nofZ p * (nofZ p + nofZ 2) * (nofZ p + none) * npowi r_over_r_max p
           - (nofZ p * (nofZ p + none) / nofZ 2) * (nofZ p + nofZ 2) * npowi r_over_r_max (p + 1)%Z in
  v / r_max.

(** zbl.cpp:22-41 ZBL::compute *)
Definition zbl_compute (z : ZBL) (Z_u Z_v : nat) (r : N) : option N :=
  cov_rad_u <- rd (z_covalent_radii z) Z_u ;;
  cov_rad_v <- rd (z_covalent_radii z) Z_v ;;
  c0 <- rd (z_c z) 0 ;; c1 <- rd (z_c z) 1 ;; c2 <- rd (z_c z) 2 ;; c3 <- rd (z_c z) 3 ;;
  let Z_u_f := nofnat Z_u in let Z_v_f := nofnat Z_v in
  let a := z_a_prefactor z * nlit 529 1000 / (npow Z_u_f (z_a_exp z) + npow Z_v_f (z_a_exp z)) in
  let r_over_a := r / a in
  let phi := c0 * nexp (c_exps_0 * r_over_a)
           + c1 * nexp (c_exps_1 * r_over_a)
           + c2 * nexp (c_exps_2 * r_over_a)
           + c3 * nexp (c_exps_3 * r_over_a) in
  let v_edges := v_prefactor * Z_u_f * Z_v_f / r * phi in
  let r_max := cov_rad_u + cov_rad_v in
  let envelope := compute_envelope r r_max (z_p z) in
  Some (v_edges * (nlit 1 2 * envelope)).

(** zbl.cpp:43-73 ZBL::compute_gradient *)
Definition zbl_compute_gradient (z : ZBL) (Z_u Z_v : nat) (r : N) : option N :=
  cov_rad_u <- rd (z_covalent_radii z) Z_u ;;
  cov_rad_v <- rd (z_covalent_radii z) Z_v ;;
  c0 <- rd (z_c z) 0 ;; c1 <- rd (z_c z) 1 ;; c2 <- rd (z_c z) 2 ;; c3 <- rd (z_c z) 3 ;;
  let Z_u_f := nofnat Z_u in let Z_v_f := nofnat Z_v in
  let a := z_a_prefactor z * nlit 529 1000 / (npow Z_u_f (z_a_exp z) + npow Z_v_f (z_a_exp z)) in
  let r_over_a := r / a in
  let e_0 := c0 * nexp (c_exps_0 * r_over_a) in
  let e_1 := c1 * nexp (c_exps_1 * r_over_a) in
  let e_2 := c2 * nexp (c_exps_2 * r_over_a) in
  let e_3 := c3 * nexp (c_exps_3 * r_over_a) in
  let phi := e_0 + e_1 + e_2 + e_3 in
  let d_phi__d_r := c_exps_0 * e_0 + c_exps_1 * e_1 + c_exps_2 * e_2 + c_exps_3 * e_3 in
  let d_phi__d_r := d_phi__d_r / a in
  let v_edges := v_prefactor * Z_u_f * Z_v_f / r * phi in
  let d_v_edges__d_r := v_prefactor * Z_u_f * Z_v_f * (r * d_phi__d_r - phi) / (r * r) in
  let r_max := cov_rad_u + cov_rad_v in
  let envelope := compute_envelope r r_max (z_p z) in
  let d_envelope__d_r := compute_envelope_gradient r r_max (z_p z) in
  Some (nlit 1 2 * (v_edges * d_envelope__d_r + d_v_edges__d_r * envelope)).

(** zbl.cpp:98-131 ZBL::compute_ZBL; the state is (node_energies, node_forces, ij) *)
Definition compute_ZBL (z : ZBL) (num_nodes : nat) (node_types num_neigh neigh_types atomic_numbers : list nat)
    (r xyz : list N) (node_energies node_forces : list N) : option (list N * list N) :=
  '(ne, nf, _) <-
    for_ num_nodes (fun i '(ne, nf, ij) =>
      type_i <- rd node_types i ;;
      Z_i <- rd atomic_numbers type_i ;;
      nn <- rd num_neigh i ;;
      for_ nn (fun _ '(ne, nf, ij) =>
        type_j <- rd neigh_types ij ;;
        Z_j <- rd atomic_numbers type_j ;;
        rij <- rd r ij ;;
        (* energy *)
        f <- zbl_compute z Z_i Z_j rij ;;
        ne <- addto ne i f ;;
        (* forces *)
        g <- zbl_compute_gradient z Z_i Z_j rij ;;
        x <- rd xyz (3*ij)%nat ;;
        nf <- subto nf (3*ij)%nat (x / rij * g) ;;
        y <- rd xyz (3*ij+1)%nat ;;
        nf <- subto nf (3*ij+1)%nat (y / rij * g) ;;
        z <- rd xyz (3*ij+2)%nat ;;
        nf <- subto nf (3*ij+2)%nat (z / rij * g) ;;
        Some (ne, nf, (ij + 1)%nat)) (ne, nf, ij))
    (node_energies, node_forces, 0) ;;
  Some (ne, nf).

End Zbl.
Arguments ZBL : clear implicits.
Arguments mkZBL {N} _ _ _ _ _.
