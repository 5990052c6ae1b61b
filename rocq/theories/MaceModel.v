(** Model of libsymmetrix/source/mace.cpp and mace.hpp (class [MACE]).

    - Every [compute_*]/[reverse_*] member function is one Gallina function from the members it
      reads (and the arguments of the call) to the members it writes; [None] is undefined
      behaviour or an exception.
    - [num_lm], [num_LM] are (l_max+1)^2 and (L_max+1)^2 (mace.cpp:916,918).
    - The loop [for (int m=-l; m<=l; ++m)] with [lm = l*l+l+m] runs over [lm = l*l + mm],
      [mm = m+l], 0 <= mm < 2*l+1.
    - Atom types, neighbour indices and table indices are [nat] (negative [int]s are out of the model).
      [type_i*(2*atomic_numbers.size()-type_i-1)/2] is computed in size_t; if the subtraction would
      wrap around, the index is out of range and the access undefined: the guards [check (t <? 2*n)].
    - The external library sphericart is the parameter [sph] (see DESIGN.md). *)
From Coq Require Import List Arith ZArith.
From Verif Require Import Base BlasModel SplineModel ToolsModel MpModel MlpModel ZblModel.
Import ListNotations.

Section Mace.
Context {N : Num}.
Local Open Scope num_scope.

(** sphericart::SphericalHarmonics<double>(l_max).compute_with_gradients for one point:
    (l_max+1)^2 values and 3*(l_max+1)^2 derivatives, the three Cartesian directions one after the other. *)
Variable sph : nat -> N -> N -> N -> list N * list N.

(** mace.hpp:18-26, 38-39, 42, 51, 66, 70, 86-87, 101, 107, 118-122, 129, 134-135, 157-158, 164:
    members that are set by [load_from_json] and never changed by the compute functions. *)
Record mace_model := mkModel {
  m_num_channels : nat;
  m_l_max : nat;
  m_L_max : nat;
  m_atomic_numbers : list nat;
  m_atomic_energies : list N;
  m_has_zbl : bool;
  m_zbl : ZBL N;
  m_spl_set_0 : list (@spline_set N);
  m_spl_set_1 : list (@spline_set N);
  m_H0_weights : list N;
  m_A0_weights : list (list (list N));
  m_A0_scaled : bool;
  m_A0_splines : list (@cubic_spline N);
  m_H1_weights : list N;
  m_Phi1_l : list nat;
  m_Phi1_l1 : list nat;
  m_Phi1_l2 : list nat;
  m_Phi1_lme : list nat;
  m_Phi1_clebsch_gordan : list N;
  m_Phi1_lelm1lm2 : list nat;
  m_num_lme : nat;
  m_num_lelm1lm2 : nat;
  m_A1_weights : list (list N);
  m_A1_scaled : bool;
  m_A1_splines : list (@cubic_spline N);
  m_H2_weights_for_H1 : list (list N);
  m_H2_weights_for_M1 : list N;
  m_readout_1_weights : list N
}.

Definition num_lm (m : mace_model) : nat := ((m_l_max m + 1) * (m_l_max m + 1))%nat.
Definition num_LM (m : mace_model) : nat := ((m_L_max m + 1) * (m_L_max m + 1))%nat.

(** mace.cpp:66-90 compute_R0.  [num_spl = spl_set_0[0]->num_splines].  The spans [R0_ij] and
    [R0_deriv_ij] have [num_spl] elements; [evaluate_derivs] writes [css_num] of the selected set. *)
Definition compute_R0 (m : mace_model) (num_nodes : nat) (node_types num_neigh neigh_types : list nat)
    (r : list N) (R0 R0_deriv : list N) : option (list N * list N) :=
  s0 <- rd (m_spl_set_0 m) 0 ;;
  let num_spl := css_num s0 in
  let R0 := resize nzero R0 (length r * num_spl) in
  let R0_deriv := resize nzero R0_deriv (length R0) in
  let num_types := length (m_atomic_numbers m) in
  '(R0, R0_deriv, _) <-
    for_ num_nodes (fun i '(R0, R0_deriv, ij) =>
      type_i <- rd node_types i ;;
      nn <- rd num_neigh i ;;
      for_ nn (fun _ '(R0, R0_deriv, ij) =>
        type_j <- rd neigh_types ij ;;
        check ((type_i <? 2 * num_types) && (type_j <? 2 * num_types))%nat%bool ;;
        let type_ij := if (type_i <=? type_j)%nat
          then (type_i * (2 * num_types - type_i - 1) / 2 + type_j)%nat
          else (type_j * (2 * num_types - type_j - 1) / 2 + type_i)%nat in
        s <- rd (m_spl_set_0 m) type_ij ;;
        rij <- rd r ij ;;
        '(R0, R0_deriv) <- css_evaluate_derivs s rij R0 (ij * num_spl) R0_deriv (ij * num_spl) ;;
        Some (R0, R0_deriv, (ij + 1)%nat)) (R0, R0_deriv, ij))
    (R0, R0_deriv, 0%nat) ;;
  Some (R0, R0_deriv).

(** mace.cpp:92-116 compute_R1 *)
Definition compute_R1 (m : mace_model) (num_nodes : nat) (node_types num_neigh neigh_types : list nat)
    (r : list N) (R1 R1_deriv : list N) : option (list N * list N) :=
  s0 <- rd (m_spl_set_1 m) 0 ;;
  let num_spl := css_num s0 in
  let R1 := resize nzero R1 (length r * num_spl) in
  let R1_deriv := resize nzero R1_deriv (length R1) in
  let num_types := length (m_atomic_numbers m) in
  '(R1, R1_deriv, _) <-
    for_ num_nodes (fun i '(R1, R1_deriv, ij) =>
      type_i <- rd node_types i ;;
      nn <- rd num_neigh i ;;
      for_ nn (fun _ '(R1, R1_deriv, ij) =>
        type_j <- rd neigh_types ij ;;
        check ((type_i <? 2 * num_types) && (type_j <? 2 * num_types))%nat%bool ;;
        let type_ij := if (type_i <=? type_j)%nat
          then (type_i * (2 * num_types - type_i - 1) / 2 + type_j)%nat
          else (type_j * (2 * num_types - type_j - 1) / 2 + type_i)%nat in
        s <- rd (m_spl_set_1 m) type_ij ;;
        rij <- rd r ij ;;
        '(R1, R1_deriv) <- css_evaluate_derivs s rij R1 (ij * num_spl) R1_deriv (ij * num_spl) ;;
        Some (R1, R1_deriv, (ij + 1)%nat)) (R1, R1_deriv, ij))
    (R1, R1_deriv, 0%nat) ;;
  Some (R1, R1_deriv).

(** mace.cpp:118-148 compute_Y.  Writes Y, Y_grad (xyz_shuffled is a member but is overwritten before use).
    [compute_with_gradients] overwrites Y and Y_grad, which have been resized to the exact sizes. *)
Definition compute_Y (m : mace_model) (xyz : list N) (Y Y_grad xyz_shuffled : list N)
    : option (list N * list N * list N) :=
  if (length xyz =? 0)%nat then Some (Y, Y_grad, xyz_shuffled) else
  let num := (length xyz / 3)%nat in
  let num_lm := num_lm m in
  let xyz_shuffled := resize nzero xyz_shuffled (3 * num) in
  xyz_shuffled <- for_ num (fun i xs =>
      z <- rd xyz (3*i+2)%nat ;;
      xs <- wr xs (3*i)%nat z ;;
      x <- rd xyz (3*i)%nat ;;
      xs <- wr xs (3*i+1)%nat x ;;
      y <- rd xyz (3*i+1)%nat ;;
      wr xs (3*i+2)%nat y) xyz_shuffled ;;
  (* sphericart.compute_with_gradients(xyz_shuffled, Y, Y_grad) *)
  '(Y, Y_grad) <- for_ num (fun i '(Y, Y_grad) =>
      a <- rd xyz_shuffled (3*i)%nat ;;
      b <- rd xyz_shuffled (3*i+1)%nat ;;
      c <- rd xyz_shuffled (3*i+2)%nat ;;
      let '(v, g) := sph (m_l_max m) a b c in
      Some (Y ++ v, Y_grad ++ g)) ([], []) ;;
  (* normalize to match e3nn conventions *)
  Y <- for_ (length Y) (fun i Y =>
      y <- rd Y i ;; wr Y i (y * (nofZ 2 * nsqrt npi))) Y ;;
  Y_grad <- for_ (length Y_grad) (fun i Y_grad =>
      y <- rd Y_grad i ;; wr Y_grad i (y * (nofZ 2 * nsqrt npi))) Y_grad ;;
  (* unshuffle gradient *)
  let Y_grad_shuffled := Y_grad in
  Y_grad <- for_ num (fun i Y_grad =>
      for_ num_lm (fun lm Y_grad =>
        g <- rd Y_grad_shuffled (3*i*num_lm + 1*num_lm + lm)%nat ;;
        Y_grad <- wr Y_grad (3*i*num_lm + 0*num_lm + lm)%nat g ;;
        g <- rd Y_grad_shuffled (3*i*num_lm + 2*num_lm + lm)%nat ;;
        Y_grad <- wr Y_grad (3*i*num_lm + 1*num_lm + lm)%nat g ;;
        g <- rd Y_grad_shuffled (3*i*num_lm + 0*num_lm + lm)%nat ;;
        wr Y_grad (3*i*num_lm + 2*num_lm + lm)%nat g) Y_grad) Y_grad ;;
  Some (Y, Y_grad, xyz_shuffled).

(** mace.cpp:150-201 compute_A0 *)
Definition compute_A0 (m : mace_model) (num_nodes : nat) (node_types num_neigh neigh_types : list nat)
    (Y R0 : list N) (A0 : list N) : option (list N) :=
  let K := m_num_channels m in
  let num_lm := num_lm m in
  let A0 := resize nzero A0 (num_nodes * num_lm * K) in
  '(A0, _) <- for_ num_nodes (fun i '(A0, ij) =>
      nn <- rd num_neigh i ;;
      (* compute Phi0_i *)
      '(Phi0_i, ij) <- for_ nn (fun _ '(Phi0_i, ij) =>
          type_j <- rd neigh_types ij ;;
          Phi0_i <- for_ (m_l_max m + 1) (fun l Phi0_i =>
              for_ (2*l+1) (fun mm Phi0_i =>
                let lm := (l*l + mm)%nat in
                Y_ij_lm <- rd Y (ij*num_lm + lm)%nat ;;
                for_ K (fun k Phi0_i =>
                  R0_ij_l_k <- rd R0 (ij*(m_l_max m + 1)*K + l*K + k)%nat ;;
                  H0_ij_k <- rd (m_H0_weights m) (type_j*K + k)%nat ;;
                  addto Phi0_i (lm*K + k)%nat (R0_ij_l_k * Y_ij_lm * H0_ij_k)) Phi0_i) Phi0_i) Phi0_i ;;
          Some (Phi0_i, (ij + 1)%nat)) (repeat nzero (num_lm * K)%nat, ij) ;;
      (* [A0_il]_mk = \sum_k' [Phi0_il]_mk' [W_il]_k'k *)
      type_i <- rd node_types i ;;
      A0 <- for_ (m_l_max m + 1) (fun l A0 =>
          w <- rd (m_A0_weights m) type_i ;;
          w <- rd w l ;;
          dgemm_nn (2*l+1) K K Phi0_i (l*l*K)%nat K w 0 K A0 ((i*num_lm + l*l)*K)%nat K) A0 ;;
      Some (A0, ij))
    (A0, 0%nat) ;;
  Some A0.

(** mace.cpp:203-271 reverse_A0 *)
Definition reverse_A0 (m : mace_model) (num_nodes : nat) (node_types num_neigh neigh_types : list nat)
    (xyz r : list N) (Y Y_grad R0 R0_deriv A0_adj : list N) (node_forces : list N) : option (list N) :=
  let K := m_num_channels m in
  let num_lm := num_lm m in
  '(node_forces, _) <- for_ num_nodes (fun i '(node_forces, ij) =>
      type_i <- rd node_types i ;;
      nn <- rd num_neigh i ;;
      (* [dE/dPhi0_il]_mk = \sum_k' [dE/dA0_il]_mk' [trans(W_il)]_k'k *)
      Phi0_adj_i <- for_ (m_l_max m + 1) (fun l Phi0_adj_i =>
          w <- rd (m_A0_weights m) type_i ;;
          w <- rd w l ;;
          dgemm_nt (2*l+1) K K A0_adj ((i*num_lm + l*l)*K)%nat K w 0 K Phi0_adj_i (l*l*K)%nat K)
        (repeat nzero (num_lm * K)%nat) ;;
      for_ nn (fun _ '(node_forces, ij) =>
        r_ij <- rd r ij ;;
        type_j <- rd neigh_types ij ;;
        node_forces <- for_ (m_l_max m + 1) (fun l node_forces =>
            for_ (2*l+1) (fun mm node_forces =>
              let lm := (l*l + mm)%nat in
              Y_ij_lm <- rd Y (ij*num_lm + lm)%nat ;;
              Y_grad_ij_lm_x <- rd Y_grad (ij*3*num_lm + lm)%nat ;;
              Y_grad_ij_lm_y <- rd Y_grad (ij*3*num_lm + (num_lm + lm))%nat ;;
              Y_grad_ij_lm_z <- rd Y_grad (ij*3*num_lm + (2*num_lm + lm))%nat ;;
              for_ K (fun k node_forces =>
                Phi0_adj_k <- rd Phi0_adj_i (lm*K + k)%nat ;;
                R0_k <- rd R0 (ij*(m_l_max m + 1)*K + l*K + k)%nat ;;
                R0_deriv_k <- rd R0_deriv (ij*(m_l_max m + 1)*K + l*K + k)%nat ;;
                H0_k <- rd (m_H0_weights m) (type_j*K + k)%nat ;;
                x <- rd xyz (ij*3)%nat ;;
                node_forces <- addto node_forces (ij*3)%nat
                  (- Phi0_adj_k * (x/r_ij * R0_deriv_k * Y_ij_lm * H0_k + R0_k * Y_grad_ij_lm_x * H0_k)) ;;
                y <- rd xyz (ij*3+1)%nat ;;
                node_forces <- addto node_forces (ij*3+1)%nat
                  (- Phi0_adj_k * (y/r_ij * R0_deriv_k * Y_ij_lm * H0_k + R0_k * Y_grad_ij_lm_y * H0_k)) ;;
                z <- rd xyz (ij*3+2)%nat ;;
                addto node_forces (ij*3+2)%nat
                  (- Phi0_adj_k * (z/r_ij * R0_deriv_k * Y_ij_lm * H0_k + R0_k * Y_grad_ij_lm_z * H0_k)))
                node_forces) node_forces) node_forces ;;
        Some (node_forces, (ij + 1)%nat)) (node_forces, ij))
    (node_forces, 0%nat) ;;
  Some node_forces.

(** mace.cpp:273-297 compute_A0_scaled *)
Definition compute_A0_scaled (m : mace_model) (num_nodes : nat) (node_types num_neigh neigh_types : list nat)
    (r : list N) (A0 : list N) : option (list N) :=
  if negb (m_A0_scaled m) then Some A0 else
  let K := m_num_channels m in
  let num_lm := num_lm m in
  let num_types := length (m_atomic_numbers m) in
  '(A0, _) <- for_ num_nodes (fun i '(A0, ij) =>
      type_i <- rd node_types i ;;
      nn <- rd num_neigh i ;;
      '(A0_scale_factor, ij) <- for_ nn (fun _ '(A0_scale_factor, ij) =>
          type_j <- rd neigh_types ij ;;
          check ((type_i <? 2 * num_types) && (type_j <? 2 * num_types))%nat%bool ;;
          let type_ij := if (type_i <=? type_j)%nat
            then (type_i * (2 * num_types - type_i - 1) / 2 + type_j)%nat
            else (type_j * (2 * num_types - type_j - 1) / 2 + type_i)%nat in
          s <- rd (m_A0_splines m) type_ij ;;
          rij <- rd r ij ;;
          f <- to_option (cs_evaluate s rij) ;;
          Some (A0_scale_factor + f, (ij + 1)%nat)) (none, ij) ;;
      A0 <- for_ (num_lm * K) (fun lmk A0 =>
          a <- rd A0 (i*num_lm*K + lmk)%nat ;;
          wr A0 (i*num_lm*K + lmk)%nat (a / A0_scale_factor)) A0 ;;
      Some (A0, ij))
    (A0, 0%nat) ;;
  Some A0.

(** mace.cpp:299-346 reverse_A0_scaled; writes node_forces and A0_adj *)
Definition reverse_A0_scaled (m : mace_model) (num_nodes : nat) (node_types num_neigh neigh_types : list nat)
    (xyz r : list N) (A0 : list N) (node_forces A0_adj : list N) : option (list N * list N) :=
  if negb (m_A0_scaled m) then Some (node_forces, A0_adj) else
  let K := m_num_channels m in
  let num_lm := num_lm m in
  let num_types := length (m_atomic_numbers m) in
  '(node_forces, A0_adj, _) <- for_ num_nodes (fun i '(node_forces, A0_adj, ij) =>
      type_i <- rd node_types i ;;
      nn <- rd num_neigh i ;;
      (* recompute the scale factor *)
      '(A0_scale_factor, ij) <- for_ nn (fun _ '(A0_scale_factor, ij) =>
          type_j <- rd neigh_types ij ;;
          check ((type_i <? 2 * num_types) && (type_j <? 2 * num_types))%nat%bool ;;
          let type_ij := if (type_i <=? type_j)%nat
            then (type_i * (2 * num_types - type_i - 1) / 2 + type_j)%nat
            else (type_j * (2 * num_types - type_j - 1) / 2 + type_i)%nat in
          s <- rd (m_A0_splines m) type_ij ;;
          rij <- rd r ij ;;
          f <- to_option (cs_evaluate s rij) ;;
          Some (A0_scale_factor + f, (ij + 1)%nat)) (none, ij) ;;
      (* update dE/dxyz *)
      dA0_dot_A0 <- for_ (num_lm * K) (fun lmk s =>
          d <- rd A0_adj (i*num_lm*K + lmk)%nat ;;
          a <- rd A0 (i*num_lm*K + lmk)%nat ;;
          Some (s + d * a)) nzero ;;
      let ij := (ij - nn)%nat in
      '(node_forces, ij) <- for_ nn (fun _ '(node_forces, ij) =>
          type_j <- rd neigh_types ij ;;
          check ((type_i <? 2 * num_types) && (type_j <? 2 * num_types))%nat%bool ;;
          let type_ij := if (type_i <=? type_j)%nat
            then (type_i * (2 * num_types - type_i - 1) / 2 + type_j)%nat
            else (type_j * (2 * num_types - type_j - 1) / 2 + type_i)%nat in
          s <- rd (m_A0_splines m) type_ij ;;
          rij <- rd r ij ;;
          '(_, d) <- to_option (cs_evaluate_deriv s rij) ;;
          x <- rd xyz (ij*3)%nat ;;
          node_forces <- addto node_forces (ij*3)%nat (dA0_dot_A0 / A0_scale_factor * d * x / rij) ;;
          y <- rd xyz (ij*3+1)%nat ;;
          node_forces <- addto node_forces (ij*3+1)%nat (dA0_dot_A0 / A0_scale_factor * d * y / rij) ;;
          z <- rd xyz (ij*3+2)%nat ;;
          node_forces <- addto node_forces (ij*3+2)%nat (dA0_dot_A0 / A0_scale_factor * d * z / rij) ;;
          Some (node_forces, (ij + 1)%nat)) (node_forces, ij) ;;
      (* update dE/dA0 *)
      A0_adj <- for_ (num_lm * K) (fun lmk A0_adj =>
          a <- rd A0_adj (i*num_lm*K + lmk)%nat ;;
          wr A0_adj (i*num_lm*K + lmk)%nat (a / A0_scale_factor)) A0_adj ;;
      Some (node_forces, A0_adj, ij))
    (node_forces, A0_adj, 0%nat) ;;
  Some (node_forces, A0_adj).

(** mace.cpp:348-370 compute_M0.  The polynomial objects keep their scratch buffers, so P0 is written too. *)
Definition compute_M0 (m : mace_model) (num_nodes : nat) (node_types : list nat)
    (A0 : list N) (P0 : list (@mpoly N)) (M0 M0_grad : list N)
    : option (list (@mpoly N) * list N * list N) :=
  let K := m_num_channels m in
  let num_lm := num_lm m in
  let num_LM := num_LM m in
  let M0 := resize nzero M0 (num_nodes * num_LM * K) in
  let M0_grad := resize nzero M0_grad (num_nodes * K * num_LM * num_lm) in
  for_ num_nodes (fun i '(P0, M0, M0_grad) =>
      '(P0, M0, M0_grad, _, _) <- for_ num_LM (fun lm '(P0, M0, M0_grad, x, lmk) =>
          for_ K (fun k '(P0, M0, M0_grad, x, lmk) =>
            x <- dcopy num_lm A0 (i*num_lm*K + k) K x 0 1 ;;
            type_i <- rd node_types i ;;
            p <- rd P0 (type_i*num_LM*K + lmk)%nat ;;
            '(p, (f, g)) <- mp_evaluate_gradient p x ;;
            P0 <- wr P0 (type_i*num_LM*K + lmk)%nat p ;;
            M0 <- wr M0 (i*num_LM*K + lmk)%nat f ;;
            M0_grad <- dcopy num_lm g 0 1 M0_grad (i*num_LM*K*num_lm + (lm*num_lm*K + k)) K ;;
            Some (P0, M0, M0_grad, x, (lmk + 1)%nat)) (P0, M0, M0_grad, x, lmk))
        (P0, M0, M0_grad, repeat nzero num_lm, 0%nat) ;;
      Some (P0, M0, M0_grad)) (P0, M0, M0_grad).

(** mace.cpp:372-395 reverse_M0 *)
Definition reverse_M0 (m : mace_model) (num_nodes : nat) (A0 M0_adj M0_grad : list N) (A0_adj : list N)
    : option (list N) :=
  let K := m_num_channels m in
  let num_lm := num_lm m in
  let num_LM := num_LM m in
  let A0_adj := resize nzero A0_adj (length A0) in
  let A0_adj := fill nzero A0_adj in
  for_ num_nodes (fun i A0_adj =>
      for_ num_lm (fun lm A0_adj =>
        for_ num_LM (fun lmp A0_adj =>
          for_ K (fun k A0_adj =>
            g <- rd M0_grad (i*num_LM*num_lm*K + (lmp*num_lm*K + lm*K) + k)%nat ;;
            a <- rd M0_adj (i*num_LM*K + lmp*K + k)%nat ;;
            addto A0_adj (i*num_lm*K + lm*K + k)%nat (g * a)) A0_adj) A0_adj) A0_adj) A0_adj.

(** mace.cpp:397-423 compute_H1 *)
Definition compute_H1 (m : mace_model) (num_nodes : nat) (M0 : list N) (H1 : list N) : option (list N) :=
  let K := m_num_channels m in
  let num_LM := num_LM m in
  let H1 := resize nzero H1 (length M0) in
  for_ num_nodes (fun i H1 =>
      for_ (m_L_max m + 1) (fun l H1 =>
        dgemm_nn (2*l+1) K K M0 ((i*num_LM + l*l)*K)%nat K (m_H1_weights m) (l*K*K)%nat K
          H1 ((i*num_LM + l*l)*K)%nat K) H1) H1.

(** mace.cpp:425-451 reverse_H1 *)
Definition reverse_H1 (m : mace_model) (num_nodes : nat) (M0 H1_adj : list N) (M0_adj : list N) : option (list N) :=
  let K := m_num_channels m in
  let num_LM := num_LM m in
  let M0_adj := resize nzero M0_adj (length M0) in
  for_ num_nodes (fun i M0_adj =>
      for_ (m_L_max m + 1) (fun l M0_adj =>
        dgemm_nt (2*l+1) K K H1_adj ((i*num_LM + l*l)*K)%nat K (m_H1_weights m) (l*K*K)%nat K
          M0_adj ((i*num_LM + l*l)*K)%nat K) M0_adj) M0_adj.

(** mace.cpp:453-502 compute_Phi1; writes Phi1r and Phi1 *)
Definition compute_Phi1 (m : mace_model) (num_nodes : nat) (num_neigh neigh_indices : list nat)
    (Y R1 H1 : list N) (Phi1r Phi1 : list N) : option (list N * list N) :=
  let K := m_num_channels m in
  let num_lm := num_lm m in
  let num_LM := num_LM m in
  s0 <- rd (m_spl_set_1 m) 0 ;;
  let num_spl := css_num s0 in
  (* Compute Phi1_lelm1lm2 (named Phi1r) *)
  let Phi1r := fill nzero (resize nzero Phi1r (num_nodes * m_num_lelm1lm2 m * K)) in
  '(Phi1r, _) <- for_ num_nodes (fun i '(Phi1r, ij) =>
      nn <- rd num_neigh i ;;
      for_ nn (fun _ '(Phi1r, ij) =>
        idx <- rd neigh_indices ij ;;
        '(Phi1r, _) <- for_ (length (m_Phi1_l m)) (fun lel1l2 '(Phi1r, lelm1lm2) =>
            l1 <- rd (m_Phi1_l1 m) lel1l2 ;;
            l2 <- rd (m_Phi1_l2 m) lel1l2 ;;
            for_range (l1*l1) (l1*(l1+2)+1) (fun lm1 '(Phi1r, lelm1lm2) =>
              Y_ij_lm1 <- rd Y (ij*num_lm + lm1)%nat ;;
              for_range (l2*l2) (l2*(l2+2)+1) (fun lm2 '(Phi1r, lelm1lm2) =>
                Phi1r <- for_ K (fun k Phi1r =>
                    R1_k <- rd R1 (ij*num_spl + lel1l2*K + k)%nat ;;
                    H1_k <- rd H1 (idx*num_LM*K + lm2*K + k)%nat ;;
                    addto Phi1r (i*m_num_lelm1lm2 m*K + lelm1lm2*K + k)%nat (R1_k * Y_ij_lm1 * H1_k)) Phi1r ;;
                Some (Phi1r, (lelm1lm2 + 1)%nat)) (Phi1r, lelm1lm2)) (Phi1r, lelm1lm2))
          (Phi1r, 0%nat) ;;
        Some (Phi1r, (ij + 1)%nat)) (Phi1r, ij))
    (Phi1r, 0%nat) ;;
  (* Compute Phi1 using CG coefficients *)
  let Phi1 := fill nzero (resize nzero Phi1 (num_nodes * m_num_lme m * K)) in
  Phi1 <- for_ num_nodes (fun i Phi1 =>
      for_ (length (m_Phi1_clebsch_gordan m)) (fun p Phi1 =>
        lme <- rd (m_Phi1_lme m) p ;;
        C <- rd (m_Phi1_clebsch_gordan m) p ;;
        lelm1lm2 <- rd (m_Phi1_lelm1lm2 m) p ;;
        for_ K (fun k Phi1 =>
          v <- rd Phi1r (i*m_num_lelm1lm2 m*K + lelm1lm2*K + k)%nat ;;
          addto Phi1 (i*m_num_lme m*K + lme*K + k)%nat (C * v)) Phi1) Phi1) Phi1 ;;
  Some (Phi1r, Phi1).

(** mace.cpp:504-605 reverse_Phi1; writes dPhi1r, node_forces and H1_adj *)
Definition reverse_Phi1 (m : mace_model) (num_nodes : nat) (num_neigh neigh_indices : list nat)
    (xyz r : list N) (zero_dxyz zero_H1_adj : bool)
    (Y Y_grad R1 R1_deriv H1 Phi1r dPhi1 : list N) (dPhi1r node_forces H1_adj : list N)
    : option (list N * list N * list N) :=
  let K := m_num_channels m in
  let num_lm := num_lm m in
  let num_LM := num_LM m in
  s0 <- rd (m_spl_set_1 m) 0 ;;
  let num_spl := css_num s0 in
  (* Compute dE/dPhi1 (named dPhi1) *)
  let dPhi1r := fill nzero (resize nzero dPhi1r (length Phi1r)) in
  dPhi1r <- for_ num_nodes (fun i dPhi1r =>
      for_ (length (m_Phi1_clebsch_gordan m)) (fun p dPhi1r =>
        lelm1lm2 <- rd (m_Phi1_lelm1lm2 m) p ;;
        C <- rd (m_Phi1_clebsch_gordan m) p ;;
        lme <- rd (m_Phi1_lme m) p ;;
        for_ K (fun k dPhi1r =>
          v <- rd dPhi1 (i*m_num_lme m*K + lme*K + k)%nat ;;
          addto dPhi1r (i*m_num_lelm1lm2 m*K + lelm1lm2*K + k)%nat (C * v)) dPhi1r) dPhi1r) dPhi1r ;;
  (* Compute partial forces *)
  let node_forces := resize nzero node_forces (length xyz) in
  let node_forces := if zero_dxyz then fill nzero node_forces else node_forces in
  '(node_forces, _) <- for_ num_nodes (fun i '(node_forces, ij) =>
      nn <- rd num_neigh i ;;
      for_ nn (fun _ '(node_forces, ij) =>
        r_ij <- rd r ij ;;
        idx <- rd neigh_indices ij ;;
        '(node_forces, _) <- for_ (length (m_Phi1_l m)) (fun lel1l2 '(node_forces, lelm1lm2) =>
            l1 <- rd (m_Phi1_l1 m) lel1l2 ;;
            l2 <- rd (m_Phi1_l2 m) lel1l2 ;;
            for_range (l1*l1) (l1*(l1+2)+1) (fun lm1 '(node_forces, lelm1lm2) =>
              Y_ij_lm1 <- rd Y (ij*num_lm + lm1)%nat ;;
              Y_grad_ij_x_lm1 <- rd Y_grad (ij*3*num_lm + (0*num_lm + lm1))%nat ;;
              Y_grad_ij_y_lm1 <- rd Y_grad (ij*3*num_lm + (1*num_lm + lm1))%nat ;;
              Y_grad_ij_z_lm1 <- rd Y_grad (ij*3*num_lm + (2*num_lm + lm1))%nat ;;
              for_range (l2*l2) (l2*(l2+2)+1) (fun lm2 '(node_forces, lelm1lm2) =>
                node_forces <- for_ K (fun k node_forces =>
                    dPhi1r_k <- rd dPhi1r (i*m_num_lelm1lm2 m*K + lelm1lm2*K + k)%nat ;;
                    R1_k <- rd R1 (ij*num_spl + lel1l2*K + k)%nat ;;
                    R1_deriv_k <- rd R1_deriv (ij*num_spl + lel1l2*K + k)%nat ;;
                    H1_k <- rd H1 (idx*num_LM*K + lm2*K + k)%nat ;;
                    x <- rd xyz (3*ij)%nat ;;
                    node_forces <- addto node_forces (3*ij)%nat
                      (- dPhi1r_k * (x/r_ij * R1_deriv_k * Y_ij_lm1 * H1_k + R1_k * Y_grad_ij_x_lm1 * H1_k)) ;;
                    y <- rd xyz (3*ij+1)%nat ;;
                    node_forces <- addto node_forces (3*ij+1)%nat
                      (- dPhi1r_k * (y/r_ij * R1_deriv_k * Y_ij_lm1 * H1_k + R1_k * Y_grad_ij_y_lm1 * H1_k)) ;;
                    z <- rd xyz (3*ij+2)%nat ;;
                    addto node_forces (3*ij+2)%nat
                      (- dPhi1r_k * (z/r_ij * R1_deriv_k * Y_ij_lm1 * H1_k + R1_k * Y_grad_ij_z_lm1 * H1_k)))
                    node_forces ;;
                Some (node_forces, (lelm1lm2 + 1)%nat)) (node_forces, lelm1lm2)) (node_forces, lelm1lm2))
          (node_forces, 0%nat) ;;
        Some (node_forces, (ij + 1)%nat)) (node_forces, ij))
    (node_forces, 0%nat) ;;
  (* Compute dE/dH1 (named dH1) *)
  let H1_adj := resize nzero H1_adj (length H1) in
  let H1_adj := if zero_H1_adj then fill nzero H1_adj else H1_adj in
  '(H1_adj, _) <- for_ num_nodes (fun i '(H1_adj, ij) =>
      nn <- rd num_neigh i ;;
      for_ nn (fun _ '(H1_adj, ij) =>
        idx <- rd neigh_indices ij ;;
        '(H1_adj, _) <- for_ (length (m_Phi1_l m)) (fun lel1l2 '(H1_adj, lelm1lm2) =>
            l1 <- rd (m_Phi1_l1 m) lel1l2 ;;
            l2 <- rd (m_Phi1_l2 m) lel1l2 ;;
            for_range (l1*l1) (l1*(l1+2)+1) (fun lm1 '(H1_adj, lelm1lm2) =>
              for_range (l2*l2) (l2*(l2+2)+1) (fun lm2 '(H1_adj, lelm1lm2) =>
                H1_adj <- for_ K (fun k H1_adj =>
                    R1_k <- rd R1 (ij*num_spl + lel1l2*K + k)%nat ;;
                    Y_lm1 <- rd Y (ij*num_lm + lm1)%nat ;;
                    dPhi1r_k <- rd dPhi1r (i*m_num_lelm1lm2 m*K + lelm1lm2*K + k)%nat ;;
                    addto H1_adj (idx*num_LM*K + lm2*K + k)%nat (R1_k * Y_lm1 * dPhi1r_k)) H1_adj ;;
                Some (H1_adj, (lelm1lm2 + 1)%nat)) (H1_adj, lelm1lm2)) (H1_adj, lelm1lm2))
          (H1_adj, 0%nat) ;;
        Some (H1_adj, (ij + 1)%nat)) (H1_adj, ij))
    (H1_adj, 0%nat) ;;
  Some (dPhi1r, node_forces, H1_adj).

(** mace.cpp:607-642 compute_A1.  [num_lme] is recomputed locally; the running pointers [Phi1_il], [A1_il]
    are the offsets [po], [ao]. *)
Definition compute_A1 (m : mace_model) (num_nodes : nat) (Phi1 : list N) (A1 : list N) : option (list N) :=
  let K := m_num_channels m in
  let num_lm := num_lm m in
  let A1 := resize nzero A1 (num_nodes * num_lm * K) in
  '(num_lme, num_e) <- for_ (length (m_Phi1_l m)) (fun q '(num_lme, num_e) =>
      l <- rd (m_Phi1_l m) q ;;
      e <- rd num_e l ;;
      num_e <- wr num_e l (e + 1)%nat ;;
      Some ((num_lme + (2*l+1))%nat, num_e)) (0%nat, repeat 0%nat (m_l_max m + 1)) ;;
  for_ num_nodes (fun i A1 =>
      '(A1, _, _) <- for_ (m_l_max m + 1) (fun l '(A1, po, ao) =>
          w <- rd (m_A1_weights m) l ;;
          e <- rd num_e l ;;
          A1 <- dgemm_nn (2*l+1) K (e*K) Phi1 po (e*K) w 0 K A1 ao K ;;
          Some (A1, (po + (2*l+1)*e*K)%nat, (ao + (2*l+1)*K)%nat))
        (A1, (i*num_lme*K)%nat, (i*num_lm*K)%nat) ;;
      Some A1) A1.

(** mace.cpp:644-679 reverse_A1 *)
Definition reverse_A1 (m : mace_model) (num_nodes : nat) (Phi1 A1_adj : list N) (dPhi1 : list N) : option (list N) :=
  let K := m_num_channels m in
  let num_lm := num_lm m in
  let dPhi1 := resize nzero dPhi1 (length Phi1) in
  '(num_lme, num_e) <- for_ (length (m_Phi1_l m)) (fun q '(num_lme, num_e) =>
      l <- rd (m_Phi1_l m) q ;;
      e <- rd num_e l ;;
      num_e <- wr num_e l (e + 1)%nat ;;
      Some ((num_lme + (2*l+1))%nat, num_e)) (0%nat, repeat 0%nat (m_l_max m + 1)) ;;
  for_ num_nodes (fun i dPhi1 =>
      '(dPhi1, _, _) <- for_ (m_l_max m + 1) (fun l '(dPhi1, ao, po) =>
          w <- rd (m_A1_weights m) l ;;
          e <- rd num_e l ;;
          dPhi1 <- dgemm_nt (2*l+1) (e*K) K A1_adj ao K w 0 K dPhi1 po (e*K) ;;
          Some (dPhi1, (ao + (2*l+1)*K)%nat, (po + (2*l+1)*e*K)%nat))
        (dPhi1, (i*num_lm*K)%nat, (i*num_lme*K)%nat) ;;
      Some dPhi1) dPhi1.

(** mace.cpp:681-705 compute_A1_scaled *)
Definition compute_A1_scaled (m : mace_model) (num_nodes : nat) (node_types num_neigh neigh_types : list nat)
    (r : list N) (A1 : list N) : option (list N) :=
  if negb (m_A1_scaled m) then Some A1 else
  let K := m_num_channels m in
  let num_lm := num_lm m in
  let num_types := length (m_atomic_numbers m) in
  '(A1, _) <- for_ num_nodes (fun i '(A1, ij) =>
      type_i <- rd node_types i ;;
      nn <- rd num_neigh i ;;
      '(A1_scale_factor, ij) <- for_ nn (fun _ '(A1_scale_factor, ij) =>
          type_j <- rd neigh_types ij ;;
          check ((type_i <? 2 * num_types) && (type_j <? 2 * num_types))%nat%bool ;;
          let type_ij := if (type_i <=? type_j)%nat
            then (type_i * (2 * num_types - type_i - 1) / 2 + type_j)%nat
            else (type_j * (2 * num_types - type_j - 1) / 2 + type_i)%nat in
          s <- rd (m_A1_splines m) type_ij ;;
          rij <- rd r ij ;;
          f <- to_option (cs_evaluate s rij) ;;
          Some (A1_scale_factor + f, (ij + 1)%nat)) (none, ij) ;;
      A1 <- for_ (num_lm * K) (fun lmk A1 =>
          a <- rd A1 (i*num_lm*K + lmk)%nat ;;
          wr A1 (i*num_lm*K + lmk)%nat (a / A1_scale_factor)) A1 ;;
      Some (A1, ij))
    (A1, 0%nat) ;;
  Some A1.

(** mace.cpp:707-757 reverse_A1_scaled; writes node_forces and A1_adj *)
Definition reverse_A1_scaled (m : mace_model) (num_nodes : nat) (node_types num_neigh neigh_types : list nat)
    (xyz r : list N) (zero_dxyz : bool) (A1 : list N) (node_forces A1_adj : list N) : option (list N * list N) :=
  if negb (m_A1_scaled m) then Some (node_forces, A1_adj) else
  let K := m_num_channels m in
  let num_lm := num_lm m in
  let num_types := length (m_atomic_numbers m) in
  let node_forces := resize nzero node_forces (length xyz) in
  let node_forces := if zero_dxyz then fill nzero node_forces else node_forces in
  '(node_forces, A1_adj, _) <- for_ num_nodes (fun i '(node_forces, A1_adj, ij) =>
      type_i <- rd node_types i ;;
      nn <- rd num_neigh i ;;
      (* recompute the scale factor *)
      '(A1_scale_factor, ij) <- for_ nn (fun _ '(A1_scale_factor, ij) =>
          type_j <- rd neigh_types ij ;;
          check ((type_i <? 2 * num_types) && (type_j <? 2 * num_types))%nat%bool ;;
          let type_ij := if (type_i <=? type_j)%nat
            then (type_i * (2 * num_types - type_i - 1) / 2 + type_j)%nat
            else (type_j * (2 * num_types - type_j - 1) / 2 + type_i)%nat in
          s <- rd (m_A1_splines m) type_ij ;;
          rij <- rd r ij ;;
          f <- to_option (cs_evaluate s rij) ;;
          Some (A1_scale_factor + f, (ij + 1)%nat)) (none, ij) ;;
      (* update dE/dxyz *)
      dA1_dot_A1 <- for_ (num_lm * K) (fun lmk s =>
          d <- rd A1_adj (i*num_lm*K + lmk)%nat ;;
          a <- rd A1 (i*num_lm*K + lmk)%nat ;;
          Some (s + d * a)) nzero ;;
      let ij := (ij - nn)%nat in
      '(node_forces, ij) <- for_ nn (fun _ '(node_forces, ij) =>
          type_j <- rd neigh_types ij ;;
          check ((type_i <? 2 * num_types) && (type_j <? 2 * num_types))%nat%bool ;;
          let type_ij := if (type_i <=? type_j)%nat
            then (type_i * (2 * num_types - type_i - 1) / 2 + type_j)%nat
            else (type_j * (2 * num_types - type_j - 1) / 2 + type_i)%nat in
          s <- rd (m_A1_splines m) type_ij ;;
          rij <- rd r ij ;;
          '(_, d) <- to_option (cs_evaluate_deriv s rij) ;;
          x <- rd xyz (ij*3)%nat ;;
          node_forces <- addto node_forces (ij*3)%nat (dA1_dot_A1 / A1_scale_factor * d * x / rij) ;;
          y <- rd xyz (ij*3+1)%nat ;;
          node_forces <- addto node_forces (ij*3+1)%nat (dA1_dot_A1 / A1_scale_factor * d * y / rij) ;;
          z <- rd xyz (ij*3+2)%nat ;;
          node_forces <- addto node_forces (ij*3+2)%nat (dA1_dot_A1 / A1_scale_factor * d * z / rij) ;;
          Some (node_forces, (ij + 1)%nat)) (node_forces, ij) ;;
      (* update dE/dA1 *)
      A1_adj <- for_ (num_lm * K) (fun lmk A1_adj =>
          a <- rd A1_adj (i*num_lm*K + lmk)%nat ;;
          wr A1_adj (i*num_lm*K + lmk)%nat (a / A1_scale_factor)) A1_adj ;;
      Some (node_forces, A1_adj, ij))
    (node_forces, A1_adj, 0%nat) ;;
  Some (node_forces, A1_adj).

(** mace.cpp:759-777 compute_M1.  M1_grad is resized to num_channels times more than is used. *)
Definition compute_M1 (m : mace_model) (num_nodes : nat) (node_types : list nat)
    (A1 : list N) (P1 : list (@mpoly N)) (M1 M1_grad : list N)
    : option (list (@mpoly N) * list N * list N) :=
  let K := m_num_channels m in
  let num_lm := num_lm m in
  let M1 := resize nzero M1 (num_nodes * K) in
  let M1_grad := resize nzero M1_grad (num_nodes * K * num_lm * K) in
  for_ num_nodes (fun i '(P1, M1, M1_grad) =>
      '(P1, M1, M1_grad, _) <- for_ K (fun k '(P1, M1, M1_grad, x) =>
            x <- dcopy num_lm A1 (i*num_lm*K + k) K x 0 1 ;;
            type_i <- rd node_types i ;;
            p <- rd P1 (type_i*K + k)%nat ;;
            '(p, (f, g)) <- mp_evaluate_gradient p x ;;
            P1 <- wr P1 (type_i*K + k)%nat p ;;
            M1 <- wr M1 (i*K + k)%nat f ;;
            M1_grad <- dcopy num_lm g 0 1 M1_grad (i*K*num_lm + k) K ;;
            Some (P1, M1, M1_grad, x))
        (P1, M1, M1_grad, repeat nzero num_lm) ;;
      Some (P1, M1, M1_grad)) (P1, M1, M1_grad).

(** mace.cpp:779-794 reverse_M1 *)
Definition reverse_M1 (m : mace_model) (num_nodes : nat) (A1 M1_adj M1_grad : list N) (A1_adj : list N)
    : option (list N) :=
  let K := m_num_channels m in
  let num_lm := num_lm m in
  let A1_adj := resize nzero A1_adj (length A1) in
  for_ num_nodes (fun i A1_adj =>
      for_ num_lm (fun lm A1_adj =>
        for_ K (fun k A1_adj =>
          g <- rd M1_grad ((i*num_lm + lm)*K + k)%nat ;;
          a <- rd M1_adj (i*K + k)%nat ;;
          wr A1_adj ((i*num_lm + lm)*K + k)%nat (g * a)) A1_adj) A1_adj) A1_adj.

(** mace.cpp:796-832 compute_H2 *)
Definition compute_H2 (m : mace_model) (num_nodes : nat) (node_types : list nat) (H1 M1 : list N) (H2 : list N)
    : option (list N) :=
  let K := m_num_channels m in
  let num_LM := num_LM m in
  let H2 := resize nzero H2 (num_nodes * K) in
  for_ num_nodes (fun i H2 =>
      type_i <- rd node_types i ;;
      w <- rd (m_H2_weights_for_H1 m) type_i ;;
      H2 <- dgemv_t false K K w K H1 (i*num_LM*K) H2 (i*K) ;;
      dgemv_t true K K (m_H2_weights_for_M1 m) K M1 (i*K) H2 (i*K)) H2.

(** mace.cpp:834-874 reverse_H2; writes H1_adj and M1_adj *)
Definition reverse_H2 (m : mace_model) (num_nodes : nat) (node_types : list nat) (zero_H1_adj : bool)
    (H1 M1 H2_adj : list N) (H1_adj M1_adj : list N) : option (list N * list N) :=
  let K := m_num_channels m in
  let num_LM := num_LM m in
  let H1_adj := resize nzero H1_adj (length H1) in
  let M1_adj := resize nzero M1_adj (length M1) in
  let H1_adj := if zero_H1_adj then fill nzero H1_adj else H1_adj in
  for_ num_nodes (fun i '(H1_adj, M1_adj) =>
      type_i <- rd node_types i ;;
      w <- rd (m_H2_weights_for_H1 m) type_i ;;
      H1_adj <- dgemv_n true K K w K H2_adj (i*K) H1_adj (i*num_LM*K) ;;
      M1_adj <- dgemv_n false K K (m_H2_weights_for_M1 m) K H2_adj (i*K) M1_adj (i*K) ;;
      Some (H1_adj, M1_adj)) (H1_adj, M1_adj).

(** mace.cpp:876-903 compute_readouts; writes node_energies, H1_adj, H2_adj (and readout_2's buffers) *)
Definition compute_readouts (m : mace_model) (num_nodes : nat) (node_types : list nat)
    (H1 H2 : list N) (readout_2 : @mlp N) (node_energies H1_adj H2_adj : list N)
    : option (@mlp N * list N * list N * list N) :=
  let K := m_num_channels m in
  let num_LM := num_LM m in
  let node_energies := resize nzero node_energies num_nodes in
  let H1_adj := resize nzero H1_adj (length H1) in
  let H1_adj := fill nzero H1_adj in
  let H2_adj := resize nzero H2_adj (length H2) in
  for_ num_nodes (fun i '(readout_2, node_energies, H1_adj, H2_adj) =>
      (* atomic energies *)
      type_i <- rd node_types i ;;
      e <- rd (m_atomic_energies m) type_i ;;
      node_energies <- addto node_energies i e ;;
      (* first readout *)
      '(node_energies, H1_adj) <- for_ K (fun k '(node_energies, H1_adj) =>
          w <- rd (m_readout_1_weights m) k ;;
          h <- rd H1 (i*num_LM*K + k)%nat ;;
          node_energies <- addto node_energies i (w * h) ;;
          H1_adj <- wr H1_adj (i*num_LM*K + k)%nat w ;;
          Some (node_energies, H1_adj)) (node_energies, H1_adj) ;;
      (* second readout *)
      check ((i+1)*K <=? length H2)%nat ;;
      let x := firstn K (skipn (i*K) H2) in
      '(readout_2, (f, g)) <- mlp_evaluate_gradient readout_2 x ;;
      f0 <- rd f 0 ;;
      node_energies <- addto node_energies i f0 ;;
      H2_adj <- for_ K (fun k H2_adj => gk <- rd g k ;; wr H2_adj (i*K + k)%nat gk) H2_adj ;;
      Some (readout_2, node_energies, H1_adj, H2_adj)) (readout_2, node_energies, H1_adj, H2_adj).

(** mace.hpp:29, 43, 52, 61-62, 69, 95-96, 105, 116-117, 128, 147-148, 156, 165: members overwritten by the
    compute functions (including the objects with internal scratch buffers). *)
Record mace_bufs := mkBufs {
  b_node_energies : list N; b_node_forces : list N;
  b_R0 : list N; b_R0_deriv : list N;
  b_R1 : list N; b_R1_deriv : list N;
  b_Y : list N; b_Y_grad : list N; b_xyz_shuffled : list N;
  b_A0 : list N; b_A0_adj : list N;
  b_M0 : list N; b_M0_grad : list N; b_M0_adj : list N;
  b_P0 : list (@mpoly N);
  b_H1 : list N; b_H1_adj : list N;
  b_Phi1r : list N; b_dPhi1r : list N; b_Phi1 : list N; b_dPhi1 : list N;
  b_A1 : list N; b_A1_adj : list N;
  b_M1 : list N; b_M1_grad : list N; b_M1_adj : list N;
  b_P1 : list (@mpoly N);
  b_H2 : list N; b_H2_adj : list N;
  b_readout_2 : @mlp N
}.

(** mace.cpp:17-64 compute_node_energies_forces *)
Definition compute_node_energies_forces (m : mace_model) (b : mace_bufs)
    (num_nodes : nat) (node_types num_neigh neigh_indices neigh_types : list nat) (xyz r : list N)
    : option mace_bufs :=
  let node_energies := fill nzero (resize nzero (b_node_energies b) num_nodes) in
  let node_forces := fill nzero (resize nzero (b_node_forces b) (length xyz)) in
  '(node_energies, node_forces) <-
    (if m_has_zbl m then
       compute_ZBL (m_zbl m) num_nodes node_types num_neigh neigh_types (m_atomic_numbers m) r xyz
         node_energies node_forces
     else Some (node_energies, node_forces)) ;;
  '(Y, Y_grad, xyz_shuffled) <- compute_Y m xyz (b_Y b) (b_Y_grad b) (b_xyz_shuffled b) ;;
  '(R0, R0_deriv) <- compute_R0 m num_nodes node_types num_neigh neigh_types r (b_R0 b) (b_R0_deriv b) ;;
  A0 <- compute_A0 m num_nodes node_types num_neigh neigh_types Y R0 (b_A0 b) ;;
  A0 <- compute_A0_scaled m num_nodes node_types num_neigh neigh_types r A0 ;;
  '(P0, M0, M0_grad) <- compute_M0 m num_nodes node_types A0 (b_P0 b) (b_M0 b) (b_M0_grad b) ;;
  H1 <- compute_H1 m num_nodes M0 (b_H1 b) ;;
  '(R1, R1_deriv) <- compute_R1 m num_nodes node_types num_neigh neigh_types r (b_R1 b) (b_R1_deriv b) ;;
  '(Phi1r, Phi1) <- compute_Phi1 m num_nodes num_neigh neigh_indices Y R1 H1 (b_Phi1r b) (b_Phi1 b) ;;
  A1 <- compute_A1 m num_nodes Phi1 (b_A1 b) ;;
  A1 <- compute_A1_scaled m num_nodes node_types num_neigh neigh_types r A1 ;;
  '(P1, M1, M1_grad) <- compute_M1 m num_nodes node_types A1 (b_P1 b) (b_M1 b) (b_M1_grad b) ;;
  H2 <- compute_H2 m num_nodes node_types H1 M1 (b_H2 b) ;;
  '(readout_2, node_energies, H1_adj, H2_adj) <-
    compute_readouts m num_nodes node_types H1 H2 (b_readout_2 b) node_energies (b_H1_adj b) (b_H2_adj b) ;;
  '(H1_adj, M1_adj) <- reverse_H2 m num_nodes node_types false H1 M1 H2_adj H1_adj (b_M1_adj b) ;;
  A1_adj <- reverse_M1 m num_nodes A1 M1_adj M1_grad (b_A1_adj b) ;;
  '(node_forces, A1_adj) <-
    reverse_A1_scaled m num_nodes node_types num_neigh neigh_types xyz r false A1 node_forces A1_adj ;;
  dPhi1 <- reverse_A1 m num_nodes Phi1 A1_adj (b_dPhi1 b) ;;
  '(dPhi1r, node_forces, H1_adj) <-
    reverse_Phi1 m num_nodes num_neigh neigh_indices xyz r false false
      Y Y_grad R1 R1_deriv H1 Phi1r dPhi1 (b_dPhi1r b) node_forces H1_adj ;;
  M0_adj <- reverse_H1 m num_nodes M0 H1_adj (b_M0_adj b) ;;
  A0_adj <- reverse_M0 m num_nodes A0 M0_adj M0_grad (b_A0_adj b) ;;
  '(node_forces, A0_adj) <-
    reverse_A0_scaled m num_nodes node_types num_neigh neigh_types xyz r A0 node_forces A0_adj ;;
  node_forces <- reverse_A0 m num_nodes node_types num_neigh neigh_types xyz r Y Y_grad R0 R0_deriv A0_adj node_forces ;;
  Some (mkBufs node_energies node_forces R0 R0_deriv R1 R1_deriv Y Y_grad xyz_shuffled A0 A0_adj
          M0 M0_grad M0_adj P0 H1 H1_adj Phi1r dPhi1r Phi1 dPhi1 A1 A1_adj M1 M1_grad M1_adj P1 H2 H2_adj readout_2).

(** ** load_from_json *)

(** The parsed file.  JSON syntax is not modelled: the nested string-keyed maps M0_weights[a][lm][k],
    M0_monomials[lm], M1_weights[a][k] are given as functions of the integers that are converted by
    std::to_string (a missing key yields an empty vector, as operator[] of std::map does). *)
Record mace_file := mkFile {
  f_num_channels : nat; f_l_max : nat; f_L_max : nat;
  f_atomic_numbers : list nat; f_atomic_energies : list N;
  f_has_zbl : bool;
  f_zbl_a_exp : N; f_zbl_a_prefactor : N; f_zbl_c : list N; f_zbl_covalent_radii : list N; f_zbl_p : Z;
  f_radial_spline_h : N;
  f_radial_spline_values_0 : list (list (list N)); f_radial_spline_derivs_0 : list (list (list N));
  f_radial_spline_values_1 : list (list (list N)); f_radial_spline_derivs_1 : list (list (list N));
  f_H0_weights : list N;
  f_A0_weights : list (list (list N));
  f_A0_scaled : bool; f_A0_spline_h : N; f_A0_spline_values : list (list N); f_A0_spline_derivs : list (list N);
  f_M0_weights : nat -> nat -> nat -> list N; f_M0_monomials : nat -> list (list nat);
  f_H1_weights : list N;
  f_Phi1_l : list nat; f_Phi1_l1 : list nat; f_Phi1_l2 : list nat;
  f_Phi1_lme : list nat; f_Phi1_clebsch_gordan : list N; f_Phi1_lelm1lm2 : list nat;
  f_A1_weights : list (list N);
  f_A1_scaled : bool; f_A1_spline_h : N; f_A1_spline_values : list (list N); f_A1_spline_derivs : list (list N);
  f_M1_weights : nat -> nat -> list N; f_M1_monomials : list (list nat);
  f_H2_weights_for_H1 : list (list N); f_H2_weights_for_M1 : list N;
  f_readout_1_weights : list N; f_readout_2_weights_1 : list N; f_readout_2_weights_2 : list N;
  f_readout_2_scale_factor : N
}.

(** std::sort inside the polynomial constructor, see MpModel.v *)
Variable srt : list (list (list nat)) -> list (list (list nat)).

(** mace.cpp:905-1030 load_from_json on a freshly constructed object (mace.cpp:12-15); all work vectors
    are empty.  A default-constructed ZBL (zbl.cpp:5-7) has indeterminate members that are never read. *)
Definition load_from_json (f : mace_file) : option (mace_model * mace_bufs) :=
  let K := f_num_channels f in
  let l_max := f_l_max f in
  let num_lm := ((l_max + 1) * (l_max + 1))%nat in
  let num_LM := ((f_L_max f + 1) * (f_L_max f + 1))%nat in
  let num_types := length (f_atomic_numbers f) in
  let zbl := mkZBL (f_zbl_a_exp f) (f_zbl_a_prefactor f) (f_zbl_c f) (f_zbl_covalent_radii f) (f_zbl_p f) in
  spl_set_0 <- for_ (length (f_radial_spline_values_0 f)) (fun i s =>
      v <- rd (f_radial_spline_values_0 f) i ;;
      d <- rd (f_radial_spline_derivs_0 f) i ;;
      c <- make_spline_set (f_radial_spline_h f) v d ;; Some (s ++ [c])) [] ;;
  spl_set_1 <- for_ (length (f_radial_spline_values_1 f)) (fun i s =>
      v <- rd (f_radial_spline_values_1 f) i ;;
      d <- rd (f_radial_spline_derivs_1 f) i ;;
      c <- make_spline_set (f_radial_spline_h f) v d ;; Some (s ++ [c])) [] ;;
  A0_splines <- (if f_A0_scaled f then
      for_ (length (f_A0_spline_values f)) (fun i s =>
        v <- rd (f_A0_spline_values f) i ;;
        d <- rd (f_A0_spline_derivs f) i ;;
        c <- make_spline (f_A0_spline_h f) v d ;; Some (s ++ [c])) []
    else Some []) ;;
  P0 <- for_ num_types (fun a P0 => for_ num_LM (fun lm P0 => for_ K (fun k P0 =>
      p <- make_mpoly srt num_lm (f_M0_weights f a lm k) (f_M0_monomials f lm) ;;
      Some (P0 ++ [p])) P0) P0) [] ;;
  num_lme <- for_ (length (f_Phi1_l f)) (fun q n => l <- rd (f_Phi1_l f) q ;; Some (n + (2*l+1))%nat) 0%nat ;;
  num_lelm1lm2 <- for_ (length (f_Phi1_l f)) (fun le n =>
      l1 <- rd (f_Phi1_l1 f) le ;; l2 <- rd (f_Phi1_l2 f) le ;;
      Some (n + (2*l1+1)*(2*l2+1))%nat) 0%nat ;;
  A1_splines <- (if f_A1_scaled f then
      for_ (length (f_A1_spline_values f)) (fun i s =>
        v <- rd (f_A1_spline_values f) i ;;
        d <- rd (f_A1_spline_derivs f) i ;;
        c <- make_spline (f_A1_spline_h f) v d ;; Some (s ++ [c])) []
    else Some []) ;;
  P1 <- for_ num_types (fun a P1 => for_ K (fun k P1 =>
      p <- make_mpoly srt num_lm (f_M1_weights f a k) (f_M1_monomials f) ;;
      Some (P1 ++ [p])) P1) [] ;;
  readout_2 <- make_mlp [K; 16; 1]%nat [f_readout_2_weights_1 f; f_readout_2_weights_2 f] (f_readout_2_scale_factor f) ;;
  Some (mkModel K l_max (f_L_max f) (f_atomic_numbers f) (f_atomic_energies f) (f_has_zbl f) zbl
          spl_set_0 spl_set_1 (f_H0_weights f) (f_A0_weights f) (f_A0_scaled f) A0_splines (f_H1_weights f)
          (f_Phi1_l f) (f_Phi1_l1 f) (f_Phi1_l2 f) (f_Phi1_lme f) (f_Phi1_clebsch_gordan f) (f_Phi1_lelm1lm2 f)
          num_lme num_lelm1lm2 (f_A1_weights f) (f_A1_scaled f) A1_splines
          (f_H2_weights_for_H1 f) (f_H2_weights_for_M1 f) (f_readout_1_weights f),
        mkBufs [] [] [] [] [] [] [] [] [] [] [] [] [] [] P0 [] [] [] [] [] [] [] [] [] [] [] P1 [] [] readout_2).

End Mace.
Arguments mace_model : clear implicits.
Arguments mace_bufs : clear implicits.
Arguments mace_file : clear implicits.
