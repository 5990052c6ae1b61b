(** The arithmetic on C++ [int] done by one evaluation: every size and offset that mace.cpp and zbl.cpp compute in 32-bit signed integers.
    This complements MaceModel.v, where sizes and offsets are unbounded numbers.
    [None] is an overflow (undefined behaviour), or a read outside of an array of the input.
    Each definition has the loops of the C++ function it cites and, in [vals], the [int] expressions of the loop body, with the association of the source.
    Simplified: two independent parts of the body of one loop over the nodes may be written as two loops; the accesses and the floating-point work are in MaceModel.v;
    arithmetic in [size_t] (for example [r.size()*num_spl]) is not included, its conversion to [int] is ([type_ij]).
    Pointers are advanced by one [int] after the other, so [p + a*b + c] contains the [int] expression [a*b] only.
    Not included: the classes that mace.cpp calls (splines, polynomials, the perceptron) and the reading of the file. *)
From Coq Require Import List Arith ZArith.
From Verif Require Import Base SplineModel MaceModel MaceSpec.
Import ListNotations.

Definition int32 (z : Z) : option Z := if ((-2147483648 <=? z) && (z <? 2147483648))%Z%bool then Some z else None.
(** the value of an [int] *)
Definition I (n : nat) : option Z := int32 (Z.of_nat n).
Definition imul (a b : option Z) : option Z := x <- a ;; y <- b ;; int32 (x * y)%Z.
Definition iadd (a b : option Z) : option Z := x <- a ;; y <- b ;; int32 (x + y)%Z.
Definition isub (a b : option Z) : option Z := x <- a ;; y <- b ;; int32 (x - y)%Z.
Declare Scope int_scope.
Delimit Scope int_scope with int.
Infix "*" := imul : int_scope.
Infix "+" := iadd : int_scope.
Infix "-" := isub : int_scope.

(** all expressions of the list are evaluated *)
Fixpoint vals (l : list (option Z)) : option unit :=
  match l with [] => Some tt | e :: l' => _ <- e ;; vals l' end.
Definition loop (n : nat) (body : nat -> option unit) : option unit := for_ n (fun i _ => body i) tt.
(** [for (int j=0; j<n; ++j) { body; ij += 1; }] *)
Definition run (n : nat) (body : nat -> option unit) (ij : nat) : option nat :=
  for_ n (fun _ ij => _ <- body ij ;; _ <- (I ij + I 1)%int ;; Some (S ij)) ij.
(** [int ij = 0; for (int i=0; i<num_nodes; ++i) for (int j=0; j<num_neigh[i]; ++j) { body; ij += 1; }] *)
Definition edges (num_nodes : nat) (num_neigh : list nat) (body : nat -> nat -> option unit) : option unit :=
  _ <- for_ num_nodes (fun i ij => nn <- rd num_neigh i ;; run nn (body i) ij) 0 ;; Some tt.

(** mace.cpp:79-82 and others: [type_ij], computed in [size_t] and converted *)
Definition i_type_ij (T ti tj : nat) : option Z :=
  I (if ti <=? tj then ti * (2 * T - ti - 1) / 2 + tj else tj * (2 * T - tj - 1) / 2 + ti).

Section Int.
Context {N : Num}.
Variable m : mace_model N.
Variable x : input N.
Notation K := (I (m_num_channels m)).
Notation lm_ := (I (num_lm m)).
Notation LM_ := (I (num_LM m)).
Notation n := (i_num_nodes x).
Notation T := (length (m_atomic_numbers m)).
Local Open Scope int_scope.

(** zbl.cpp:96-125 compute_ZBL *)
Definition i_ZBL : option unit :=
  edges n (i_num_neigh x) (fun i ij => vals [I 3 * I ij; I 3 * I ij + I 1; I 3 * I ij + I 2]).

(** mace.cpp:118-148 compute_Y.  [num = xyz.size()/3] is a conversion to [int]. *)
Definition i_Y : option unit :=
  if length (i_xyz x) =? 0 then Some tt else
  let num := length (i_xyz x) / 3 in
  _ <- vals [I num; I num * lm_; I 3 * I num * lm_; I 3 * I num] ;;
  _ <- loop num (fun i => vals [I 3 * I i; I 3 * I i + I 2; I 3 * I i + I 1]) ;;
  loop num (fun i => loop (num_lm m) (fun lm =>
    vals [I 3 * I i * lm_ + I 0 * lm_ + I lm; I 3 * I i * lm_ + I 1 * lm_ + I lm; I 3 * I i * lm_ + I 2 * lm_ + I lm])).

(** mace.cpp:66-90 compute_R0 and 92-116 compute_R1 *)
Definition i_R (sets : list (@spline_set N)) : option unit :=
  s0 <- rd sets 0 ;;
  edges n (i_num_neigh x) (fun i ij => ti <- rd (i_node_types x) i ;; tj <- rd (i_neigh_types x) ij ;; vals [i_type_ij T ti tj; I ij * I (css_num s0)]).

(** mace.cpp:150-201 compute_A0; [m] of the source is [mm - l] *)
Definition i_A0 : option unit :=
  _ <- vals [I n * lm_ * K] ;;
  _ <- loop n (fun i => _ <- vals [lm_ * K] ;; loop (m_l_max m + 1)%nat (fun l => vals [I l * I l * K; (I i * lm_ + I l * I l) * K; I 2 * I l + I 1])) ;;
  edges n (i_num_neigh x) (fun i ij => tj <- rd (i_neigh_types x) ij ;;
    _ <- vals [I ij * lm_; I tj * K] ;;
    loop (m_l_max m + 1)%nat (fun l => _ <- vals [I ij * (I (m_l_max m) + I 1) * K + I l * K] ;;
      loop (2 * l + 1)%nat (fun mm => vals [I l * I l + I l + (I mm - I l); I (l * l + mm)%nat * K]))).

(** mace.cpp:273-297 compute_A0_scaled and 681-705 compute_A1_scaled *)
Definition i_scaled (scaled : bool) : option unit :=
  if scaled then
    _ <- edges n (i_num_neigh x) (fun i ij => ti <- rd (i_node_types x) i ;; tj <- rd (i_neigh_types x) ij ;; vals [i_type_ij T ti tj]) ;;
    loop n (fun i => vals [I i * lm_ * K; lm_ * K])
  else Some tt.

(** mace.cpp:348-370 compute_M0; [lmk] of the source is [lm*num_channels+k] *)
Definition i_M0 : option unit :=
  _ <- vals [I n * LM_ * K; I n * K * LM_ * lm_] ;;
  loop n (fun i => ti <- rd (i_node_types x) i ;;
    _ <- vals [I i * lm_ * K; I i * LM_ * K; I i * LM_ * K * lm_] ;;
    loop (num_LM m) (fun lm => loop (m_num_channels m) (fun k =>
      let lmk := (lm * m_num_channels m + k)%nat in vals [I ti * LM_ * K + I lmk; I lm * lm_ * K; I lmk + I 1]))).

(** mace.cpp:397-423 compute_H1 and 425-451 reverse_H1 *)
Definition i_H1 : option unit :=
  loop n (fun i => loop (m_L_max m + 1)%nat (fun l => vals [(I i * LM_ + I l * I l) * K; I l * K * K; I 2 * I l + I 1])).

(** mace.cpp:468-484, 543-571, 586-601: the loops over [lel1l2], [lm1], [lm2] with the counter [lelm1lm2] *)
Definition i_paths (body : nat -> nat -> nat -> option unit) : option unit :=
  _ <- for_ (length (m_Phi1_l m)) (fun q s =>
      l1 <- rd (m_Phi1_l1 m) q ;; l2 <- rd (m_Phi1_l2 m) q ;;
      _ <- vals [I q * K; I l1 * I l1; I l1 * (I l1 + I 2); I l2 * I l2; I l2 * (I l2 + I 2)] ;;
      for_ (2 * l1 + 1)%nat (fun a s => for_ (2 * l2 + 1)%nat (fun c s =>
        _ <- body (l1 * l1 + a)%nat (l2 * l2 + c)%nat s ;; _ <- vals [I s + I 1] ;; Some (S s)) s) s) 0 ;; Some tt.

(** mace.cpp:453-502 compute_Phi1 *)
Definition i_Phi1 : option unit :=
  s0 <- rd (m_spl_set_1 m) 0 ;;
  _ <- vals [I n * I (m_num_lelm1lm2 m) * K] ;;
  _ <- loop n (fun i => vals [I i * I (m_num_lelm1lm2 m) * K]) ;;
  _ <- edges n (i_num_neigh x) (fun i ij => j <- rd (i_neigh_indices x) ij ;;
    _ <- vals [I ij * I (css_num s0); I ij * lm_; I j * LM_ * K] ;;
    i_paths (fun lm1 lm2 s => vals [I lm2 * K; I s * K])) ;;
  _ <- vals [I n * I (m_num_lme m) * K] ;;
  loop n (fun i => _ <- vals [I i * I (m_num_lme m) * K; I i * I (m_num_lelm1lm2 m) * K] ;;
    loop (length (m_Phi1_clebsch_gordan m)) (fun p =>
      lme <- rd (m_Phi1_lme m) p ;; lel <- rd (m_Phi1_lelm1lm2 m) p ;; vals [I lme * K; I lel * K])).

(** mace.cpp:607-642 compute_A1 and 644-679 reverse_A1 (which has no resize in [int]); the counters [num_lme], [num_e[l]] are taken at their last values *)
Definition i_A1 (resized : bool) : option unit :=
  _ <- (if resized then vals [I n * lm_ * K] else Some tt) ;;
  _ <- loop (length (m_Phi1_l m)) (fun q => l <- rd (m_Phi1_l m) q ;; vals [I 2 * I l + I 1]) ;;
  _ <- vals [I (m_num_lme m)] ;;
  loop n (fun i => _ <- vals [I i * I (m_num_lme m) * K; I i * lm_ * K] ;;
    loop (m_l_max m + 1)%nat (fun l => let e := count_occ Nat.eq_dec (m_Phi1_l m) l in
      vals [I 2 * I l + I 1; I e * K; (I 2 * I l + I 1) * I e * K; (I 2 * I l + I 1) * K])).

(** mace.cpp:759-777 compute_M1 *)
Definition i_M1 : option unit :=
  _ <- vals [I n * K; I n * K * lm_ * K] ;;
  loop n (fun i => ti <- rd (i_node_types x) i ;;
    _ <- vals [I i * lm_ * K; I i * K; I i * K * lm_] ;;
    loop (m_num_channels m) (fun k => vals [I ti * K + I k])).

(** mace.cpp:796-832 compute_H2 and 834-874 reverse_H2 (which has no resize in [int]) *)
Definition i_H2 (resized : bool) : option unit :=
  _ <- (if resized then vals [I n * K] else Some tt) ;;
  loop n (fun i => vals [I i * K; I i * LM_ * K]).

(** mace.cpp:876-903 compute_readouts *)
Definition i_readouts : option unit :=
  loop n (fun i => _ <- vals [I i * K; (I i + I 1) * K] ;;
    loop (m_num_channels m) (fun k => vals [I i * LM_ * K + I k; I i * K + I k])).

(** mace.cpp:779-794 reverse_M1 *)
Definition i_reverse_M1 : option unit :=
  loop n (fun i => _ <- vals [I i * K] ;; loop (num_lm m) (fun lm => vals [(I i * lm_ + I lm) * K])).

(** mace.cpp:299-346 reverse_A0_scaled and 707-757 reverse_A1_scaled *)
Definition i_reverse_scaled (scaled : bool) : option unit :=
  if scaled then
    _ <- for_ n (fun i ij => ti <- rd (i_node_types x) i ;;
      _ <- vals [I i * lm_ * K; lm_ * K] ;;
      nn <- rd (i_num_neigh x) i ;;
      ij <- run nn (fun ij => tj <- rd (i_neigh_types x) ij ;; vals [i_type_ij T ti tj]) ij ;;
      _ <- I ij - I nn ;;
      run nn (fun ij => tj <- rd (i_neigh_types x) ij ;; vals [i_type_ij T ti tj; I ij * I 3]) (ij - nn)%nat) 0 ;; Some tt
  else Some tt.

(** mace.cpp:504-605 reverse_Phi1 *)
Definition i_reverse_Phi1 : option unit :=
  s0 <- rd (m_spl_set_1 m) 0 ;;
  _ <- loop n (fun i => _ <- vals [I i * I (m_num_lelm1lm2 m) * K; I i * I (m_num_lme m) * K] ;;
    loop (length (m_Phi1_clebsch_gordan m)) (fun p =>
      lme <- rd (m_Phi1_lme m) p ;; lel <- rd (m_Phi1_lelm1lm2 m) p ;; vals [I lel * K; I lme * K])) ;;
  _ <- edges n (i_num_neigh x) (fun i ij => j <- rd (i_neigh_indices x) ij ;;
    _ <- vals [I 3 * I ij; I ij * I (css_num s0); I ij * lm_; I ij * I 3 * lm_; I j * LM_ * K] ;;
    i_paths (fun lm1 lm2 s => vals [I 0 * lm_ + I lm1; I 1 * lm_ + I lm1; I 2 * lm_ + I lm1; I lm2 * K; I s * K])) ;;
  edges n (i_num_neigh x) (fun i ij => j <- rd (i_neigh_indices x) ij ;;
    _ <- vals [I ij * I (css_num s0); I ij * lm_; I j * LM_ * K] ;;
    i_paths (fun lm1 lm2 s => vals [I lm2 * K; I s * K])).

(** mace.cpp:372-395 reverse_M0 *)
Definition i_reverse_M0 : option unit :=
  loop n (fun i => _ <- vals [I i * lm_ * K; I i * LM_ * K; I i * LM_ * lm_ * K] ;;
    loop (num_lm m) (fun lm => _ <- vals [I lm * K] ;; loop (num_LM m) (fun lmp => vals [I lmp * K; I lmp * lm_ * K]))).

(** mace.cpp:203-271 reverse_A0 *)
Definition i_reverse_A0 : option unit :=
  _ <- loop n (fun i => _ <- vals [lm_ * K] ;; loop (m_l_max m + 1)%nat (fun l => vals [I l * I l * K; (I i * lm_ + I l * I l) * K; I 2 * I l + I 1])) ;;
  edges n (i_num_neigh x) (fun i ij => tj <- rd (i_neigh_types x) ij ;;
    _ <- vals [I ij * I 3; I ij * lm_; I ij * I 3 * lm_; I tj * K] ;;
    loop (m_l_max m + 1)%nat (fun l => _ <- vals [I ij * (I (m_l_max m) + I 1) * K + I l * K] ;;
      loop (2 * l + 1)%nat (fun mm => vals [I l * I l + I l + (I mm - I l); lm_ + I (l * l + mm)%nat; I 2 * lm_ + I (l * l + mm)%nat; I (l * l + mm)%nat * K]))).

(** mace.cpp:17-64 compute_node_energies_forces *)
Definition i_compute : option unit :=
  _ <- (if m_has_zbl m then i_ZBL else Some tt) ;;
  _ <- i_Y ;; _ <- i_R (m_spl_set_0 m) ;; _ <- i_A0 ;; _ <- i_scaled (m_A0_scaled m) ;; _ <- i_M0 ;; _ <- i_H1 ;;
  _ <- i_R (m_spl_set_1 m) ;; _ <- i_Phi1 ;; _ <- i_A1 true ;; _ <- i_scaled (m_A1_scaled m) ;; _ <- i_M1 ;; _ <- i_H2 true ;; _ <- i_readouts ;;
  _ <- i_H2 false ;; _ <- i_reverse_M1 ;; _ <- i_reverse_scaled (m_A1_scaled m) ;; _ <- i_A1 false ;; _ <- i_reverse_Phi1 ;;
  _ <- i_H1 ;; _ <- i_reverse_M0 ;; _ <- i_reverse_scaled (m_A0_scaled m) ;; i_reverse_A0.
End Int.
