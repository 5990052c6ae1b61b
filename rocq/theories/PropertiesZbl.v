(** Property theorems for the ZBL repulsion: C25, C26, C27, C28, C50.  Model: ZblModel.v. *)
From Coq Require Import List Arith ZArith QArith Reals Lia Lra.
From Verif Require Import Base Instances Sys ZblModel ZblThms.
Import ListNotations.
Local Open Scope R_scope.

(** ** C25: the gradient is the derivative of the energy, for every r > 0, the cutoff included.
    [getR (Some v) = v]; the first conjunct excludes that the energy is undefined. *)
Theorem C25_zbl_gradient : forall (z : ZBL RNum) Zu Zv (ru rv c0 c1 c2 c3 r : R),
  rd (z_covalent_radii z) Zu = Some ru -> rd (z_covalent_radii z) Zv = Some rv ->
  z_c z = [c0; c1; c2; c3] -> (2 <= z_p z)%Z -> 0 < ru + rv -> 0 < r ->
  (exists E, zbl_compute z Zu Zv r = Some E) /\
  exists G, zbl_compute_gradient z Zu Zv r = Some G /\
    derivable_pt_lim (fun t => getR (zbl_compute z Zu Zv t)) r G.
Proof. exact lemma_C25. Qed.
Print Assumptions C25_zbl_gradient.

(** parameters as in the exported models: p = 6, universal ZBL coefficients *)
Definition zex : ZBL RNum :=
  mkZBL (N:=RNum) (23/100) (88534/100000) [18175/100000; 50986/100000; 28022/100000; 2817/100000] [2/10; 31/100; 28/100] 6.

Example C25_example : exists G, zbl_compute_gradient zex 1 2 (1/2) = Some G /\
  derivable_pt_lim (fun t => getR (zbl_compute zex 1 2 t)) (1/2) G.
Proof.
  destruct (C25_zbl_gradient zex 1 2 (31/100) (28/100) (18175/100000) (50986/100000) (28022/100000) (2817/100000) (1/2))
    as [_ H]; try reflexivity; try lra; try exact H. simpl; lia.
Qed.

(** at the cutoff r = 0.59 itself *)
Example C25_example_cutoff : exists G, zbl_compute_gradient zex 1 2 (59/100) = Some G /\
  derivable_pt_lim (fun t => getR (zbl_compute zex 1 2 t)) (59/100) G.
Proof.
  destruct (C25_zbl_gradient zex 1 2 (31/100) (28/100) (18175/100000) (50986/100000) (28022/100000) (2817/100000) (59/100))
    as [_ H]; try reflexivity; try lra; try exact H. simpl; lia.
Qed.

(** ** C26: compact support, smooth cutoff *)
Theorem C26_zbl_support : forall (z : ZBL RNum) Zu Zv (ru rv c0 c1 c2 c3 r : R),
  rd (z_covalent_radii z) Zu = Some ru -> rd (z_covalent_radii z) Zv = Some rv ->
  z_c z = [c0; c1; c2; c3] -> (2 <= z_p z)%Z -> ru + rv <= r ->
  zbl_compute z Zu Zv r = Some 0 /\ zbl_compute_gradient z Zu Zv r = Some 0.
Proof. exact lemma_C26_support. Qed.
Print Assumptions C26_zbl_support.

Theorem C26_zbl_envelope : forall (p : Z) (rm : R), (2 <= p)%Z -> 0 < rm ->
  compute_envelope (N:=RNum) 0 rm p = 1 /\
  (forall r, 0 <= r -> 0 <= compute_envelope (N:=RNum) r rm p <= 1) /\
  (forall r r', 0 <= r <= r' -> compute_envelope (N:=RNum) r' rm p <= compute_envelope (N:=RNum) r rm p) /\
  (forall r, rm <= r -> compute_envelope (N:=RNum) r rm p = 0 /\ compute_envelope_gradient (N:=RNum) r rm p = 0).
Proof. exact lemma_C26_env. Qed.
Print Assumptions C26_zbl_envelope.

Theorem C26_zbl_continuous : forall (z : ZBL RNum) Zu Zv (ru rv c0 c1 c2 c3 : R),
  rd (z_covalent_radii z) Zu = Some ru -> rd (z_covalent_radii z) Zv = Some rv ->
  z_c z = [c0; c1; c2; c3] -> (2 <= z_p z)%Z -> 0 < ru + rv ->
  continuity_pt (fun t => getR (zbl_compute z Zu Zv t)) (ru + rv) /\
  continuity_pt (fun t => getR (zbl_compute_gradient z Zu Zv t)) (ru + rv).
Proof. exact lemma_C26_cont. Qed.
Print Assumptions C26_zbl_continuous.

Example C26_example : zbl_compute zex 1 2 (59/100) = Some 0 /\ zbl_compute_gradient zex 1 2 (7/10) = Some 0.
Proof.
  split.
  - apply (C26_zbl_support zex 1 2 (31/100) (28/100) (18175/100000) (50986/100000) (28022/100000) (2817/100000));
      try reflexivity; try lra. simpl; lia.
  - apply (C26_zbl_support zex 1 2 (31/100) (28/100) (18175/100000) (50986/100000) (28022/100000) (2817/100000));
      try reflexivity; try lra. simpl; lia.
Qed.

(** the envelope half way, p = 6, run on rationals: 1 - 28/64 + 48/128 - 21/256 *)
Example C26_example_run : compute_envelope (N:=QNum) (1#2)%Q (1#1)%Q 6 = (219#256)%Q.
Proof. vm_compute. reflexivity. Qed.

Example C26_example_continuous :
  continuity_pt (fun t => getR (zbl_compute_gradient zex 1 2 t)) (31/100 + 28/100).
Proof.
  apply (C26_zbl_continuous zex 1 2 (31/100) (28/100) (18175/100000) (50986/100000) (28022/100000) (2817/100000));
    try reflexivity; try lra. simpl; lia.
Qed.

(** ** C27: symmetric and repulsive *)
Theorem C27_zbl_symmetric : forall (z : ZBL RNum) Zu Zv (r : R),
  zbl_compute z Zu Zv r = zbl_compute z Zv Zu r.
Proof. exact ZblR.zE_sym. Qed.
Print Assumptions C27_zbl_symmetric.

Theorem C27_zbl_repulsive : forall (z : ZBL RNum) Zu Zv (ru rv c0 c1 c2 c3 r : R),
  rd (z_covalent_radii z) Zu = Some ru -> rd (z_covalent_radii z) Zv = Some rv ->
  z_c z = [c0; c1; c2; c3] -> (2 <= z_p z)%Z -> 0 < ru + rv -> 0 < z_a_prefactor z ->
  0 <= c0 -> 0 <= c1 -> 0 <= c2 -> 0 <= c3 -> 0 < r ->
  exists E G, zbl_compute z Zu Zv r = Some E /\ zbl_compute_gradient z Zu Zv r = Some G /\
    0 <= E /\ G <= 0 /\
    (0 < c0 -> (0 < Zu)%nat -> (0 < Zv)%nat -> r < ru + rv -> 0 < E /\ G < 0).
Proof. exact lemma_C27_sign. Qed.
Print Assumptions C27_zbl_repulsive.

Example C27_example : exists E G, zbl_compute zex 1 2 (1/2) = Some E /\
  zbl_compute_gradient zex 1 2 (1/2) = Some G /\ 0 < E /\ G < 0.
Proof.
  destruct (C27_zbl_repulsive zex 1 2 (31/100) (28/100) (18175/100000) (50986/100000) (28022/100000) (2817/100000) (1/2))
    as (E & G & H1 & H2 & _ & _ & H3); try reflexivity; try lra; [simpl; lia | simpl; lra | ].
  exists E, G. repeat split; auto; apply H3; try lra; lia.
Qed.

(** ** C50: the energy is the published screened Coulomb formula (inside the cutoff) *)
Theorem C50_zbl_formula : forall (z : ZBL RNum) Zu Zv (ru rv c0 c1 c2 c3 r : R),
  rd (z_covalent_radii z) Zu = Some ru -> rd (z_covalent_radii z) Zv = Some rv ->
  z_c z = [c0; c1; c2; c3] -> (2 <= z_p z)%Z -> 0 < r < ru + rv ->
  let a := z_a_prefactor z * 0.529 / (Rpower (INR Zu) (z_a_exp z) + Rpower (INR Zv) (z_a_exp z)) in
  let x := r / (ru + rv) in let p := IZR (z_p z) in let n := Z.to_nat (z_p z) in
  zbl_compute z Zu Zv r = Some (
    1 / 2 * (14.3996 * INR Zu * INR Zv / r)
    * (c0 * exp (-3.2 * r / a) + c1 * exp (-0.9423 * r / a) + c2 * exp (-0.4028 * r / a) + c3 * exp (-0.2016 * r / a))
    * (1 - (p + 1) * (p + 2) / 2 * x ^ n + p * (p + 2) * x ^ (n + 1) - p * (p + 1) / 2 * x ^ (n + 2))).
Proof. exact lemma_C50. Qed.
Print Assumptions C50_zbl_formula.

Example C50_example : exists E, zbl_compute zex 1 2 (1/2) = Some E.
Proof.
  eexists. apply (C50_zbl_formula zex 1 2 (31/100) (28/100) (18175/100000) (50986/100000) (28022/100000) (2817/100000));
    try reflexivity; try lra. simpl; lia.
Qed.

(** ** C28: accumulation, for every scalar type (no algebraic law is used).
    [s] is the neighbour list; the arrays may be longer than needed and hold anything. *)
Theorem C28_zbl_accumulation : forall (N : Num) (z : ZBL N) (an : list nat) (s : sys N) (ne nf : list N),
  (forall nd, In nd s -> (n_type nd < length an)%nat) ->
  (forall e, In e (all_edges s) -> (e_type e < length an)%nat) ->
  (forall Z, In Z an -> (Z < length (z_covalent_radii z))%nat) -> (4 <= length (z_c z))%nat ->
  (length s <= length ne)%nat -> (3 * length (all_edges s) <= length nf)%nat ->
  exists ne' nf',
    compute_ZBL z (length s) (f_node_types s) (f_num_neigh s) (f_neigh_types s) an (f_r s) (f_xyz s) ne nf
      = Some (ne', nf') /\
    length ne' = length ne /\ length nf' = length nf /\
    (forall i nd, nth_error s i = Some nd -> exists Es,
       Forall2 (fun e E => zbl_compute z (nth (n_type nd) an 0%nat) (nth (e_type e) an 0%nat) (e_r e) = Some E)
         (n_edges nd) Es /\
       nth i ne' nzero = fold_left nadd Es (nth i ne nzero)) /\
    (forall i nd j e, nth_error s i = Some nd -> nth_error (n_edges nd) j = Some e ->
       exists G, zbl_compute_gradient z (nth (n_type nd) an 0%nat) (nth (e_type e) an 0%nat) (e_r e) = Some G /\
       let q := (3 * edge_index s i j)%nat in
       nth q nf' nzero = nsub (nth q nf nzero) (nmul (ndiv (e_x e) (e_r e)) G) /\
       nth (q+1) nf' nzero = nsub (nth (q+1) nf nzero) (nmul (ndiv (e_y e) (e_r e)) G) /\
       nth (q+2) nf' nzero = nsub (nth (q+2) nf nzero) (nmul (ndiv (e_z e) (e_r e)) G)) /\
    (forall k, (length s <= k)%nat -> nth k ne' nzero = nth k ne nzero) /\
    (forall k, (3 * length (all_edges s) <= k)%nat -> nth k nf' nzero = nth k nf nzero).
Proof. exact @lemma_C28. Qed.
Print Assumptions C28_zbl_accumulation.

(** two nodes with two edges and one edge, run on rationals ([nexp x = 1+x], [npow x _ = x] in QNum);
    the arrays have one extra entry each, which is left alone *)
Definition sex : sys QNum :=
  [ mkNode 0 [mkEdge 1 1 (1#10) (2#10) (2#10) (3#10); mkEdge 0 0 (4#10) 0 (3#10) (5#10)];
    mkNode 1 [mkEdge 0 0 (-1#10) (-2#10) (-2#10) (3#10)] ]%Q.
Definition zexq : ZBL QNum := mkZBL (N:=QNum) (23#100) (9#10) [1#10; 2#10; 3#10; 4#10] [2#10; 31#100; 28#100] 6%Z.

Example C28_example : exists ne' nf',
  compute_ZBL zexq (length sex) (f_node_types sex) (f_num_neigh sex) (f_neigh_types sex) [1; 2]%nat (f_r sex) (f_xyz sex)
     [1#1; 2#1; 77#1]%Q [1#1;1#1;1#1; 2#1;2#1;2#1; 3#1;3#1;3#1; 99#1]%Q = Some (ne', nf') /\
  nth 2 ne' 0%Q = (77#1)%Q /\ nth 9 nf' 0%Q = (99#1)%Q /\ Qeq_bool (nth 0 ne' 0%Q) (1#1)%Q = false /\
  Qeq_bool (nth 0 nf' 0%Q) (1#1)%Q = false /\ Qeq_bool (nth 1 nf' 0%Q) (nth 2 nf' 0%Q) = true.
Proof.
  destruct (C28_zbl_accumulation QNum zexq [1; 2]%nat sex [1#1; 2#1; 77#1]%Q
              [1#1;1#1;1#1; 2#1;2#1;2#1; 3#1;3#1;3#1; 99#1]%Q) as (ne' & nf' & H & _).
  - simpl. intros nd [<-|[<-|[]]]; simpl; lia.
  - simpl. intros e [<-|[<-|[<-|[]]]]; simpl; lia.
  - simpl. intros Z [<-|[<-|[]]]; lia.
  - simpl; lia.
  - simpl; lia.
  - simpl; lia.
  - exists ne', nf'. split; [exact H|]. vm_compute in H. injection H as <- <-. vm_compute. auto.
Qed.
