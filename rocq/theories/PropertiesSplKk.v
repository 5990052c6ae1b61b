(** C81, C82: the Kokkos classes of cubic splines. *)
From Coq Require Import List Arith ZArith Bool Reals Lra Lia.
From Verif Require Import Base Instances SplineModel KkSem KkModel KkSpec SplKkModel SplKkSpec SplKkThms PropertiesSpline.
Import ListNotations.
Local Open Scope R_scope.

(** ** C81: CubicSplineKokkos.  Proved where the host can access the views of the default execution space.  Missing: devices
    with their own memory, where every evaluation returns zero (C81_device_refuted), and arguments beyond the last node for the
    two derivative evaluators, whose guards let them through (C45_kokkos_guard_refuted). *)
Theorem C81_kokkos_spline_partial : forall (h : R) (vs ds : list R) (m0 : mem RNum),
  0 < h -> (2 <= length vs)%nat -> length ds = length vs ->
  exists s m, make_spline (N:=RNum) h vs ds = Some s /\
    (* every execution of the constructor ends, without undefined behaviour, with the same memory *)
    (forall o, hexec (kcs_new (N:=RNum) h vs ds) m0 o <-> o = Some m) /\
    forall r, kcs_evaluate (N:=RNum) true h m r = cs_evaluate (N:=RNum) s r /\
      (r < h * INR (length vs - 1) ->
       kcs_evaluate_deriv (N:=RNum) true h m r = cs_evaluate_deriv (N:=RNum) s r /\
       kcs_evaluate_deriv_divided (N:=RNum) true h m r = cs_evaluate_deriv_divided (N:=RNum) s r).
Proof. exact lemma_C81. Qed.
Print Assumptions C81_kokkos_spline_partial.

(** the constructor from views *)
Theorem C81_kokkos_spline_views_partial : forall (h : R) (n : nat) (m0 : mem RNum),
  0 < h -> (2 <= n)%nat -> dims m0 sV = [n] -> dims m0 sD = [n] ->
  exists s m, make_spline (N:=RNum) h (kk_view m0 sV) (kk_view m0 sD) = Some s /\
    (forall o, hexec (kcs_new_views (N:=RNum) h n) m0 o <-> o = Some m) /\
    forall r, kcs_evaluate (N:=RNum) true h m r = cs_evaluate (N:=RNum) s r /\
      (r < h * INR (n - 1) ->
       kcs_evaluate_deriv (N:=RNum) true h m r = cs_evaluate_deriv (N:=RNum) s r /\
       kcs_evaluate_deriv_divided (N:=RNum) true h m r = cs_evaluate_deriv_divided (N:=RNum) s r).
Proof. exact lemma_C81_views. Qed.
Print Assumptions C81_kokkos_spline_views_partial.

(** create_mirror_view without deep_copy: on a device with its own memory the mirror is zero, whatever the spline *)
Theorem C81_device_refuted : forall (h : R) (vs ds : list R) (m0 : mem RNum),
  0 < h -> (2 <= length vs)%nat -> length ds = length vs ->
  exists m, (forall o, hexec (kcs_new (N:=RNum) h vs ds) m0 o <-> o = Some m) /\
    forall r, 0 <= r < h * INR (length vs - 1) ->
      kcs_evaluate (N:=RNum) false h m r = SplineModel.Ret 0 /\
      kcs_evaluate_deriv (N:=RNum) false h m r = SplineModel.Ret (0, 0) /\
      kcs_evaluate_deriv_divided (N:=RNum) false h m r = SplineModel.Ret (0, 0).
Proof. exact lemma_C81_device. Qed.
Print Assumptions C81_device_refuted.

(** the parabola x^2 on [0, 2]: 1 at the node 1, but 0 on a device *)
Definition ex_mem : mem RNum := mkMem (N:=RNum) (fun _ => []) (fun _ => 0).
Example C81_example : exists m, hexec (kcs_new (N:=RNum) 1 [0; 1; 4] [0; 2; 4]) ex_mem (Some m) /\
  kcs_evaluate (N:=RNum) true 1 m 1 = SplineModel.Ret 1 /\
  kcs_evaluate_deriv (N:=RNum) true 1 m 1 = SplineModel.Ret (1, 2) /\
  kcs_evaluate (N:=RNum) false 1 m 1 = SplineModel.Ret 0.
Proof.
  destruct (C11_spline_interpolates 1 [0; 1; 4] [0; 2; 4]) as (s & Es & HI & _); [lra|cbn; lia|reflexivity|].
  destruct (HI 1%nat) as [I1 I2]; [cbn; lia|]. cbn in I1, I2. rewrite Rmult_1_l in I1, I2.
  destruct (C81_kokkos_spline_partial 1 [0; 1; 4] [0; 2; 4] ex_mem) as (s' & m & Es' & He & HV); [lra|cbn; lia|reflexivity|].
  destruct (C81_device_refuted 1 [0; 1; 4] [0; 2; 4] ex_mem) as (m2 & He2 & HZ); [lra|cbn; lia|reflexivity|].
  assert (s' = s) as -> by congruence. exists m. split; [apply He; auto|].
  assert (E : Some m = Some m2) by (apply He2; apply He; auto). injection E as <-.
  destruct (HV 1) as [V1 V2]. destruct V2 as [V2 _]; [cbn; lra|].
  split; [rewrite V1; exact I1|]. split; [rewrite V2; exact I2|]. apply HZ. cbn. lra.
Qed.
Example C81_views_example : exists m0 : mem RNum, dims m0 sV = [3%nat] /\ dims m0 sD = [3%nat] /\ kk_view m0 sV = [0; 1; 4] /\ kk_view m0 sD = [0; 2; 4].
Proof.
  exists (set_view (set_view ex_mem sV [3%nat] (fun idx => nth (nth 0 idx 0%nat) [0; 1; 4] 0)) sD [3%nat] (fun idx => nth (nth 0 idx 0%nat) [0; 2; 4] 0)).
  repeat split.
Qed.

(** ** C82: CubicSplineSetKokkos.  Every sequence of calls after the constructor from vectors; for the calls that take views,
    whether or not the host can access the memory of the device.  Missing: arguments beyond the last node
    (C82_unguarded_refuted) and the constructor from views (C82_view_constructor_refuted). *)
Theorem C82_kokkos_spline_set_partial : forall (host : bool) (h : R) (vs ds : list (list R)) n,
  0 < h -> (1 <= n)%nat -> (1 <= length vs)%nat -> length ds = length vs ->
  (forall row, In row vs -> length row = n) -> (forall row, In row ds -> length row = n) ->
  exists S s, make_spline_set (N:=RNum) h vs ds = Some S /\ kss_of (N:=RNum) h vs = Some s /\
  forall m l c, (forall d, In d l -> kss_call_ok host h n (length vs) d) -> kss_call_ok host h n (length vs) c ->
  exists m0 m1,
    (forall o, hexec (kss_new (N:=RNum) host s vs ds ++ flat_map (kss_cmds host s) l) m o <-> o = Some m0) /\
    (forall o, hexec (kss_cmds host s c) m0 o <-> o = Some m1) /\
    kss_same S c m1.
Proof. exact lemma_C82. Qed.
Print Assumptions C82_kokkos_spline_set_partial.

(** no bounds check *)
Theorem C82_unguarded_refuted : forall (host : bool) (h : R) (vs ds : list (list R)) n (r : R) (a b : list R) (m : mem RNum),
  0 < h -> (1 <= n)%nat -> (1 <= length vs)%nat -> length ds = length vs ->
  (forall row, In row vs -> length row = n) -> (forall row, In row ds -> length row = n) ->
  h * INR (n - 1) <= r ->
  exists s, kss_of (N:=RNum) h vs = Some s /\
    hexec (kss_new (N:=RNum) host s vs ds ++ kss_cmds host s (SEval r a)) m None /\
    hexec (kss_new (N:=RNum) host s vs ds ++ kss_cmds host s (SDerivs r a b)) m None.
Proof. exact lemma_C82_out. Qed.
Print Assumptions C82_unguarded_refuted.

(** the constructor from views gives c the extents (num_nodes-1, num_splines, third) where it needs (num_nodes-1, 4,
    num_splines).  For fewer than 4 splines that is out of bounds whatever the third extent is; for any number if it is less
    than the number of splines, in particular if it is 1. *)
Theorem C82_view_constructor_refuted : forall third (h : R) nodes num (m : mem RNum),
  (2 <= nodes)%nat -> (1 <= num)%nat -> (num < 4 \/ third < num)%nat ->
  dims m sV = [num; nodes] -> dims m sD = [num; nodes] ->
  hexec (kss_new_views (N:=RNum) third h nodes num) m None.
Proof. exact lemma_C82_views. Qed.
Print Assumptions C82_view_constructor_refuted.

(** two splines on three nodes, after a call with two arguments: both evaluators at 1 *)
Example C82_example : exists S s m0 m1,
  make_spline_set (N:=RNum) 1 [[0; 1; 4]; [5; 6; 7]] [[0; 2; 4]; [1; 1; 1]] = Some S /\
  kss_of (N:=RNum) 1 [[0; 1; 4]; [5; 6; 7]] = Some s /\
  hexec (kss_new (N:=RNum) false s [[0; 1; 4]; [5; 6; 7]] [[0; 2; 4]; [1; 1; 1]] ++
         kss_cmds false s (SMany [1/2; 3/2] 2 2 (fun _ => 9) (fun _ => 8)) ++ kss_cmds false s (SDerivs (1/2) [3; 3; 3] [4; 4])) ex_mem (Some m0) /\
  hexec (kss_cmds false s (SDerivs 1 [3; 3; 3] [4; 4])) m0 (Some m1) /\
  css_evaluate_derivs (N:=RNum) S 1 [3; 3; 3] 0 [4; 4] 0 = Some (kk_view m1 sOv, kk_view m1 sOd).
Proof.
  set (c1 := SMany [1/2; 3/2] 2 2 (fun _ => 9) (fun _ => 8)). set (c2 := SDerivs (1/2) [3; 3; 3] [4; 4]). set (c3 := SDerivs 1 [3; 3; 3] [4; 4]).
  destruct (C82_kokkos_spline_set_partial false 1 [[0; 1; 4]; [5; 6; 7]] [[0; 2; 4]; [1; 1; 1]] 3) as (S & s & ES & Es & H);
    [lra|lia|cbn; lia|reflexivity|intros row [<-|[<-|[]]]; reflexivity|intros row [<-|[<-|[]]]; reflexivity|].
  destruct (H ex_mem [c1; c2] c3) as (m0 & m1 & H0 & H1 & HS).
  - intros d [<-|[<-|[]]]; cbn.
    + split; [intros r [<-|[<-|[]]]; lra|lia].
    + repeat split; try lra; lia.
  - cbn. repeat split; try lra; lia.
  - exists S, s, m0, m1. split; auto. split; auto. split; [|split; [apply H1; auto|exact HS]].
    cbn [flat_map] in H0. rewrite app_nil_r in H0. apply H0. reflexivity.
Qed.
Example C82_view_example : hexec (kss_new_views (N:=RNum) 1 1 3 2)
  (set_view (set_view ex_mem sV [2; 3]%nat (fun _ => 1)) sD [2; 3]%nat (fun _ => 1)) None.
Proof. apply C82_view_constructor_refuted; try reflexivity; lia. Qed.
