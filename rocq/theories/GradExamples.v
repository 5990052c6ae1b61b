(** Data for the examples beside the gradient theorems: the spherical harmonics of MaceExamples.v have the
    derivatives they claim, the small file is smooth, and a configuration of five edges is a smooth point. *)
From Coq Require Import List Arith ZArith Reals Lia Lra.
From Verif Require Import Base BaseLemmas Instances RSums SplineModel SplineProofs SplineR MaceModel MaceSpec MaceSpec2 ExportSpec MaceExamples MaceGradSpec.
Import ListNotations.
Local Open Scope R_scope.

Lemma ex_sph_gradient : sph_gradient (ex_sph (N:=RNum)).
Proof.
  intros l x y z t x' y' z' Hx Hy Hz _ lm Hlm. unfold ex_sph. cbn [fst snd]. set (n := ((l + 1) * (l + 1))%nat) in *.
  assert (Hf : forall (L : list RNum), nth lm (firstn n (L ++ repeat (nzero (N:=RNum)) n)) 0 = nth lm L 0).
  { intros L. transitivity (nth lm (L ++ repeat (nzero (N:=RNum)) n) 0).
    - rewrite <- (firstn_skipn n (L ++ _)) at 2. symmetry. apply app_nth1. rewrite firstn_length, app_length, repeat_length. lia.
    - destruct (Nat.lt_ge_cases lm (length L)) as [H|H].
      + apply app_nth1. exact H.
      + etransitivity; [apply app_nth2; exact H|]. etransitivity; [|symmetry; apply nth_overflow; exact H].
        rewrite RNum_zero. apply nth_repeat. }
  assert (Lf : forall L : list RNum, length (firstn n (L ++ repeat (nzero (N:=RNum)) n)) = n).
  { intros L. rewrite firstn_length, app_length, repeat_length. lia. }
  set (A := firstn n ([nzero; nzero; nzero; none] ++ repeat (nzero (N:=RNum)) n)) in *.
  set (B := firstn n ([nzero; none; nzero; nzero] ++ repeat (nzero (N:=RNum)) n)) in *.
  set (C := firstn n ([nzero; nzero; none; nzero] ++ repeat (nzero (N:=RNum)) n)) in *.
  assert (EA : nth lm (A ++ B ++ C) 0 = nth lm [0; 0; 0; 1] 0).
  { etransitivity; [apply app_nth1; unfold A; rewrite Lf; exact Hlm|]. etransitivity; [apply Hf|]. rewrite RNum_zero, RNum_one. reflexivity. }
  assert (EB : nth (n + lm) (A ++ B ++ C) 0 = nth lm [0; 1; 0; 0] 0).
  { rewrite <- (Lf [nzero; nzero; nzero; none]) at 1. etransitivity; [apply app_nth2_plus|].
    etransitivity; [apply app_nth1; unfold B; rewrite Lf; exact Hlm|]. etransitivity; [apply Hf|]. rewrite RNum_zero, RNum_one. reflexivity. }
  assert (EC : nth (2 * n + lm) (A ++ B ++ C) 0 = nth lm [0; 0; 1; 0] 0).
  { rewrite app_assoc. replace (2 * n + lm)%nat with (length (A ++ B) + lm)%nat by (unfold A, B; rewrite app_length, !Lf; lia).
    etransitivity; [apply app_nth2_plus|]. etransitivity; [apply Hf|]. rewrite RNum_zero, RNum_one. reflexivity. }
  change (nth lm (A ++ B ++ C) 0) with (nth lm (A ++ B ++ C) 0).
  apply dlim_eq with (l := nth lm [0; 0; 0; 1] 0 * x' + nth lm [0; 1; 0; 0] 0 * y' + nth lm [0; 0; 1; 0] 0 * z').
  { rewrite <- EA, <- EB, <- EC. reflexivity. }
  apply dlim_ext with (f := fun s => nth lm [1; y s; z s; x s] 0).
  { intros s. symmetry. etransitivity; [apply Hf|]. rewrite RNum_one. reflexivity. }
  destruct lm as [|[|[|[|lm]]]]; cbn [nth].
  - eapply dlim_eq; [|apply dlim_const]. ring.
  - eapply dlim_eq; [|exact Hy]. ring.
  - eapply dlim_eq; [|exact Hz]. ring.
  - eapply dlim_eq; [|exact Hx]. ring.
  - apply dlim_ext with (f := fun _ => 0); [intros; destruct lm; reflexivity|]. eapply dlim_eq; [|apply dlim_const]. destruct lm; ring.
Qed.

Lemma ex_smooth : smooth_ok ex_file.
Proof.
  constructor; cbn [ex_file f_radial_spline_h f_A0_spline_h f_A1_spline_h f_A0_scaled f_A1_scaled f_has_zbl f_zbl_c f_zbl_p f_atomic_numbers f_zbl_covalent_radii].
  - rewrite RNum_one. lra.
  - intros _. rewrite RNum_one. lra.
  - intros _. rewrite RNum_one. lra.
  - intros _. split; [reflexivity|]. split; [lia|]. intros Z Z' r r' HZ HZ' E E'.
    assert (P : forall Z r, In Z [1; 2]%nat -> rd [nlit (n:=RNum) 1 5; nlit (n:=RNum) 1 3; nlit (n:=RNum) 1 2] Z = Some r -> 0 < r).
    { intros W s [<-|[<-|[]]] H; cbn in H; injection H as <-; lra. }
    pose proof (P _ _ HZ E). pose proof (P _ _ HZ' E'). lra.
Qed.

(** edge vectors of lengths 1, 3/2, 1, 1/2 and 3/2; 1 is a knot of all tables *)
Definition ex_xs : list R := [1/3; 2/3; -2/3;  9/10; 0; 6/5;  0; -1; 0;  3/10; 2/5; 0;  1; 1; 1/2].
Definition ex_xi : input RNum := ex_x 0 0.

Lemma ex_norm q : (q < 5)%nat -> sqrt (norm2 ex_xs q) = nth q [1; 3/2; 1; 1/2; 3/2] 0.
Proof.
  intros H. assert (E : norm2 ex_xs q = nth q [1; 3/2; 1; 1/2; 3/2] 0 * nth q [1; 3/2; 1; 1/2; 3/2] 0 /\ 0 <= nth q [1; 3/2; 1; 1/2; 3/2] 0).
  { destruct q as [|[|[|[|[|q]]]]]; [| | | | |lia]; unfold norm2, ex_xs; cbn [Nat.mul Nat.add nth]; lra. }
  rewrite (proj1 E). apply sqrt_square. apply E.
Qed.
Lemma ex_with : with_xyz ex_xi ex_xs = mkInput (N:=RNum) 3 [0; 1; 1]%nat [3; 1; 1]%nat [1; 2; 1; 0; 0]%nat [1; 1; 1; 0; 0]%nat ex_xs [1; 3/2; 1; 1/2; 3/2].
Proof.
  unfold with_xyz, ex_xi, ex_x. cbn [i_num_nodes i_node_types i_num_neigh i_neigh_indices i_neigh_types]. f_equal.
  change (list_sum [3; 1; 1]%nat) with 5%nat. cbn [seq map].
  rewrite !ex_norm by lia. reflexivity.
Qed.

Lemma ex_in_R r : 0 <= r < 3 -> ex_in (N:=RNum) r.
Proof.
  intros H. unfold ex_in. rewrite RNum_one. change (ntrunc (ndiv (n:=RNum) r 1)) with (Rtrunc (r / 1)).
  destruct (cell_exists 1 r ltac:(lra) ltac:(lra)) as (i & Hi). rewrite (trunc_cell 1 r i ltac:(lra) Hi).
  assert (L : (i < 3)%nat) by (apply (cell_lt 1 r i 3 ltac:(lra) Hi); cbn [INR]; lra). lia.
Qed.

Lemma ex_with_ok : input_ok ex_file (with_xyz ex_xi ex_xs).
Proof.
  rewrite ex_with. constructor; try reflexivity.
  - intros t H. cbn in H. cbn. lia.
  - intros t H. cbn in H. cbn. lia.
  - intros t H. cbn in H. cbn. lia.
  - intros r H. apply ex_domain. apply ex_in_R. cbn in H. destruct H as [<-|[<-|[<-|[<-|[<-|[]]]]]]; lra.
Qed.

Lemma dens_R (V D : nat -> nat -> list R) t u r i : let vs := V (Nat.min t u) (Nat.max t u) in let ds := D (Nat.min t u) (Nat.max t u) in
  length ds = length vs -> (i < length vs - 1)%nat -> INR i <= r < INR (i + 1) ->
  dens (N:=RNum) (none (N:=RNum)) V D t u r = Some (piece 1 (vfun (N:=RNum) vs) (vfun (N:=RNum) ds) i r).
Proof.
  intros vs ds L Hi Hr. unfold dens. fold vs ds.
  assert (E : make_spline (N:=RNum) (none (N:=RNum)) vs ds = Some (spl (N:=RNum) 1 vs ds)).
  { assert (L1 : (1 <= length vs)%nat) by lia. rewrite RNum_one. apply (make_spline_spec (N:=RNum)); [exact L1|exact L]. }
  rewrite E. cbn [bind]. rewrite (proj1 (spl_ret 1 vs ds r i ltac:(lra) ltac:(lra) Hi)). reflexivity.
Qed.

(** the densities of the three atoms, both layers *)
Ltac dens_at k := rewrite (fun V D t u r => dens_R V D t u r k); [|reflexivity|cbn; lia|cbn [INR Nat.add]; lra]; cbn [bind].
Ltac rho_nz := eexists; split; [reflexivity|];
  unfold piece, pval, hco, vfun, ex_D, tbl; rnum;
  cbn [Nat.min Nat.max Nat.mul Nat.add Nat.modulo Nat.divmod Nat.sub Nat.ltb Nat.leb map seq nth rd nth_error fst snd INR IZR];
  cbn [Z.of_nat Pos.of_succ_nat Pos.succ Z.sub Z.add Z.opp Z.pos_sub Pos.pred_double Z.pred_double Pos.sub]; lra.
Ltac rho_open := unfold density_sum;
  cbn [rd nth_error bind i_node_types i_num_neigh i_neigh_types i_r edge_pos firstn list_sum fold_right Nat.add seq fold_left].
Lemma ex_smooth_at : smooth_at ex_file ex_xi ex_xs.
Proof.
  constructor.
  - exact ex_with_ok.
  - intros q Hq E. change (list_sum (i_num_neigh ex_xi)) with 5%nat in Hq. pose proof (ex_norm q Hq) as H. rewrite E, sqrt_0 in H.
    destruct q as [|[|[|[|[|q]]]]]; [| | | | |lia]; cbn [nth] in H; lra.
  - intros _. exists (ex_D 0), (ex_D 1). split.
    + intros q t u H. destruct q as [|[|[|q]]]; try (injection H as <- <-; split; reflexivity). destruct q; discriminate H.
    + intros i Hi. rewrite ex_with in *. cbn [i_num_nodes] in Hi. destruct i as [|[|[|i]]]; [| | |lia]; rho_open.
      * dens_at 1%nat. dens_at 1%nat. rho_nz.
      * dens_at 0%nat. rho_nz.
      * dens_at 1%nat. rho_nz.
  - intros _. exists (ex_D 2), (ex_D 3). split.
    + intros q t u H. destruct q as [|[|[|q]]]; try (injection H as <- <-; split; reflexivity). destruct q; discriminate H.
    + intros i Hi. rewrite ex_with in *. cbn [i_num_nodes] in Hi. destruct i as [|[|[|i]]]; [| | |lia]; rho_open.
      * dens_at 1%nat. dens_at 1%nat. rho_nz.
      * dens_at 0%nat. rho_nz.
      * dens_at 1%nat. rho_nz.
Qed.
