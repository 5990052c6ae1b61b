(** Data for the examples beside the ASE properties: three atoms in a cell that is periodic along x with length 6/5.
    Atom 0 sees atom 1 twice (once through the boundary), atom 2, and its own two images. *)
From Coq Require Import List Arith ZArith Reals Lia Lra Sorted.
From Verif Require Import Base BaseLemmas Instances RSums SplineModel SplineProofs SplineR MaceModel MaceSpec MaceSpec2 ExportSpec MaceExamples
  MaceGradSpec GradExamples AseModel AseSpec.
Import ListNotations.
Local Open Scope R_scope.

Definition ax_numbers : list nat := [1; 2; 2]%nat.
Definition ax_types : list nat := [0; 1; 1]%nat.
Definition ax_il : list nat := [0; 0; 0; 0; 0; 1; 1; 2]%nat.
Definition ax_jl : list nat := [1; 2; 1; 0; 0; 0; 0; 0]%nat.
Definition ax_pos : list R := [0; 0; 0;  3/5; 4/5; 0;  0; 0; 3/2].
Definition ax_sh : list R := [0; 0; 0;  0; 0; 0;  -6/5; 0; 0;  6/5; 0; 0;  -6/5; 0; 0;  0; 0; 0;  6/5; 0; 0;  0; 0; 0].
Definition ax_D : list R := nl_vectors ax_il ax_jl ax_pos ax_sh.
Definition ax_r : list R := [1; 3/2; 1; 6/5; 6/5; 1; 1; 3/2].
Definition ax_x : input RNum := nl_input (N:=RNum) 3 ax_types ax_il ax_jl [] [].

Lemma ax_species : species_map [1; 2]%nat ax_numbers ax_types.
Proof.
  split; [reflexivity|]. intros a Z t H1 H2.
  destruct a as [|[|[|a]]]; [| | |destruct a; discriminate H1]; injection H1 as <-; injection H2 as <-; split; try reflexivity; intros t' Ht'.
  - lia.
  - replace t' with 0%nat by lia. discriminate.
  - replace t' with 0%nat by lia. discriminate.
Qed.
Lemma ax_nl : nl_ok 3 ax_il ax_jl.
Proof.
  constructor.
  - reflexivity.
  - intros i H. cbn in H. lia.
  - unfold ax_il. repeat constructor; lia.
  - intros a. destruct a as [|[|[|a]]]; reflexivity.
Qed.
Lemma ax_norm q : (q < 8)%nat -> sqrt (norm2 ax_D q) = nth q ax_r 0.
Proof.
  intros H. assert (E : norm2 ax_D q = nth q ax_r 0 * nth q ax_r 0 /\ 0 <= nth q ax_r 0).
  { unfold ax_D, nl_vectors, ax_il, ax_jl, ax_pos, ax_sh, ax_r.
    destruct q as [|[|[|[|[|[|[|[|q]]]]]]]]; [| | | | | | | |lia]; unfold norm2; cbn [length seq flat_map map app Nat.mul Nat.add nth]; lra. }
  rewrite (proj1 E). apply sqrt_square. apply E.
Qed.
Lemma ax_with : with_xyz ax_x ax_D = mkInput (N:=RNum) 3 [0; 1; 1]%nat [5; 2; 1]%nat ax_jl [1; 1; 1; 0; 0; 0; 0; 0]%nat ax_D ax_r.
Proof.
  unfold with_xyz, ax_x, nl_input. cbn [i_num_nodes i_node_types i_num_neigh i_neigh_indices i_neigh_types]. f_equal.
  change (list_sum (map (count_occ Nat.eq_dec ax_il) (seq 0 3))) with 8%nat. cbn [seq map].
  rewrite !ax_norm by lia. reflexivity.
Qed.
Lemma ax_with_ok : input_ok ex_file (with_xyz ax_x ax_D).
Proof.
  rewrite ax_with. constructor; try reflexivity.
  - intros t H. cbn in H. cbn. lia.
  - intros t H. cbn in H. cbn. lia.
  - intros t H. cbn in H. cbn. lia.
  - intros r H. apply ex_domain. apply ex_in_R. cbn in H. intuition (subst; lra).
Qed.
Lemma ax_smooth_at : smooth_at ex_file ax_x ax_D.
Proof.
  constructor.
  - exact ax_with_ok.
  - intros q Hq E. change (list_sum (i_num_neigh ax_x)) with 8%nat in Hq. pose proof (ax_norm q Hq) as H. rewrite E, sqrt_0 in H. unfold ax_r in H.
    destruct q as [|[|[|[|[|[|[|[|q]]]]]]]]; [| | | | | | | |lia]; cbn [nth] in H; lra.
  - intros _. exists (ex_D 0), (ex_D 1). split.
    + intros q t u H. destruct q as [|[|[|q]]]; try (injection H as <- <-; split; reflexivity). destruct q; discriminate H.
    + intros i Hi. rewrite ax_with in *. cbn [i_num_nodes] in Hi. unfold ax_r. destruct i as [|[|[|i]]]; [| | |lia]; rho_open.
      * dens_at 1%nat. dens_at 1%nat. dens_at 1%nat. rho_nz.
      * dens_at 1%nat. rho_nz.
      * dens_at 1%nat. rho_nz.
  - intros _. exists (ex_D 2), (ex_D 3). split.
    + intros q t u H. destruct q as [|[|[|q]]]; try (injection H as <- <-; split; reflexivity). destruct q; discriminate H.
    + intros i Hi. rewrite ax_with in *. cbn [i_num_nodes] in Hi. unfold ax_r. destruct i as [|[|[|i]]]; [| | |lia]; rho_open.
      * dens_at 1%nat. dens_at 1%nat. dens_at 1%nat. rho_nz.
      * dens_at 1%nat. rho_nz.
      * dens_at 1%nat. rho_nz.
Qed.
