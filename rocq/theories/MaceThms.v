(** Consequences of the refinement for whole calls: history independence, safety. *)
From Coq Require Import List Arith ZArith Lia Bool Permutation.
From Verif Require Import Base BaseLemmas Segs MpModel MpSpec MpProofs MlpModel MaceModel Sys SysLoops
  MacePure MaceStages1 MacePipe MaceSpec MaceLoad MaceFlat.
Import ListNotations.

Section Thms.
Context {N : Num}.
Variable sph : nat -> N -> N -> N -> list N * list N.
Hypothesis Hsph : sph_ok sph.
Variable srt : list (list (list nat)) -> list (list (list nat)).
Hypothesis Hsrt : forall l, Permutation l (srt l).
Variable f : mace_file N.
Hypothesis F : file_ok f.

Notation live b := (bufs_live (ldm f) (ldp0 srt f) (ldp1 srt f) (ldlive f) b).
Definition resE (s : sys N) : nat -> N := pE sph (ldm f) (ldp0 srt f) (ldp1 srt f) (ldfe f) s.
Definition resF (s : sys N) : nat -> edge N -> nat -> N :=
  pF sph (ldm f) (ldp0 srt f) (ldp1 srt f) (ldfg f) s.

Lemma call_flat b s : live b -> input_ok f (flat s) -> exists b', call sph (ldm f) b (flat s) = Some b' /\ live b' /\
  b_node_energies b' = tab (length s) (resE s) /\ b_node_forces b' = eb s 3 (resF s).
Proof.
  intros Hb Hx. unfold call, flat. cbn [i_num_nodes i_node_types i_num_neigh i_neigh_indices i_neigh_types i_xyz i_r].
  apply (pipeline_ok sph Hsph (ldm f) (ldp0 srt f) (ldp1 srt f) (ldlive f) (ldfe f) (ldfg f) s
    (ld_wf f F) (ld_zbl f F) (ld_sys_wf f F s Hx) (ld_ro f F) b Hb).
Qed.

Lemma call_ok b x : live b -> input_ok f x -> exists b', call sph (ldm f) b x = Some b' /\ live b' /\
  b_node_energies b' = tab (i_num_nodes x) (resE (sys_of x)) /\ b_node_forces b' = eb (sys_of x) 3 (resF (sys_of x)).
Proof.
  intros Hb Hx. pose proof (flat_sys_of f x Hx) as E.
  assert (Hx' : input_ok f (flat (sys_of x))) by (rewrite E; exact Hx).
  destruct (call_flat b (sys_of x) Hb Hx') as (b' & H1 & H2 & H3 & H4).
  rewrite E in H1. exists b'. repeat split; auto; try apply H2. rewrite H3. f_equal. rewrite <- E at 2. reflexivity.
Qed.

Lemma calls_ok b xs : live b -> Forall (input_ok f) xs -> exists b', calls sph (ldm f) b xs = Some b' /\ live b'.
Proof.
  intros Hb Hx. revert b Hb. induction Hx as [|x xs Hx Hxs IH]; intros b Hb; cbn [calls].
  - eauto.
  - destruct (call_ok b x Hb Hx) as (b' & -> & Hb' & _). cbn [bind]. auto.
Qed.

Lemma lemma_C04 hist x : Forall (input_ok f) hist -> input_ok f x ->
  exists m b0 b1 b2 b3, load_from_json srt f = Some (m, b0) /\
    calls sph m b0 hist = Some b1 /\ call sph m b1 x = Some b2 /\ call sph m b0 x = Some b3 /\
    b_node_energies b2 = b_node_energies b3 /\ b_node_forces b2 = b_node_forces b3.
Proof.
  intros Hh Hx. destruct (load_ok srt Hsrt f F) as (b0 & E & L).
  destruct (calls_ok b0 hist L Hh) as (b1 & E1 & L1).
  destruct (call_ok b1 x L1 Hx) as (b2 & E2 & _ & A2 & B2).
  destruct (call_ok b0 x L Hx) as (b3 & E3 & _ & A3 & B3).
  exists (ldm f), b0, b1, b2, b3. repeat split; auto; congruence.
Qed.

(** the same polynomial object with other scratch vectors of sufficient length *)
Lemma lemma_C04_buffers m b0 b x : load_from_json srt f = Some (m, b0) -> input_ok f x ->
  b_P0 b = b_P0 b0 -> b_P1 b = b_P1 b0 -> b_readout_2 b = b_readout_2 b0 ->
  exists b1 b2, call sph m b0 x = Some b1 /\ call sph m b x = Some b2 /\
    b_node_energies b2 = b_node_energies b1 /\ b_node_forces b2 = b_node_forces b1.
Proof.
  intros E0 Hx H1 H2 H3. destruct (load_ok srt Hsrt f F) as (b0' & E & L). rewrite E0 in E. injection E as -> <-.
  assert (L' : live b).
  { destruct L as (L1 & L2 & L3). unfold bufs_live. rewrite H1, H2, H3. auto. }
  destruct (call_ok b0 x L Hx) as (b1 & E1 & _ & A1 & B1).
  destruct (call_ok b x L' Hx) as (b2 & E2 & _ & A2 & B2).
  exists b1, b2. repeat split; auto; congruence.
Qed.

Lemma length_xyz_flat s : length (f_xyz s) = length (@epairs N s) * 3.
Proof. apply length_xyz. Qed.

Lemma lemma_C05 hist x : Forall (input_ok f) hist -> input_ok f x ->
  exists m b0 b1 b2, load_from_json srt f = Some (m, b0) /\
    calls sph m b0 hist = Some b1 /\ call sph m b1 x = Some b2 /\
    length (b_node_energies b2) = i_num_nodes x /\ length (b_node_forces b2) = length (i_xyz x).
Proof.
  intros Hh Hx. destruct (load_ok srt Hsrt f F) as (b0 & E & L).
  destruct (calls_ok b0 hist L Hh) as (b1 & E1 & L1).
  destruct (call_ok b1 x L1 Hx) as (b2 & E2 & _ & A2 & B2).
  exists (ldm f), b0, b1, b2. repeat split; auto.
  - rewrite A2. apply length_tab.
  - rewrite B2, length_eb. rewrite <- (flat_sys_of f x Hx) at 2. cbn [i_xyz flat]. symmetry. apply length_xyz.
Qed.

End Thms.
