(** Disconnected subsystems and isolated atoms. *)
From Coq Require Import List Arith ZArith Lia Bool Permutation.
From Verif Require Import Base BaseLemmas Segs MpModel MpSpec MpProofs MlpModel MaceModel Sys SysLoops
  MacePure MaceStages1 MacePipe MaceSpec MaceSpec2 MaceLoad MaceFlat MaceThms MaceBlock.
Import ListNotations.

Section Cat.
Context {N : Num}.

Definition shn (o : nat) (nd : node N) : node N := mkNode (n_type nd) (map (sh o) (n_edges nd)).

Lemma all_edges_app (s1 s2 : sys N) : all_edges (s1 ++ s2) = all_edges s1 ++ all_edges s2.
Proof. unfold all_edges. apply flat_map_app'. Qed.
Lemma all_edges_shn o (s : sys N) : all_edges (map (shn o) s) = map (sh o) (all_edges s).
Proof. unfold all_edges. rewrite flat_map_map, map_flat_map. reflexivity. Qed.

Lemma flat_cat (s1 s2 : sys N) : flat (s1 ++ map (shn (length s1)) s2) = cat_input (flat s1) (flat s2).
Proof.
  unfold flat, cat_input. cbn [i_num_nodes i_node_types i_num_neigh i_neigh_indices i_neigh_types i_xyz i_r].
  unfold f_node_types, f_num_neigh, f_neigh_indices, f_neigh_types, f_xyz, f_r.
  rewrite all_edges_app, all_edges_shn, app_length, map_length, !map_app, flat_map_app', flat_map_map, !map_map.
  f_equal. f_equal. apply map_ext. intros nd. cbn [shn n_edges]. apply map_length.
Qed.

Variable f : mace_file N.

Lemma cat_ok x y : input_ok f x -> input_ok f y -> input_ok f (cat_input x y).
Proof.
  intros [A1 A2 A3 A4 A5 A6 A7 A8 A9 A10] [B1 B2 B3 B4 B5 B6 B7 B8 B9 B10].
  unfold cat_input. constructor; cbn [i_num_nodes i_node_types i_num_neigh i_neigh_indices i_neigh_types i_xyz i_r];
    rewrite ?app_length, ?map_length, ?list_sum_app; try lia.
  - intros t H. apply in_app_or in H. destruct H; auto.
  - intros t H. apply in_app_or in H. destruct H; auto.
  - intros j H. apply in_app_or in H. destruct H as [H|H]; [specialize (A9 j H); lia|].
    apply in_map_iff in H. destruct H as (j' & <- & H). specialize (B9 j' H). lia.
  - intros r H. apply in_app_or in H. destruct H; auto.
Qed.

Lemma epairs_cat (s1 s2 : sys N) : epairs (s1 ++ map (shn (length s1)) s2) =
  epairs s1 ++ map (fun p => (length s1 + fst p, sh (length s1) (snd p))) (epairs s2).
Proof.
  unfold epairs. rewrite app_length, map_length, seq_app, flat_map_app'. f_equal.
  - apply flat_map_ext_in. intros i Hi. apply in_seq in Hi. f_equal. unfold es, nd_. rewrite app_nth1 by lia. reflexivity.
  - rewrite flat_map_seq_shift, map_flat_map. cbn [Nat.add]. apply flat_map_ext_in. intros i Hi. apply in_seq in Hi.
    unfold es, nd_. rewrite app_nth2_plus.
    rewrite (nth_indep _ _ (shn (length s1) (mkNode 0 []))) by (rewrite map_length; lia). rewrite map_nth. cbn [shn n_edges].
    rewrite !map_map. reflexivity.
Qed.

Variable sph : nat -> N -> N -> N -> list N * list N.
Hypothesis Hsph : sph_ok sph.
Variable srt : list (list (list nat)) -> list (list (list nat)).
Hypothesis Hsrt : forall l, Permutation l (srt l).
Hypothesis F : file_ok f.

Lemma lemma_C06 x y : input_ok f x -> input_ok f y ->
  exists m b0 b1 b2 b3, load_from_json srt f = Some (m, b0) /\
    call sph m b0 x = Some b1 /\ call sph m b0 y = Some b2 /\ call sph m b0 (cat_input x y) = Some b3 /\
    b_node_energies b3 = b_node_energies b1 ++ b_node_energies b2 /\
    b_node_forces b3 = b_node_forces b1 ++ b_node_forces b2.
Proof.
  intros Hx Hy. destruct (load_ok srt Hsrt f F) as (b0 & E & L).
  pose proof (flat_sys_of f x Hx) as Ex. pose proof (flat_sys_of f y Hy) as Ey.
  set (s1 := sys_of x) in *. set (s2 := sys_of y) in *.
  pose proof (cat_ok x y Hx Hy) as Hc.
  assert (Hx' : input_ok f (flat s1)) by (rewrite Ex; exact Hx).
  assert (Hy' : input_ok f (flat s2)) by (rewrite Ey; exact Hy).
  assert (Ec : cat_input x y = flat (s1 ++ map (shn (length s1)) s2)) by (rewrite flat_cat, Ex, Ey; reflexivity).
  assert (Hc' : input_ok f (flat (s1 ++ map (shn (length s1)) s2))) by (rewrite <- Ec; exact Hc).
  destruct (call_flat sph Hsph srt f F b0 s1 L Hx') as (b1 & E1 & _ & A1 & B1).
  destruct (call_flat sph Hsph srt f F b0 s2 L Hy') as (b2 & E2 & _ & A2 & B2).
  destruct (call_flat sph Hsph srt f F b0 _ L Hc') as (b3 & E3 & _ & A3 & B3).
  rewrite Ex in E1. rewrite Ey in E2. rewrite <- Ec in E3.
  exists (ldm f), b0, b1, b2, b3. do 4 (split; [assumption|]). rewrite A1, A2, A3, B1, B2, B3. clear - Hx' Hy' Hc' F.
  pose proof (ld_sys_wf f F s1 Hx') as W1. pose proof (ld_sys_wf f F s2 Hy') as W2. pose proof (ld_sys_wf f F _ Hc') as W3.
  set (s := s1 ++ map (shn (length s1)) s2) in *.
  assert (Ls : length s = length s1 + length s2) by (unfold s; rewrite app_length, map_length; auto).
  assert (Hes1 : forall i, i < length s1 -> nd_ s i = nd_ s1 i).
  { intros i Hi. unfold nd_, s. rewrite app_nth1 by auto. reflexivity. }
  assert (Hes2 : forall i, i < length s2 -> nd_ s (length s1 + i) = shn (length s1) (nd_ s2 i)).
  { intros i Hi. unfold nd_, s. rewrite app_nth2_plus.
    rewrite (nth_indep _ _ (shn (length s1) (mkNode 0 []))) by (rewrite map_length; lia). apply map_nth. }
  assert (Sid : forall e : edge N, sh 0 e = e) by (intros []; reflexivity).
  assert (Out1 : forall i e, i < length s -> i < 0 \/ 0 + length s1 <= i -> In e (es s i) -> e_idx e < 0 \/ 0 + length s1 <= e_idx e).
  { intros i e Hi [Ho|Ho] He; [lia|]. replace i with (length s1 + (i - length s1)) in He by lia.
    unfold es in He. rewrite Hes2 in He by lia. cbn [shn n_edges] in He. apply in_map_iff in He.
    destruct He as (e' & <- & _). cbn [sh e_idx]. lia. }
  assert (Out2 : forall i e, i < length s -> i < length s1 \/ length s1 + length s2 <= i -> In e (es s i) ->
     e_idx e < length s1 \/ length s1 + length s2 <= e_idx e).
  { intros i e Hi [Ho|Ho] He; [|lia]. left. unfold es in He. rewrite Hes1 in He by lia. apply (sw_idx _ _ _ W1 i e Ho He). }
  assert (Q1 : forall i, i < length s1 -> es s (0 + i) = map (sh 0) (es s1 i)).
  { intros i Hi. cbn [Nat.add]. unfold es. rewrite Hes1 by auto. rewrite (map_ext _ (fun e => e) Sid), map_id. reflexivity. }
  assert (Q2 : forall i, i < length s2 -> es s (length s1 + i) = map (sh (length s1)) (es s2 i)).
  { intros i Hi. unfold es. rewrite Hes2 by auto. reflexivity. }
  assert (T1 : forall i, i < length s1 -> ty s (0 + i) = ty s1 i) by (intros i Hi; unfold ty; cbn [Nat.add]; rewrite Hes1; auto).
  assert (T2 : forall i, i < length s2 -> ty s (length s1 + i) = ty s2 i) by (intros i Hi; unfold ty; rewrite Hes2; auto).
  split.
  - rewrite Ls. unfold tab. rewrite seq_app, map_app. f_equal.
    + apply map_ext_in. intros i Hi. apply in_seq in Hi. unfold resE.
      apply (pE_b sph (ldm f) (ldp0 srt f) (ldp1 srt f) (ldfe f) s1 s 0); auto; try lia. apply (sw_idx _ _ _ W1).
    + cbn [Nat.add]. rewrite <- (Nat.add_0_r (length s1)) at 1.
      assert (G : forall a n, map (resE sph srt f s) (seq (length s1 + a) n) = map (fun i => resE sph srt f s (length s1 + i)) (seq a n)).
      { intros a n; revert a; induction n; intros a; simpl; auto. f_equal. rewrite <- IHn. f_equal. f_equal. lia. }
      rewrite G. apply map_ext_in. intros i Hi. apply in_seq in Hi. unfold resE.
      apply (pE_b sph (ldm f) (ldp0 srt f) (ldp1 srt f) (ldfe f) s2 s (length s1)); auto; try lia. apply (sw_idx _ _ _ W2).
  - unfold eb. unfold s at 2. rewrite epairs_cat, flat_map_app', flat_map_map. f_equal.
    + apply flat_map_ext_in. intros [i e] Hie. apply in_epairs in Hie. cbn [fst snd]. apply tab_ext. intros a Ha.
      unfold resF. rewrite <- (Sid e) at 1.
      apply (pF_b sph (ldm f) (ld_wf f F) (ldp0 srt f) (ldp1 srt f) (ldfg f) s1 s 0); auto; try lia; try apply Hie.
      * apply (sw_idx _ _ _ W1).
      * apply (sw_idx _ _ _ W3).
    + apply flat_map_ext_in. intros [i e] Hie. apply in_epairs in Hie. cbn [fst snd]. apply tab_ext. intros a Ha.
      unfold resF.
      apply (pF_b sph (ldm f) (ld_wf f F) (ldp0 srt f) (ldp1 srt f) (ldfg f) s2 s (length s1)); auto; try lia; try apply Hie.
      * apply (sw_idx _ _ _ W2).
      * apply (sw_idx _ _ _ W3).
Qed.

Lemma single_ok t : t < length (f_atomic_numbers f) -> input_ok f (single_input t).
Proof.
  intros Ht. constructor; cbn; auto; try (intros ? []; fail); try tauto. intros u [<-|[]]. auto.
Qed.

Lemma lemma_C09 x i t : input_ok f x -> rd (i_node_types x) i = Some t -> rd (i_num_neigh x) i = Some 0 ->
  exists m b0 b1 b2 v, load_from_json srt f = Some (m, b0) /\
    call sph m b0 x = Some b1 /\ call sph m b0 (single_input t) = Some b2 /\
    rd (b_node_energies b1) i = Some v /\ b_node_energies b2 = [v].
Proof.
  intros Hx Ht Hn. destruct (load_ok srt Hsrt f F) as (b0 & E & L).
  pose proof (flat_sys_of f x Hx) as Ex. set (s := sys_of x) in *.
  assert (Hx' : input_ok f (flat s)) by (rewrite Ex; exact Hx).
  assert (HtT : t < length (f_atomic_numbers f)) by (apply (io_ty _ _ Hx); eapply nth_error_In; exact Ht).
  pose proof (single_ok t HtT) as H1. change (single_input t) with (@flat N [mkNode t []]) in *.
  destruct (call_flat sph Hsph srt f F b0 s L Hx') as (b1 & E1 & _ & A1 & _).
  destruct (call_flat sph Hsph srt f F b0 _ L H1) as (b2 & E2 & _ & A2 & _).
  rewrite Ex in E1. exists (ldm f), b0, b1, b2, (resE sph srt f [mkNode t []] 0).
  do 3 (split; [assumption|]). rewrite A1, A2.
  rewrite <- Ex in Ht, Hn. cbn [flat i_node_types i_num_neigh i_neigh_indices] in Ht, Hn.
  assert (Hs : i < length s) by (apply rd_lt in Ht; unfold f_node_types in Ht; rewrite map_length in Ht; exact Ht).
  split; [|reflexivity]. rewrite rd_tab by auto. f_equal. unfold resE.
  rewrite (rd_ty s i Hs) in Ht. injection Ht as Ht. rewrite (rd_nn s i Hs) in Hn. injection Hn as Hn.
  replace i with (i + 0) by lia.
  apply (pE_b sph (ldm f) (ldp0 srt f) (ldp1 srt f) (ldfe f) [mkNode t []] s i); cbn [length].
  - intros j Hj. replace j with 0 by lia. rewrite Nat.add_0_r. exact Ht.
  - intros j Hj. replace j with 0 by lia. rewrite Nat.add_0_r. cbn. destruct (es s i); [reflexivity|discriminate].
  - intros j e Hj. replace j with 0 by lia. intros [].
  - lia.
Qed.
End Cat.
