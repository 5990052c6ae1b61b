(** Properties C85 and C86: renumbered systems and supercells. *)
From Coq Require Import List Arith ZArith Permutation Reals Lra Lia.
From Verif Require Import Base BaseLemmas Instances MpSpec MaceModel MaceSpec MaceSpec2 MaceExamples MaceGradSpec GradExamples ExportPolySpec EnergySpec CoverSpec Cover CoverForces.
Import ListNotations.
Local Open Scope R_scope.

(** C85: if an input x' covers an input x (renumbered nodes, reordered neighbours, a supercell, several copies), with the vectors and lengths of x copied to
    the edges of x', then the energy of every node of x' is the energy of the node of x it stands for, after any sequence of earlier calls. *)
Theorem C85_cover_energies : forall sph, sph_ok (N:=RNum) sph -> forall srt, (forall l, Permutation l (srt l)) ->
  forall f : mace_file RNum, file_ok f -> monomials_once f ->
  f_radial_spline_h f <> 0 -> (f_A0_scaled f = true -> f_A0_spline_h f <> 0) -> (f_A1_scaled f = true -> f_A1_spline_h f <> 0) ->
  forall hist x x' sg ep, List.Forall (input_ok f) hist -> input_ok f x -> covers sg ep x' x ->
  i_xyz x' = lift3 ep (list_sum (i_num_neigh x')) (i_xyz x) -> i_r x' = lift1 ep (list_sum (i_num_neigh x')) (i_r x) ->
  exists m b0 bh b b', load_from_json srt f = Some (m, b0) /\ calls sph m b0 hist = Some bh /\ call sph m bh x = Some b /\ call sph m bh x' = Some b' /\
    b_node_energies b' = map (fun i => nth (sg i) (b_node_energies b) 0) (seq 0 (i_num_nodes x')).
Proof. exact lemma_C85. Qed.
Print Assumptions C85_cover_energies.

(** C86, numbering: if every node has exactly one node above it, the edge forces are those of the original system, reordered. *)
Theorem C86_renumbering : forall sph, sph_ok (N:=RNum) sph -> sph_gradient sph -> forall srt, (forall l, Permutation l (srt l)) ->
  forall f : mace_file RNum, file_ok f -> smooth_ok f -> monomials_once f ->
  forall hist x x' xs sg ep, List.Forall (input_ok f) hist -> covers sg ep x' x -> fold_of sg (i_num_nodes x') (i_num_nodes x) 1 -> smooth_at f x xs ->
  exists m b0 bh b b', load_from_json srt f = Some (m, b0) /\ calls sph m b0 hist = Some bh /\
    call sph m bh (with_xyz x xs) = Some b /\ call sph m bh (with_xyz x' (lift3 ep (list_sum (i_num_neigh x')) xs)) = Some b' /\
    b_node_energies b' = map (fun i => nth (sg i) (b_node_energies b) 0) (seq 0 (i_num_nodes x')) /\ b_node_forces b' = lift3 ep (list_sum (i_num_neigh x')) (b_node_forces b).
Proof. exact lemma_C86_renumber. Qed.
Print Assumptions C86_renumbering.

(** C86, any k-fold covering: the total energy is k times the energy, and the forces on the edges above an edge add up to k times the force on it. *)
Theorem C86_fold_forces : forall sph, sph_ok (N:=RNum) sph -> sph_gradient sph -> forall srt, (forall l, Permutation l (srt l)) ->
  forall f : mace_file RNum, file_ok f -> smooth_ok f -> monomials_once f ->
  forall hist x x' xs sg ep k, List.Forall (input_ok f) hist -> covers sg ep x' x -> fold_of sg (i_num_nodes x') (i_num_nodes x) k -> smooth_at f x xs ->
  exists m b0 bh b b', load_from_json srt f = Some (m, b0) /\ calls sph m b0 hist = Some bh /\
    call sph m bh (with_xyz x xs) = Some b /\ call sph m bh (with_xyz x' (lift3 ep (list_sum (i_num_neigh x')) xs)) = Some b' /\
    total (b_node_energies b') = INR k * total (b_node_energies b) /\
    length (b_node_forces b) = (3 * list_sum (i_num_neigh x))%nat /\ length (b_node_forces b') = (3 * list_sum (i_num_neigh x'))%nat /\
    forall p c, (p < list_sum (i_num_neigh x))%nat -> (c < 3)%nat ->
      sum (list_sum (i_num_neigh x')) (fun q => if (ep q =? p)%nat then nth (3 * q + c) (b_node_forces b') 0 else 0) = INR k * nth (3 * p + c) (b_node_forces b) 0.
Proof. exact lemma_C86_sum. Qed.
Print Assumptions C86_fold_forces.

(** C86, supercells: if the symmetries of the covering system carry the edges above an edge into each other, every edge has the force of the edge below it. *)
Theorem C86_supercell : forall sph, sph_ok (N:=RNum) sph -> sph_gradient sph -> forall srt, (forall l, Permutation l (srt l)) ->
  forall f : mace_file RNum, file_ok f -> smooth_ok f -> monomials_once f ->
  forall hist x x' xs sg ep k, List.Forall (input_ok f) hist -> covers sg ep x' x -> fold_of sg (i_num_nodes x') (i_num_nodes x) k -> translations ep x' -> smooth_at f x xs ->
  exists m b0 bh b b', load_from_json srt f = Some (m, b0) /\ calls sph m b0 hist = Some bh /\
    call sph m bh (with_xyz x xs) = Some b /\ call sph m bh (with_xyz x' (lift3 ep (list_sum (i_num_neigh x')) xs)) = Some b' /\
    total (b_node_energies b') = INR k * total (b_node_energies b) /\ b_node_forces b' = lift3 ep (list_sum (i_num_neigh x')) (b_node_forces b).
Proof. exact lemma_C86_supercell. Qed.
Print Assumptions C86_supercell.

Lemma one_ne : none (N:=RNum) <> 0.
Proof. rewrite RNum_one. lra. Qed.
Lemma ex_once : monomials_once ex_file.
Proof.
  split.
  - intros lm Hlm. change (lm < 4)%nat in Hlm. change (NoDup (ex_monos lm)). unfold ex_monos.
    destruct lm as [|[|[|[|lm]]]]; [| | | |lia]; repeat constructor; cbn; intuition discriminate.
  - change (NoDup (ex_monos 3)). repeat constructor; cbn; intuition discriminate.
Qed.
Ltac small i := repeat (first [exfalso; cbn in *; lia | destruct i as [|i]; [first [reflexivity | cbn; lia]|]]).

(** three atoms in reverse order, the neighbours of the last one also reordered *)
Definition ren_x : input RNum := mkInput (N:=RNum) 3 [1; 1; 0]%nat [1; 1; 3]%nat [2; 2; 1; 1; 0]%nat [0; 0; 1; 1; 1]%nat [] [].
Definition ren_sg (i : nat) : nat := 2 - i.
Definition ren_ep (p : nat) : nat := nth p [4; 3; 2; 0; 1]%nat 0%nat.
Lemma ren_covers : covers ren_sg ren_ep ren_x ex_xi.
Proof.
  constructor; try reflexivity.
  - intros j H. cbn in *. lia.
  - intros i Hi. change (ren_sg i < 3)%nat. unfold ren_sg. lia.
  - intros i Hi. small i.
  - intros i Hi. destruct i as [|[|[|i]]]; [reflexivity|reflexivity| |cbn in Hi; lia]. cbn.
    apply (perm_trans (perm_swap 0 2 [1])%nat). apply perm_skip. apply perm_swap.
  - intros i Hi. small i.
  - intros i Hi. small i.
Qed.
Example C86_renumbering_example : exists m b0 b b', load_from_json (fun l => l) ex_file = Some (m, b0) /\
  call (ex_sph (N:=RNum)) m b0 (with_xyz ex_xi ex_xs) = Some b /\ call (ex_sph (N:=RNum)) m b0 (with_xyz ren_x (lift3 ren_ep 5 ex_xs)) = Some b' /\
  b_node_energies b' = [nth 2 (b_node_energies b) 0; nth 1 (b_node_energies b) 0; nth 0 (b_node_energies b) 0] /\ nth 2 (b_node_forces b') 0 = nth 14 (b_node_forces b) 0.
Proof.
  destruct (C86_renumbering (ex_sph (N:=RNum)) ex_sph_ok ex_sph_gradient (fun l => l) (fun l => Permutation_refl l) ex_file ex_file_ok ex_smooth ex_once
    [] ex_xi ren_x ex_xs ren_sg ren_ep (Forall_nil _) ren_covers) as (m & b0 & bh & b & b' & E1 & E2 & E3 & E4 & E5 & E6).
  - intros j Hj. small j.
  - exact ex_smooth_at.
  - injection E2 as <-. exists m, b0, b, b'. split; [exact E1|]. split; [exact E3|]. split; [exact E4|]. split; [exact E5|]. rewrite E6. reflexivity.
Qed.

(** two copies of the three atoms, the third edge of the first atom leading into the other copy *)
Definition sup_x : input RNum := mkInput (N:=RNum) 6 [0; 1; 1; 0; 1; 1]%nat [3; 1; 1; 3; 1; 1]%nat [1; 2; 4; 0; 0; 4; 5; 1; 3; 3]%nat [1; 1; 1; 0; 0; 1; 1; 1; 0; 0]%nat [] [].
Definition sup_sg (i : nat) : nat := nth i [0; 1; 2; 0; 1; 2]%nat 0%nat.
Definition sup_ep (p : nat) : nat := nth p [0; 1; 2; 3; 4; 0; 1; 2; 3; 4]%nat 0%nat.
Lemma sup_covers : covers sup_sg sup_ep sup_x ex_xi.
Proof.
  constructor; try reflexivity.
  - intros j H. cbn in *. lia.
  - intros i Hi. small i.
  - intros i Hi. small i.
  - intros i Hi. small i.
  - intros i Hi. small i.
  - intros i Hi. small i.
Qed.
Definition sup_tau (i : nat) : nat := nth i [3; 4; 5; 0; 1; 2]%nat 0%nat.
Definition sup_te (p : nat) : nat := nth p [5; 6; 7; 8; 9; 0; 1; 2; 3; 4]%nat 0%nat.
Lemma sup_move : covers sup_tau sup_te sup_x sup_x.
Proof.
  constructor; try reflexivity.
  - intros j H. cbn in *. lia.
  - intros i Hi. small i.
  - intros i Hi. small i.
  - intros i Hi. small i.
  - intros i Hi. small i.
  - intros i Hi. small i.
Qed.
Lemma sup_id : covers (fun i => i) (fun p => p) sup_x sup_x.
Proof.
  constructor; try reflexivity.
  - intros j H. cbn in *. lia.
  - intros i Hi. exact Hi.
  - intros i Hi. rewrite map_id. apply Permutation_refl.
Qed.
Lemma sup_translations : translations sup_ep sup_x.
Proof.
  intros q q1 Hq Hq1 E. destruct (Nat.eq_dec q q1) as [->|Ne].
  - exists (fun i => i), (fun p => p). split; [exact sup_id|]. split; [|split; reflexivity]. intros j Hj. small j.
  - exists sup_tau, sup_te. split; [exact sup_move|]. split; [intros j Hj; small j|]. split; [intros j Hj; small j|].
    change (q < 10)%nat in Hq. change (q1 < 10)%nat in Hq1.
    do 10 (destruct q as [|q]; [do 10 (destruct q1 as [|q1]; [first [reflexivity | discriminate E | lia]|]); lia|]). lia.
Qed.
Example C85_example : exists m b0 bh b b', load_from_json (fun l => l) ex_file = Some (m, b0) /\ calls (ex_sph (N:=RNum)) m b0 [with_xyz ex_xi ex_xs] = Some bh /\
  call (ex_sph (N:=RNum)) m bh (with_xyz ex_xi ex_xs) = Some b /\ call (ex_sph (N:=RNum)) m bh (with_xyz sup_x (lift3 sup_ep 10 ex_xs)) = Some b' /\
  b_node_energies b' = map (fun i => nth (sup_sg i) (b_node_energies b) 0) (seq 0 6).
Proof.
  apply (C85_cover_energies (ex_sph (N:=RNum)) ex_sph_ok (fun l => l) (fun l => Permutation_refl l) ex_file ex_file_ok ex_once one_ne (fun _ => one_ne) (fun _ => one_ne)
    [with_xyz ex_xi ex_xs] (with_xyz ex_xi ex_xs) (with_xyz sup_x (lift3 sup_ep 10 ex_xs)) sup_sg sup_ep).
  - constructor; [exact ex_with_ok|constructor].
  - exact ex_with_ok.
  - apply covers_with. exact sup_covers.
  - reflexivity.
  - apply (r_with sup_sg sup_ep sup_x ex_xi ex_xs sup_covers). reflexivity.
Qed.
Example C86_supercell_example : exists m b0 b b', load_from_json (fun l => l) ex_file = Some (m, b0) /\
  call (ex_sph (N:=RNum)) m b0 (with_xyz ex_xi ex_xs) = Some b /\ call (ex_sph (N:=RNum)) m b0 (with_xyz sup_x (lift3 sup_ep 10 ex_xs)) = Some b' /\
  total (b_node_energies b') = 2 * total (b_node_energies b) /\ b_node_forces b' = lift3 sup_ep 10 (b_node_forces b).
Proof.
  destruct (C86_supercell (ex_sph (N:=RNum)) ex_sph_ok ex_sph_gradient (fun l => l) (fun l => Permutation_refl l) ex_file ex_file_ok ex_smooth ex_once
    [] ex_xi sup_x ex_xs sup_sg sup_ep 2%nat (Forall_nil _) sup_covers) as (m & b0 & bh & b & b' & E1 & E2 & E3 & E4 & E5 & E6).
  - intros j Hj. small j.
  - exact sup_translations.
  - exact ex_smooth_at.
  - injection E2 as <-. exists m, b0, b, b'. split; [exact E1|]. split; [exact E3|]. split; [exact E4|]. split; [|exact E6]. rewrite E5. cbn [INR]. ring.
Qed.
Example C86_fold_example : exists m b0 b b', load_from_json (fun l => l) ex_file = Some (m, b0) /\
  call (ex_sph (N:=RNum)) m b0 (with_xyz ex_xi ex_xs) = Some b /\ call (ex_sph (N:=RNum)) m b0 (with_xyz sup_x (lift3 sup_ep 10 ex_xs)) = Some b' /\
  nth 7 (b_node_forces b') 0 + nth 22 (b_node_forces b') 0 = 2 * nth 7 (b_node_forces b) 0.
Proof.
  destruct (C86_fold_forces (ex_sph (N:=RNum)) ex_sph_ok ex_sph_gradient (fun l => l) (fun l => Permutation_refl l) ex_file ex_file_ok ex_smooth ex_once
    [] ex_xi sup_x ex_xs sup_sg sup_ep 2%nat (Forall_nil _) sup_covers) as (m & b0 & bh & b & b' & E1 & E2 & E3 & E4 & E5 & _ & _ & E6).
  - intros j Hj. small j.
  - exact ex_smooth_at.
  - injection E2 as <-. exists m, b0, b, b'. split; [exact E1|]. split; [exact E3|]. split; [exact E4|].
    assert (H : (2 < 5)%nat /\ (1 < 3)%nat) by lia. pose proof (E6 2%nat 1%nat (proj1 H) (proj2 H)) as Q. unfold sum in Q. cbn in Q. change (carrier RNum) with R in *. lra.
Qed.
