(** Data for the examples beside the properties of the Kokkos pair style: the atoms of PairExamples.v, the list being in the order of the atoms. *)
From Coq Require Import String List Arith ZArith QArith Reals Lia Lra Permutation.
From Verif Require Import Base BaseLemmas Instances RSums MaceModel MaceSpec MaceSpec2 ExportSpec MaceExamples
  MaceGradSpec GradExamples PairModel PairMpiModel PairKokkosModel PairSpec PairCommSpec PairGrad PairExamples.
From Verif Require Import KkSem KkModel KkSpec KkExamples KkPairModel KkPairSpec.
Import ListNotations.
Local Open Scope R_scope.

Definition kp : lmp RNum := px_lmp (N:=RNum) [0; 1; 2]%nat px_x.
Definition kp_arg : list string := ["*"; "*"; "model.json"; "He"; "H"]%string.
Lemma kp_types : coeff_types (f_atomic_numbers (ex_file (N:=RNum))) kp_arg = Some px_types.
Proof. vm_compute. reflexivity. Qed.
Lemma kp_nodup : NoDup (f_atomic_numbers (ex_file (N:=RNum))).
Proof. cbn. repeat constructor; cbn; lia. Qed.

Lemma kp_lok : lmp_ok (length px_types) (ilist kp) kp.
Proof. apply (px_ok (N:=RNum)); [reflexivity|apply Permutation_refl]. Qed.
Lemma kp_own : owner_ok px_owner kp.
Proof. apply (px_owner_ok (N:=RNum)). Qed.
Lemma kp_il i : In i (ilist kp) -> In i (ilist px).
Proof. cbn. tauto. Qed.
Lemma kp_off : off_cutoff kp px_rc.
Proof. intros i j Hi Hj. exact (px_off i j (kp_il i Hi) Hj). Qed.

Definition kp_in : input RNum := nd_input (N:=RNum) px_types px_rc px_owner kp.
Definition kp_r : list R := [1; 3/2; 1; 6/5; 6/5; 1; 1; 3/2].
Definition kp_D : list R := [3/5; 4/5; 0;  0; 0; 3/2;  -3/5; 4/5; 0;  6/5; 0; 0;  -6/5; 0; 0;  -3/5; -4/5; 0;  3/5; -4/5; 0;  0; 0; -3/2].
Lemma kp_in_eq : kp_in = mkInput (N:=RNum) 3 [0; 1; 1]%nat [5; 2; 1]%nat [1; 2; 1; 0; 0; 0; 0; 0]%nat [1; 1; 1; 0; 0; 0; 0; 0]%nat kp_D kp_r.
Proof.
  destruct px_kept as (K0 & K1 & K2). unfold kp_in, nd_input. cbn [kp px_lmp ilist map flat_map length]. fold kp.
  change (kept px_rc kp) with (kept (N:=RNum) px_rc px). rewrite K0, K1, K2.
  cbn [map flat_map app length]. f_equal.
  - unfold kp_D. repeat (apply (f_equal2 (@cons R)); [rewrite sep_R; change (atom_x kp) with px_x; rewrite px_x_eq; cbn [Nat.mul Nat.add nth]; lra|]). reflexivity.
  - destruct px_listed as (L0 & L1 & L2). change (atom_x kp) with (atom_x px). rewrite !px_d by (rewrite ?L0, ?L1, ?L2; cbn; tauto). unfold kp_r.
    repeat (apply (f_equal2 (@cons R)); [cbn [px_d2 nth nsqrt RNum]; apply sqrt_lem_1; lra|]). reflexivity.
Qed.
Lemma kp_norm q : (q < 8)%nat -> sqrt (norm2 kp_D q) = nth q kp_r 0.
Proof.
  intros H. assert (E : norm2 kp_D q = nth q kp_r 0 * nth q kp_r 0 /\ 0 <= nth q kp_r 0).
  { unfold kp_D, kp_r. destruct q as [|[|[|[|[|[|[|[|q]]]]]]]]; [| | | | | | | |lia]; unfold norm2; cbn [Nat.mul Nat.add nth]; lra. }
  rewrite (proj1 E). apply sqrt_square. apply E.
Qed.
Lemma kp_with : with_xyz kp_in (i_xyz kp_in) = kp_in.
Proof.
  unfold with_xyz. rewrite kp_in_eq. cbn [i_num_nodes i_node_types i_num_neigh i_neigh_indices i_neigh_types i_xyz].
  change (list_sum [5; 2; 1]%nat) with 8%nat. cbn [seq map]. rewrite !kp_norm by lia. reflexivity.
Qed.
Lemma kp_in_ok : input_ok ex_file kp_in.
Proof.
  rewrite kp_in_eq. constructor; try reflexivity.
  - intros t H. cbn in H. cbn. lia.
  - intros t H. cbn in H. cbn. lia.
  - intros t H. cbn in H. cbn. lia.
  - intros r H. apply ex_domain. apply ex_in_R. cbn in H. intuition (subst; lra).
Qed.
Lemma kp_smooth_at : smooth_at ex_file kp_in (i_xyz kp_in).
Proof.
  constructor; rewrite ?kp_with.
  - exact kp_in_ok.
  - intros q Hq E. rewrite kp_in_eq in Hq, E. change (list_sum (i_num_neigh _)) with 8%nat in Hq. cbn [i_xyz] in E. pose proof (kp_norm q Hq) as H. rewrite E, sqrt_0 in H. unfold kp_r in H.
    destruct q as [|[|[|[|[|[|[|[|q]]]]]]]]; [| | | | | | | |lia]; cbn [nth] in H; lra.
  - intros _. exists (ex_D 0), (ex_D 1). split.
    + intros q t u H. destruct q as [|[|[|q]]]; try (injection H as <- <-; split; reflexivity). destruct q; discriminate H.
    + intros i Hi. rewrite kp_in_eq in *. cbn [i_num_nodes] in Hi. unfold kp_r. destruct i as [|[|[|i]]]; [| | |lia]; rho_open; repeat dens_at 1%nat; rho_nz.
  - intros _. exists (ex_D 2), (ex_D 3). split.
    + intros q t u H. destruct q as [|[|[|q]]]; try (injection H as <- <-; split; reflexivity). destruct q; discriminate H.
    + intros i Hi. rewrite kp_in_eq in *. cbn [i_num_nodes] in Hi. unfold kp_r. destruct i as [|[|[|i]]]; [| | |lia]; rho_open; repeat dens_at 1%nat; rho_nz.
Qed.
Lemma kp_acc_ok : acc_ok kp px_acc.
Proof. constructor; reflexivity. Qed.

(** an admissible call; a second one has no neighbours within its cutoff *)
Lemma kp_call : nd_call_ok ex_file px_types px_rc px_owner 4 px_ev kp px_acc.
Proof.
  constructor; [exact kp_lok|reflexivity|exact kp_own|exact kp_acc_ok|exact kp_in_ok|reflexivity|cbn; lia].
Qed.
