(** Data for the examples beside the properties of the pair style: three atoms, periodic along x with length 6/5.
    Ghost 3 is an image of atom 1, ghosts 4 and 5 are images of atom 0.  The list is in the order 2, 0, 1; two listed pairs
    are beyond the cutoff 8/5; one entry of the list carries a flag in its top bits.  LAMMPS type 1 is species 1, type 2 is species 0. *)
From Coq Require Import List Arith ZArith QArith Reals Lia Lra Permutation.
From Verif Require Import Base BaseLemmas Instances RSums MaceModel MaceSpec MaceSpec2 ExportSpec MaceExamples
  MaceGradSpec GradExamples PairModel PairMpiModel PairSpec PairCommSpec PairGrad.
Import ListNotations.
Local Open Scope R_scope.

Section Data.
Context {N : Num}.
Definition px_owner (j : nat) : nat := nth j [0; 1; 2; 1; 0; 0]%nat 0%nat.
Definition px_lmp (il : list nat) (x : list N) : lmp N := mkLmp (N:=N) 3 3 3 il [5; 3; 2]%nat [[1; 2; 3; 4 + 2^30; 5]; [0; 4; 2]; [0; 1]]%Z x
  [2; 1; 1; 1; 2; 2]%nat [11; 12; 13; 12; 11; 11]%nat
  (fun t => match t with 11 => Some 0 | 12 => Some 1 | 13 => Some 2 | _ => None end)%nat.
Definition px_types : list nat := [1; 0]%nat.

Lemma px_ok il x : length x = 18%nat -> Permutation il [0; 1; 2]%nat -> lmp_ok (length px_types) il (px_lmp il x).
Proof.
  intros Hx P. constructor; cbn [px_lmp atom_x atom_type nlocal nghost inum ilist numneigh firstneigh].
  - exact Hx.
  - reflexivity.
  - intros t H. cbn in *. lia.
  - split; [reflexivity|exact P].
  - intros i Hi. apply (Permutation_in _ P) in Hi. assert (D : i = 0%nat \/ i = 1%nat \/ i = 2%nat) by (cbn in Hi; lia).
    destruct D as [->|[->| ->]]; cbn -[listed]; repeat split; try lia; intros j Hj; vm_compute in Hj; lia.
Qed.
Lemma px_owner_ok il x : owner_ok px_owner (px_lmp il x).
Proof.
  constructor; cbn [px_lmp atom_tag atom_map nlocal nghost].
  - reflexivity.
  - intros j Hj. do 6 (destruct j as [|j]; [reflexivity|]). lia.
  - intros j Hj. do 6 (destruct j as [|j]; [cbn; lia|]). lia.
  - intros j Hj. do 3 (destruct j as [|j]; [reflexivity|]). lia.
Qed.
End Data.

Definition px_pos : list R := [0; 0; 0;  3/5; 4/5; 0;  0; 0; 3/2].
Definition px_sh : list R := [0; 0; 0;  0; 0; 0;  0; 0; 0;  -6/5; 0; 0;  6/5; 0; 0;  -6/5; 0; 0].
Definition px_x : list R := images 6 px_owner px_sh px_pos.
Definition px_rc : R := 8/5.
Definition px : lmp RNum := px_lmp (N:=RNum) [2; 0; 1]%nat px_x.
Lemma px_lok : lmp_ok (length px_types) (ilist px) px.
Proof. apply (px_ok (N:=RNum)); [reflexivity|]. exact (Permutation_cons_append [0; 1]%nat 2%nat). Qed.
Lemma px_own : owner_ok px_owner px.
Proof. apply (px_owner_ok (N:=RNum)). Qed.
Lemma px_listed : listed px 0 = [1; 2; 3; 4; 5]%nat /\ listed px 1 = [0; 4; 2]%nat /\ listed px 2 = [0; 1]%nat.
Proof. repeat split; vm_compute; reflexivity. Qed.

(** the positions, written out *)
Lemma px_x_eq : px_x = [0; 0; 0;  3/5; 4/5; 0;  0; 0; 3/2;  -3/5; 4/5; 0;  6/5; 0; 0;  -6/5; 0; 0].
Proof.
  unfold px_x, images. cbn [Nat.mul Nat.add seq map].
  repeat (apply (f_equal2 (@cons R)); [change (px_owner ?a) with (px_owner a); cbv [Nat.div Nat.modulo Nat.divmod fst snd px_owner nth Nat.mul Nat.add Nat.sub px_pos px_sh]; lra|]). reflexivity.
Qed.

(** squared distances *)
Definition px_d2 (i j : nat) : R := nth j (nth i [[0; 1; 9/4; 1; 36/25; 36/25]; [1; 0; 13/4; 36/25; 1; 97/25]; [9/4; 13/4]] []) 0.
Ltac px_sep := rewrite sep2_R, !sep_R; change (atom_x px) with px_x; rewrite px_x_eq; cbn [Nat.mul Nat.add nth px_d2].
Lemma px_d i j : In i (ilist px) -> In j (listed px i) -> @eq R (sep2 (N:=RNum) (atom_x px) i j) (px_d2 i j).
Proof.
  destruct px_listed as (L0 & L1 & L2). intros Hi Hj. cbn in Hi. destruct Hi as [<-|[<-|[<-|[]]]]; rewrite ?L0, ?L1, ?L2 in Hj; cbn [In] in Hj;
    repeat (destruct Hj as [<-|Hj]; [px_sep; lra|]); destruct Hj.
Qed.
Lemma px_off : off_cutoff px px_rc.
Proof.
  intros i j Hi Hj. rewrite (px_d i j Hi Hj). destruct px_listed as (L0 & L1 & L2). cbn in Hi. unfold px_rc.
  destruct Hi as [<-|[<-|[<-|[]]]]; rewrite ?L0, ?L1, ?L2 in Hj; cbn [In] in Hj; repeat (destruct Hj as [<-|Hj]; [cbn [px_d2 nth]; lra|]); destruct Hj.
Qed.
Lemma px_kept : kept (N:=RNum) px_rc px 0 = [1; 2; 3; 4; 5]%nat /\ kept (N:=RNum) px_rc px 1 = [0; 4]%nat /\ kept (N:=RNum) px_rc px 2 = [0]%nat.
Proof.
  assert (K : forall i, In i (ilist px) -> kept (N:=RNum) px_rc px i = filter (fun j => if Rlt_dec (px_d2 i j) (64/25) then true else false) (listed px i)).
  { intros i Hi. unfold kept. apply filter_ext_in. intros j Hj. rewrite (px_d i j Hi Hj). cbn [nltb RNum nmul]. unfold px_rc.
    destruct (Rlt_dec (px_d2 i j) (8/5 * (8/5))), (Rlt_dec (px_d2 i j) (64/25)); try reflexivity; exfalso; lra. }
  destruct px_listed as (L0 & L1 & L2).
  rewrite !K by (cbn; tauto). rewrite L0, L1, L2. cbn [filter px_d2 nth].
  repeat split; repeat (destruct Rlt_dec as [?|?]; [|try (exfalso; lra)]; try (exfalso; lra)); reflexivity.
Qed.

Definition px_in : input RNum := nd_input (N:=RNum) px_types px_rc px_owner px.
Definition px_r : list R := [3/2; 1; 3/2; 1; 6/5; 6/5; 1; 1].
Definition px_D : list R := [0; 0; -3/2;  3/5; 4/5; 0;  0; 0; 3/2;  -3/5; 4/5; 0;  6/5; 0; 0;  -6/5; 0; 0;  -3/5; -4/5; 0;  3/5; -4/5; 0].
Lemma px_in_eq : px_in = mkInput (N:=RNum) 3 [1; 0; 1]%nat [1; 5; 2]%nat [1; 2; 0; 2; 1; 1; 1; 1]%nat [0; 1; 1; 1; 0; 0; 0; 0]%nat px_D px_r.
Proof.
  destruct px_kept as (K0 & K1 & K2). unfold px_in, nd_input. cbn [px px_lmp ilist map flat_map length]. fold px. rewrite K0, K1, K2.
  cbn [map flat_map app length]. f_equal.
  - unfold px_D. repeat (apply (f_equal2 (@cons R)); [rewrite sep_R; change (atom_x px) with px_x; rewrite px_x_eq; cbn [Nat.mul Nat.add nth]; lra|]). reflexivity.
  - destruct px_listed as (L0 & L1 & L2). rewrite !px_d by (rewrite ?L0, ?L1, ?L2; cbn; tauto). unfold px_r.
    repeat (apply (f_equal2 (@cons R)); [cbn [px_d2 nth nsqrt RNum]; apply sqrt_lem_1; lra|]). reflexivity.
Qed.
Lemma px_norm q : (q < 8)%nat -> sqrt (norm2 px_D q) = nth q px_r 0.
Proof.
  intros H. assert (E : norm2 px_D q = nth q px_r 0 * nth q px_r 0 /\ 0 <= nth q px_r 0).
  { unfold px_D, px_r. destruct q as [|[|[|[|[|[|[|[|q]]]]]]]]; [| | | | | | | |lia]; unfold norm2; cbn [Nat.mul Nat.add nth]; lra. }
  rewrite (proj1 E). apply sqrt_square. apply E.
Qed.
Lemma px_with : with_xyz px_in (i_xyz px_in) = px_in.
Proof.
  unfold with_xyz. rewrite px_in_eq. cbn [i_num_nodes i_node_types i_num_neigh i_neigh_indices i_neigh_types i_xyz].
  change (list_sum [1; 5; 2]%nat) with 8%nat. cbn [seq map]. rewrite !px_norm by lia. reflexivity.
Qed.
Lemma px_in_ok : input_ok ex_file px_in.
Proof.
  rewrite px_in_eq. constructor; try reflexivity.
  - intros t H. cbn in H. cbn. lia.
  - intros t H. cbn in H. cbn. lia.
  - intros t H. cbn in H. cbn. lia.
  - intros r H. apply ex_domain. apply ex_in_R. cbn in H. intuition (subst; lra).
Qed.
Lemma px_smooth_at : smooth_at ex_file px_in (i_xyz px_in).
Proof.
  constructor; rewrite ?px_with.
  - exact px_in_ok.
  - intros q Hq E. rewrite px_in_eq in Hq, E. change (list_sum (i_num_neigh _)) with 8%nat in Hq. cbn [i_xyz] in E. pose proof (px_norm q Hq) as H. rewrite E, sqrt_0 in H. unfold px_r in H.
    destruct q as [|[|[|[|[|[|[|[|q]]]]]]]]; [| | | | | | | |lia]; cbn [nth] in H; lra.
  - intros _. exists (ex_D 0), (ex_D 1). split.
    + intros q t u H. destruct q as [|[|[|q]]]; try (injection H as <- <-; split; reflexivity). destruct q; discriminate H.
    + intros i Hi. rewrite px_in_eq in *. cbn [i_num_nodes] in Hi. unfold px_r. destruct i as [|[|[|i]]]; [| | |lia]; rho_open; repeat dens_at 1%nat; rho_nz.
  - intros _. exists (ex_D 2), (ex_D 3). split.
    + intros q t u H. destruct q as [|[|[|q]]]; try (injection H as <- <-; split; reflexivity). destruct q; discriminate H.
    + intros i Hi. rewrite px_in_eq in *. cbn [i_num_nodes] in Hi. unfold px_r. destruct i as [|[|[|i]]]; [| | |lia]; rho_open; repeat dens_at 1%nat; rho_nz.
Qed.

(** accumulators with arbitrary contents; all flags but the per-atom virial *)
Definition px_acc : accum RNum := mkAcc (N:=RNum) 7 (repeat 1 6) (repeat 2 6) (repeat 3 18).
Definition px_ev : ev := mkEv true true true false.
Lemma px_acc_ok : acc_ok px px_acc.
Proof. constructor; reflexivity. Qed.
