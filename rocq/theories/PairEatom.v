(** Lemmas about per-atom energies. *)
From Coq Require Import List Arith ZArith Reals Lia Lra Bool.
From Verif Require Import Base BaseLemmas Instances MaceModel MaceSpec MaceExamples GradExamples PairModel PairMpiModel PairSpec PairThms PairMomentum PairCoeff.
Import ListNotations.
Local Open Scope nat_scope.

Section Gen.
Context {N : Num}.
Lemma tally_eatom fl ne n NI NN NJ (xyz En F : list N) (a a' : accum N) : tally fl ne n NI NN NJ xyz En F a = Some a' -> eflag_atom fl = true ->
  length (eatom a') = length (eatom a) /\ (forall ii, ii < ne -> nth_error (eatom a') ii = nth_error En ii /\ ii < length (eatom a')) /\
  (forall ii, ne <= ii -> nth_error (eatom a') ii = nth_error (eatom a) ii).
Proof.
  intros H Hf. unfold tally in H. bnd H e1 H1. bnd H e2 H2. bnd H st H3. destruct st as [f ij]. bnd H v H4.
  destruct (vflag_atom fl); [discriminate H|]. injection H as <-. cbn [eatom]. rewrite Hf in H2. clear - H2.
  apply (for_keep (fun k s => length s = length (eatom a) /\ (forall ii, ii < k -> nth_error s ii = nth_error En ii /\ ii < length s) /\ (forall ii, k <= ii -> nth_error s ii = nth_error (eatom a) ii)) _ _ _ _ H2).
  - split; [reflexivity|]. split; [intros; lia|auto].
  - intros k s s' Hk (L & V & U) Hb. bnd Hb v Ev. assert (Hl : k < length s) by (eapply wr_lt; eauto). rewrite wr_some in Hb by exact Hl. injection Hb as <-. rewrite length_upd.
    assert (K : forall q, nth_error (upd s k v) q = if k =? q then Some v else nth_error s q).
    { clear - Hl. revert k Hl. induction s as [|x s IH]; intros [|k] Hl [|q]; cbn in *; try lia; try reflexivity. apply IH. lia. }
    split; [exact L|]. split; intros ii Hi; rewrite K; destruct (Nat.eqb_spec k ii) as [<-|Ne].
    + split; [symmetry; exact Ev|exact Hl].
    + apply V. lia.
    + lia.
    + apply U. lia.
Qed.
End Gen.

Lemma position_id n i : i < n -> position i (seq 0 n) = i.
Proof.
  intros H. cut (forall k, i < n -> position (k + i) (seq k n) = i); [intros C; exact (C 0 H)|]. clear H. revert i. induction n as [|n IH]; intros i k H; [lia|]. cbn [seq position].
  destruct i as [|i]; [rewrite Nat.add_0_r, Nat.eqb_refl; reflexivity|]. destruct (Nat.eqb_spec (k + S i) k); [lia|]. f_equal. rewrite <- Nat.add_succ_comm. apply IH. lia.
Qed.

Lemma eatom_id n (En ea ea' : list R) : (forall i, i < n -> nth i ea 0%R = 0%R) -> (forall i, i < n -> nth_error ea' i = nth_error En i /\ i < length ea') -> eatom_added n (seq 0 n) En ea ea'.
Proof.
  intros Z V i Hi. rewrite (Z i Hi), position_id by exact Hi. destruct (V i Hi) as [E L].
  assert (L2 : i < length En) by (apply nth_error_Some; rewrite <- E; apply nth_error_Some; exact L).
  rewrite (nth_error_nth' ea' 0%R L), (nth_error_nth' En 0%R L2) in E. injection E as E. rewrite E. lra.
Qed.
Lemma nd_eatom sph (m : mace_model RNum) rc types l owner fl b p a b1 p1 a1 : lmp_ok (length types) (ilist l) l -> owner_ok owner l -> eflag_atom fl = true ->
  ilist l = seq 0 (nlocal l) -> (forall i, i < nlocal l -> nth i (eatom a) 0%R = 0%R) ->
  compute_no_domain_decomposition sph m rc types fl l b p a = Some (b1, p1, a1) ->
  call sph m b (nd_input types rc owner l) = Some b1 /\ eatom_added (nlocal l) (ilist l) (b_node_energies b1) (eatom a) (eatom a1).
Proof.
  intros L O Hf HI Z H. split; [eapply nd_used; eauto|]. rewrite HI. rewrite (nd_ok l rc types L owner O) in H. cbn zeta in H. bnd H b' Eb. bnd H a' Ea. injection H as <- <- <-.
  apply tally_eatom in Ea; [|exact Hf]. destruct Ea as (_ & V & _). apply eatom_id; [exact Z|]. cbn [nd_input i_num_nodes] in V. rewrite HI, seq_length in V. exact V.
Qed.
Lemma mpi_eatom (m : mace_model RNum) fl n b p a b1 p1 a1 : eflag_atom fl = true -> (forall i, i < n -> nth i (eatom a) 0%R = 0%R) -> p_node_i p = seq 0 n ->
  mpi_end m fl n b p a = Some (b1, p1, a1) -> eatom_added n (p_node_i p) (b_node_energies b1) (eatom a) (eatom a1).
Proof.
  intros Hf Z HI H. unfold mpi_end in H. bnd H v1 U1. bnd H v2 U2. bnd H v3 U3. destruct v3 as [v3 w3]. bnd H v4 U4. bnd H a' Ea. injection H as <- <- <-. cbn [b_node_energies] in *.
  apply tally_eatom in Ea; [|exact Hf]. destruct Ea as (_ & V & _). rewrite HI. apply eatom_id; auto.
Qed.

(** two isolated atoms of different species, in the order 1, 0 *)
Definition rx : lmp RNum := mkLmp (N:=RNum) 2 0 2 [1; 0] [0; 0] [[]; []] [0; 0; 0; 9; 0; 0]%R [1; 2] [11; 12]
  (fun t => match t with 11 => Some 0 | 12 => Some 1 | _ => None end).
Definition rx_a : accum RNum := mkAcc (N:=RNum) 0%R [0; 0]%R (repeat 0%R 6) (repeat 0%R 6).
Definition rx_p : pair_bufs RNum := mkPB (N:=RNum) [] [] [] [] [] [] [] [] [] [] [] [] [].
Notation rx_run := (
  ' (m, b) <- load_from_json (N:=RNum) (fun l => l) ex_file ;;
  ' (b1, _, a1) <- compute_no_domain_decomposition ex_sph m 8%R [0; 1] (mkEv true true true false) rx b rx_p rx_a ;;
  Some (b_node_energies b1, eatom a1)).
Definition rx_val := Eval vm_compute in rx_run.
Lemma rx_run_val : rx_run = rx_val.
Proof. vm_cast_no_check (eq_refl rx_val). Qed.
Definition rx_e0 : R := Eval cbv [rx_val nth] in (match rx_val with Some (e, _) => nth 0 e 0%R | None => 0%R end).
Definition rx_e1 : R := Eval cbv [rx_val nth] in (match rx_val with Some (e, _) => nth 1 e 0%R | None => 0%R end).
Lemma rx_e0_eq : rx_e0 = 5%R.
Proof. unfold rx_e0. rewrite ?Rinv_1. ring. Qed.
Lemma rx_e1_eq : rx_e1 = (-3)%R.
Proof. unfold rx_e1. rewrite ?Rinv_1. ring. Qed.
Lemma rx_val_eq : rx_val = Some ([rx_e0; rx_e1], [rx_e0; rx_e1]).
Proof. reflexivity. Qed.
Lemma rx_run_eq : rx_run = Some ([5; -3], [5; -3])%R.
Proof. rewrite rx_run_val, rx_val_eq, rx_e0_eq, rx_e1_eq. reflexivity. Qed.
Lemma rx_ok : lmp_ok 2 (ilist rx) rx.
Proof.
  constructor; cbn; try reflexivity.
  - intros t H. lia.
  - split; [reflexivity|]. apply Permutation.perm_swap.
  - intros i [<-|[<-|[]]]; repeat split; try lia; intros j [].
Qed.
Lemma rx_owner : owner_ok (fun j => j) rx.
Proof.
  constructor; cbn; try reflexivity; try (intros; lia). intros [|[|j]] H; [reflexivity|reflexivity|lia].
Qed.
Lemma rx_bad : exists (m : mace_model RNum) b b1 p1 a1, load_from_json (N:=RNum) (fun l => l) ex_file = Some (m, b) /\
  compute_no_domain_decomposition ex_sph m 8%R [0; 1] (mkEv true true true false) rx b rx_p rx_a = Some (b1, p1, a1) /\
  ~ eatom_added 2 (ilist rx) (b_node_energies b1) (eatom rx_a) (eatom a1).
Proof.
  pose proof rx_run_eq as E. bnd E mb Q1. destruct mb as [m b]. bnd E bpa Q2. destruct bpa as [[b1 p1] a1]. injection E as Q3 Q4.
  exists m, b, b1, p1, a1. split; [exact Q1|]. split; [exact Q2|]. intros H. specialize (H 0 ltac:(lia)). rewrite Q3, Q4 in H. cbn [nth position ilist rx rx_a eatom Nat.eqb] in H. lra.
Qed.

(** the same atoms in the order 0, 1 *)
Definition ry : lmp RNum := mkLmp (N:=RNum) 2 0 2 [0; 1] [0; 0] [[]; []] [0; 0; 0; 9; 0; 0]%R [1; 2] [11; 12]
  (fun t => match t with 11 => Some 0 | 12 => Some 1 | _ => None end).
Notation ry_run := (
  ' (m, b) <- load_from_json (N:=RNum) (fun l => l) ex_file ;;
  compute_no_domain_decomposition ex_sph m 8%R [0; 1] (mkEv true true true false) ry b rx_p rx_a).
Lemma ry_runs : match ry_run with Some _ => true | None => false end = true.
Proof. vm_cast_no_check (eq_refl true). Qed.
Lemma ry_ok : lmp_ok 2 (ilist ry) ry.
Proof.
  constructor; cbn; try reflexivity.
  - intros t H. lia.
  - split; [reflexivity|]. apply Permutation.Permutation_refl.
  - intros i [<-|[<-|[]]]; repeat split; try lia; intros j [].
Qed.
Lemma ry_owner : owner_ok (fun j => j) ry.
Proof.
  constructor; cbn; try reflexivity; try (intros; lia). intros [|[|j]] H; [reflexivity|reflexivity|lia].
Qed.
Lemma ry_good : exists (m : mace_model RNum) b b1 p1 a1, load_from_json (N:=RNum) (fun l => l) ex_file = Some (m, b) /\
  compute_no_domain_decomposition ex_sph m 8%R [0; 1] (mkEv true true true false) ry b rx_p rx_a = Some (b1, p1, a1).
Proof.
  pose proof ry_runs as E. destruct ry_run as [[[b1 p1] a1]|] eqn:Q; [|discriminate E]. clear E. bnd Q mb Q1. destruct mb as [m b]. exists m, b, b1, p1, a1. auto.
Qed.
