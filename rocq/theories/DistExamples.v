(** A concrete split: the system of PairExamples on two processes. *)
From Coq Require Import List Arith ZArith QArith Qreals Reals Lia Lra Permutation Bool.
From Verif Require Import Base BaseLemmas Instances MaceModel MaceSpec MaceExamples PairModel PairMpiModel PairSpec PairCommSpec PairComm PairExamples DistSpec DistGradSpec.
Import ListNotations.
Local Close Scope R_scope.
Local Close Scope Q_scope.
Local Open Scope nat_scope.

(** positions given by rational numbers *)
Definition lift (l : lmp QNum) : lmp RNum := mkLmp (N:=RNum) (nlocal l) (nghost l) (inum l) (ilist l) (numneigh l) (firstneigh l)
  (map Q2R (atom_x l)) (atom_type l) (atom_tag l) (atom_map l).
Lemma Q2R_red q : Q2R (Qred q) = Q2R q.
Proof. apply Qeq_eqR, Qred_correct. Qed.
Lemma Q2R_zero : Q2R (@nzero QNum) = (@nzero RNum).
Proof. rewrite RNum_zero. change (@nzero QNum) with (0 # 1)%Q. unfold Q2R. cbn. lra. Qed.
Lemma sep_lift x i j c : sep (N:=RNum) (map Q2R x) i j c = Q2R (sep (N:=QNum) x i j c).
Proof.
  unfold sep. rewrite <- Q2R_zero. rewrite !map_nth. cbn [nsub RNum QNum]. rewrite Q2R_red, Q2R_minus. reflexivity.
Qed.
Lemma sep2_lift x i j : sep2 (N:=RNum) (map Q2R x) i j = Q2R (sep2 (N:=QNum) x i j).
Proof.
  unfold sep2. rewrite !sep_lift. cbn [nadd nmul RNum QNum]. rewrite !Q2R_red, !Q2R_plus, !Q2R_red, !Q2R_plus, !Q2R_red, !Q2R_mult. reflexivity.
Qed.
Lemma kept_lift rc l i : kept (N:=RNum) (Q2R rc) (lift l) i = kept (N:=QNum) rc l i.
Proof.
  unfold kept, lift, listed. cbn [numneigh firstneigh atom_x]. apply filter_ext. intros j. rewrite sep2_lift. cbn [nmul nltb RNum QNum]. rewrite <- Q2R_mult, <- (Q2R_red (rc * rc)).
  destruct (Rlt_dec _ _) as [H|H], (Qle_bool _ _) eqn:E; try reflexivity; exfalso.
  - apply Qle_bool_iff, Qle_Rle in E. lra.
  - apply H. apply Qlt_Rlt. apply Qnot_le_lt. intros E'. apply Qle_bool_iff in E'. congruence.
Qed.
Definition lift_nbr (z : nat * nat * (Q * Q * Q)) : nat * nat * (R * R * R) :=
  match z with (t, ty, (x, y, w)) => (t, ty, (Q2R x, Q2R y, Q2R w)) end.
Lemma env_lift rc l i : env (N:=RNum) (Q2R rc) (lift l) i = map lift_nbr (env (N:=QNum) rc l i).
Proof.
  unfold env. rewrite kept_lift, map_map. apply map_ext. intros j. cbn [lift atom_x lift_nbr]. rewrite !sep_lift. reflexivity.
Qed.

(** decision procedures *)
Definition nbr_eq_dec (a b : nat * nat * (Q * Q * Q)) : {a = b} + {a <> b}.
Proof. repeat decide equality. Defined.
Fixpoint permb {A} (dec : forall a b : A, {a = b} + {a <> b}) (l l' : list A) : bool :=
  match l with
  | [] => match l' with [] => true | _ => false end
  | a :: t => match find (fun k => if dec (nth k l' a) a then true else false) (seq 0 (length l')) with
              | Some k => permb dec t (firstn k l' ++ skipn (S k) l')
              | None => false
              end
  end.
Lemma permb_ok {A} dec (l l' : list A) : permb dec l l' = true -> Permutation l l'.
Proof.
  revert l'. induction l as [|a t IH]; intros l' H; cbn [permb] in H.
  - destruct l'; [constructor|discriminate].
  - destruct (find _ _) as [k|] eqn:E; [|discriminate]. apply find_some in E. destruct E as [E1 E2]. apply in_seq in E1. destruct (dec (nth k l' a) a) as [E|]; [|discriminate].
    rewrite (IH _ H). transitivity (firstn k l' ++ a :: skipn (S k) l'); [apply Permutation_middle|].
    rewrite <- E at 1. apply Permutation_refl'.
    assert (Hs : skipn k l' = nth k l' a :: skipn (S k) l'); [|rewrite <- Hs; apply firstn_skipn].
    assert (Hk : k < length l') by lia. clear -Hk. revert k Hk. induction l' as [|b l' IH]; intros [|k] Hk; cbn in *; try lia; [reflexivity|]. apply IH. lia.
Qed.

Definition lmp_okb {N : Num} nt A (l : lmp N) : bool :=
  let nall := (nlocal l + nghost l) in
  (length (atom_x l) =? 3 * nall) && (length (atom_type l) =? nall) && forallb (fun t => (1 <=? t) && (t <=? nt)) (atom_type l) &&
  (inum l =? nlocal l) && permb Nat.eq_dec (ilist l) (seq 0 (nlocal l)) &&
  forallb (fun i => (i <? nall) && (i <? length (numneigh l)) && (i <? length (firstneigh l)) &&
    (nth i (numneigh l) 0 <=? length (nth i (firstneigh l) [])) && forallb (fun j => j <? nall) (listed l i)) A.
Lemma lmp_okb_ok {N : Num} nt A (l : lmp N) : lmp_okb nt A l = true -> lmp_ok nt A l.
Proof.
  unfold lmp_okb. cbv zeta. rewrite !andb_true_iff. intros [[[[[H1 H2] H3] H4] H5] H6].
  apply Nat.eqb_eq in H1, H2, H4. rewrite forallb_forall in H3, H6. constructor; auto.
  - intros t Ht. specialize (H3 t Ht). apply andb_true_iff in H3. rewrite !Nat.leb_le in H3. exact H3.
  - split; [exact H4|]. eapply permb_ok; eauto.
  - intros i Hi. specialize (H6 i Hi). rewrite !andb_true_iff, !Nat.ltb_lt, Nat.leb_le, forallb_forall in H6.
    destruct H6 as [[[[A1 A2] A3] A4] A5]. repeat split; auto. intros j Hj. apply Nat.ltb_lt. auto.
Qed.

Definition split_okb (nt : nat) (rc : Q) (owner : nat -> nat) (L : lmp QNum) (ranks : list (lmp QNum)) : bool :=
  forallb (fun l => lmp_okb nt (needed_no_mpi (N:=QNum) rc l) l && (length (atom_tag l) =? nlocal l + nghost l)) ranks &&
  permb Nat.eq_dec (flat_map local_tags ranks) (local_tags L) &&
  forallb (fun j => tag L (owner j) =? tag L j) (seq 0 (nlocal L + nghost L)) &&
  forallb (fun l => forallb (fun j => existsb (Nat.eqb (tag l j)) (local_tags L)) (seq 0 (nlocal l + nghost l))) ranks &&
  forallb (fun l => forallb (fun i => forallb (fun a => negb (tag l i =? tag L a) ||
    ((nth i (atom_type l) 0 =? nth a (atom_type L) 0) && permb nbr_eq_dec (env (N:=QNum) rc l i) (env (N:=QNum) rc L a))) (seq 0 (nlocal L)))
    (needed_no_mpi (N:=QNum) rc l)) ranks.
Lemma needed_lift rc l : needed_no_mpi (N:=RNum) (Q2R rc) (lift l) = needed_no_mpi (N:=QNum) rc l.
Proof. unfold needed_no_mpi. cbn [lift nlocal]. f_equal. apply flat_map_ext. intros. apply kept_lift. Qed.
Lemma lmp_ok_lift nt A l : lmp_ok (N:=QNum) nt A l -> lmp_ok (N:=RNum) nt A (lift l).
Proof. intros [H1 H2 H3 H4 H5]. constructor; auto. cbn [lift atom_x nlocal nghost]. rewrite map_length. exact H1. Qed.
Lemma split_okb_ok nt rc owner L ranks : split_okb nt rc owner L ranks = true ->
  split_ok nt (Q2R rc : RNum) owner (needed_no_mpi (N:=RNum) (Q2R rc)) (lift L) (map lift ranks).
Proof.
  unfold split_okb. rewrite !andb_true_iff. intros [[[[H1 H2] H3] H4] H5]. rewrite forallb_forall in H1, H3, H4, H5. constructor.
  - intros l Hl. apply in_map_iff in Hl. destruct Hl as (l0 & <- & Hl). specialize (H1 l0 Hl). apply andb_true_iff in H1. destruct H1 as [A1 A2]. apply Nat.eqb_eq in A2.
    split; [|exact A2]. rewrite needed_lift. apply lmp_ok_lift, lmp_okb_ok, A1.
  - apply permb_ok in H2. rewrite flat_map_concat_map, map_map, <- flat_map_concat_map. exact H2.
  - intros j Hj. apply Nat.eqb_eq, H3, in_seq. cbn [lift nlocal nghost] in Hj. lia.
  - intros l j Hl Hj. apply in_map_iff in Hl. destruct Hl as (l0 & <- & Hl). specialize (H4 l0 Hl). rewrite forallb_forall in H4.
    specialize (H4 j ltac:(apply in_seq; cbn [lift nlocal nghost] in Hj; lia)). apply existsb_exists in H4. destruct H4 as (t & T1 & T2). apply Nat.eqb_eq in T2. 
    change (tag (lift l0) j) with (tag l0 j). rewrite T2. exact T1.
  - intros l i a Hl Hi Ha T. apply in_map_iff in Hl. destruct Hl as (l0 & <- & Hl). rewrite needed_lift in Hi. specialize (H5 l0 Hl). rewrite forallb_forall in H5. specialize (H5 i Hi).
    rewrite forallb_forall in H5. specialize (H5 a ltac:(apply in_seq; cbn [lift nlocal] in Ha; lia)). 
    change (tag l0 i = tag L a) in T. rewrite T, Nat.eqb_refl in H5. cbn [negb orb] in H5. apply andb_true_iff in H5. destruct H5 as [A1 A2]. apply Nat.eqb_eq in A1.
    split; [exact A1|]. rewrite !env_lift. apply Permutation_map. eapply permb_ok; eauto.
Qed.
(** what suffices for no_mpi_message_passing suffices for mpi_message_passing *)
Lemma split_mpi nt (rc : R) owner L ranks : split_ok nt (rc : RNum) owner (needed_no_mpi (N:=RNum) rc) L ranks -> split_ok nt (rc : RNum) owner needed_mpi L ranks.
Proof.
  assert (I : forall l i, In i (needed_mpi (N:=RNum) l) -> In i (needed_no_mpi (N:=RNum) rc l)) by (intros l i H; unfold needed_no_mpi; apply in_or_app; left; exact H).
  intros [H1 H2 H3 H4 H5]. constructor; auto.
  intros l Hl. destruct (H1 l Hl) as [[A1 A2 A3 A4 A5] A6]. split; [|exact A6]. constructor; auto.
Qed.

(** the system of PairExamples with rational positions *)
Definition dx_x : list Q := [0; 0; 0;  3#5; 4#5; 0;  0; 0; 3#2;  -3#5; 4#5; 0;  6#5; 0; 0;  -6#5; 0; 0]%Q.
Definition dx : lmp QNum := px_lmp (N:=QNum) [2; 0; 1] dx_x.
Lemma dx_px : lift dx = px.
Proof.
  unfold lift, px, dx, px_lmp. cbn [nlocal nghost inum ilist numneigh firstneigh atom_x atom_type atom_tag atom_map]. f_equal.
  rewrite px_x_eq. unfold dx_x. cbn [map]. repeat (apply (f_equal2 (@cons R)); [unfold Q2R; cbn; lra|]). reflexivity.
Qed.
Definition dx_rc : Q := 8#5.
Lemma dx_rc_px : Q2R dx_rc = px_rc.
Proof. unfold Q2R, dx_rc, px_rc. cbn. lra. Qed.

(** process 0: atom 11, ghosts 12, 13, 12, 12, 13, 13, 12, 11, 11, 11, 11; process 1: atoms 12, 13, ghosts 11, 11, 11, 11, 12, 12, 13 *)
Definition dx_0 : lmp QNum := mkLmp (N:=QNum) 1 11 1 [0]
  [5; 2; 1; 2; 0; 0; 0; 0; 5; 6; 0; 0]
  [[9; 3; 1; 2; 8]; [8; 0]; [0]; [0; 9]; []; []; []; []; [1; 4; 5; 0; 10]; [0; 3; 6; 7; 11; 2]; []; []]%Z
  [0; 0; 0;  3#5; 4#5; 0;  0; 0; 3#2;  -3#5; 4#5; 0;  9#5; 4#5; 0;  6#5; 0; 3#2;  -6#5; 0; 3#2;  -9#5; 4#5; 0;
   6#5; 0; 0;  -6#5; 0; 0;  12#5; 0; 0;  -12#5; 0; 0]%Q
  [2; 1; 1; 1; 1; 1; 1; 1; 2; 2; 2; 2] [11; 12; 13; 12; 12; 13; 13; 12; 11; 11; 11; 11]
  (fun t => match t with 11 => Some 0 | 12 => Some 1 | 13 => Some 2 | _ => None end).
Definition dx_1 : lmp QNum := mkLmp (N:=QNum) 2 7 2 [0; 1]
  [2; 1; 5; 5; 0; 0; 0; 0; 0]
  [[2; 3]; [2]; [0; 1; 6; 3; 4]; [0; 7; 8; 5; 2]; []; []; []; []; []]%Z
  [3#5; 4#5; 0;  0; 0; 3#2;  0; 0; 0;  6#5; 0; 0;  -6#5; 0; 0;  12#5; 0; 0;  -3#5; 4#5; 0;  9#5; 4#5; 0;  6#5; 0; 3#2]%Q
  [1; 1; 2; 2; 2; 2; 1; 1; 1] [12; 13; 11; 11; 11; 11; 12; 12; 13]
  (fun t => match t with 12 => Some 0 | 13 => Some 1 | 11 => Some 2 | _ => None end).
Definition dx_ranks : list (lmp RNum) := map lift [dx_0; dx_1].
Lemma dx_split_no_mpi : split_ok (length px_types) (px_rc : RNum) px_owner (needed_no_mpi (N:=RNum) px_rc) px dx_ranks.
Proof. rewrite <- dx_rc_px, <- dx_px. apply split_okb_ok. vm_compute. reflexivity. Qed.
Lemma dx_split_mpi : split_ok (length px_types) (px_rc : RNum) px_owner needed_mpi px dx_ranks.
Proof. apply split_mpi, dx_split_no_mpi. Qed.

(** the messages: process 1 sends atoms to process 0, process 0 sends to process 1, both copy from themselves; the second
    image of atom 11 on process 1 is filled from the first *)
Definition dx_own (z : slot) : slot :=
  match nth (snd z) (nth (fst z) [[11; 12; 13; 12; 12; 13; 13; 12; 11; 11; 11; 11]; [12; 13; 11; 11; 11; 11; 12; 12; 13]] []) 0 with
  | 11 => (0, 0) | 12 => (1, 0) | _ => (1, 1) end.
Definition dx_msgs : list msg :=
  [mkMsg 1 [0; 1; 0; 0; 1; 1; 0] 0 1; mkMsg 0 [0; 0] 0 8; mkMsg 0 [8; 9] 0 10; mkMsg 0 [0] 1 2; mkMsg 1 [2; 2; 2; 0; 0; 1] 1 3].
Definition slot_eq_dec (a b : slot) : {a = b} + {a <> b}.
Proof. repeat decide equality. Defined.
Lemma dx_messages : messages_ok dx_ranks dx_own dx_msgs.
Proof.
  constructor.
  - constructor; cbn.
    + reflexivity.
    + intros [|[|r]] H; cbn; lia.
    + intros z H. repeat (destruct H as [<-|H]; [reflexivity|]). destruct H.
    + intros z H. repeat (destruct H as [<-|H]; [cbn; tauto|]). destruct H.
    + repeat split; try lia; try (match goal with H : nth_error _ ?k = Some _ |- _ => do 8 (destruct k as [|k]; [cbn in H; try discriminate; injection H as <-; cbn; try lia; try tauto|]); destruct k; discriminate end);
      match goal with H : nth_error _ ?k = Some _ |- _ => do 8 (destruct k as [|k]; [cbn in H; try discriminate; injection H as <-; cbn; intros HI; repeat (destruct HI as [HI|HI]; [discriminate HI|]); try destruct HI; try reflexivity|]); destruct k; discriminate end.
    + intros z H.
      assert (G : existsb (fun y => if slot_eq_dec y z then true else false) (locals (map nlocal dx_ranks)) ||
                  existsb (fun g => existsb (fun y => if slot_eq_dec y z then true else false) (dests g)) dx_msgs = true).
      { repeat (destruct H as [<-|H]; [reflexivity|]). destruct H. }
      apply orb_true_iff in G. destruct G as [G|G].
      * left. apply existsb_exists in G. destruct G as (y & G1 & G2). destruct (slot_eq_dec y z); [subst; exact G1|discriminate].
      * right. apply existsb_exists in G. destruct G as (g & G1 & G). exists g. split; [exact G1|]. apply existsb_exists in G. destruct G as (y & G2 & G3).
        destruct (slot_eq_dec y z); [subst; exact G2|discriminate].
  - cbn. intros z H. repeat (destruct H as [<-|H]; [reflexivity|]). destruct H.
Qed.

Definition dx_acc (n : nat) : accum RNum := mkAcc (N:=RNum) 7%R (repeat 1%R n) (repeat 2%R 6) (repeat 3%R (3 * n)).
Definition dx_step : dstep := mkStep dx_ranks dx_own dx_msgs px_ev [dx_acc 12; dx_acc 9] px px_owner.
Lemma dx_step_ok needed : split_ok (length px_types) (px_rc : RNum) px_owner needed px dx_ranks -> step_ok ex_file px_rc px_types needed 2 dx_step.
Proof.
  intros H. constructor; cbn [dx_step d_ranks d_acc d_L d_owner d_fl].
  - reflexivity.
  - exact px_lok.
  - exact px_own.
  - exact H.
  - exact px_in_ok.
  - repeat constructor.
  - reflexivity.
Qed.
Lemma dx_mpi_step : mpi_step_ok ex_file px_rc px_types 2 dx_step.
Proof.
  constructor; [apply dx_step_ok, dx_split_mpi| |exact dx_messages].
  intros l H. destruct H as [<-|[<-|[]]]; reflexivity.
Qed.

(** the same with the local atoms of process 1 listed in the other order *)
Definition dx_1r : lmp QNum := mkLmp (N:=QNum) 2 7 2 [1; 0] (numneigh dx_1) (firstneigh dx_1) (atom_x dx_1) (atom_type dx_1) (atom_tag dx_1) (atom_map dx_1).
Definition dx_ranks_r : list (lmp RNum) := map lift [dx_0; dx_1r].
Lemma dx_split_r : split_ok (length px_types) (px_rc : RNum) px_owner (needed_no_mpi (N:=RNum) px_rc) px dx_ranks_r.
Proof. rewrite <- dx_rc_px, <- dx_px. apply split_okb_ok. vm_compute. reflexivity. Qed.
Definition dx_step_r : dstep := mkStep dx_ranks_r dx_own dx_msgs px_ev [dx_acc 12; dx_acc 9] px px_owner.
Lemma dx_no_step : step_ok ex_file px_rc px_types (needed_no_mpi (N:=RNum) px_rc) 2 dx_step.
Proof. apply dx_step_ok, dx_split_no_mpi. Qed.
Lemma dx_no_step_r : step_ok ex_file px_rc px_types (needed_no_mpi (N:=RNum) px_rc) 2 dx_step_r.
Proof. destruct dx_no_step as [H1 H2 H3 _ H5 H6 H7]. constructor; auto; [exact dx_split_r|]. repeat constructor. Qed.

(** no listed pair at the cutoff *)
Lemma off_lift rc (l : lmp QNum) A : forallb (fun i => forallb (fun j => negb (Qeq_bool (sep2 (N:=QNum) (atom_x l) i j) (rc * rc))) (listed l i)) A = true ->
  off_cutoff_at A (lift l) (Q2R rc).
Proof.
  rewrite forallb_forall. intros H i j Hi Hj E. specialize (H i Hi). rewrite forallb_forall in H. specialize (H j Hj). apply negb_true_iff in H.
  cbn [lift atom_x] in E. rewrite sep2_lift in E. change (Q2R (sep2 (N:=QNum) (atom_x l) i j) = Q2R rc * Q2R rc)%R in E. rewrite <- Q2R_mult in E. apply eqR_Qeq in E. apply Qeq_bool_iff in E. unfold listed in *. congruence.
Qed.
Lemma dx_off_r l : In l dx_ranks_r -> off_cutoff_at (needed_no_mpi (N:=RNum) px_rc l) l px_rc.
Proof.
  rewrite <- dx_rc_px. intros H. destruct H as [<-|[<-|[]]]; rewrite needed_lift; apply off_lift; vm_compute; reflexivity.
Qed.
Lemma dx_off l : In l dx_ranks -> off_cutoff_at (needed_mpi (N:=RNum) l) l px_rc.
Proof.
  rewrite <- dx_rc_px. intros H. destruct H as [<-|[<-|[]]]; apply off_lift; vm_compute; reflexivity.
Qed.
