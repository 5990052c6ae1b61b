(** What one compute function of the pair style adds to the accumulators, as sums over nodes and their neighbours. *)
From Coq Require Import List Arith ZArith Lia Bool Reals Lra Permutation.
From Verif Require Import Base BaseLemmas Segs Instances RSums RList MaceModel MaceGradSpec Sys SysLoops MaceGrid MaceStages1 MacePure MaceHsrc AseGrad
  PairModel PairSpec PairThms PairTally DistNbr.
Import ListNotations.
Local Open Scope R_scope.

(** component [k] of the virial of a force [f] on a vector [x] *)
Definition vcomp (k : nat) (x f : nat -> R) : R :=
  match k with
  | 0%nat => x 0%nat * f 0%nat | 1%nat => x 1%nat * f 1%nat | 2%nat => x 2%nat * f 2%nat
  | 3%nat => / 2 * (x 0%nat * f 1%nat + x 1%nat * f 0%nat) | 4%nat => / 2 * (x 0%nat * f 2%nat + x 2%nat * f 0%nat)
  | 5%nat => / 2 * (x 1%nat * f 2%nat + x 2%nat * f 1%nat) | _ => 0
  end.
Lemma nth_vir v F X q k : (k < 6)%nat -> nth k (vir v F X q) 0 = nth k v 0 + rsum q (fun e => vcomp k (fun c => nth (3 * e + c) X 0) (fun c => nth (3 * e + c) F 0)).
Proof.
  intros H. destruct k as [|[|[|[|[|[|k]]]]]]; [| | | | | |lia]; unfold vir; cbn [nth]; f_equal; apply rsum_ext; intros e _; cbn [vcomp]; rewrite ?Nat.add_0_r; reflexivity.
Qed.
Lemma vcomp_ext k x f x' f' : (forall c, (c < 3)%nat -> x c = x' c) -> (forall c, (c < 3)%nat -> f c = f' c) -> vcomp k x f = vcomp k x' f'.
Proof. intros H1 H2. destruct k as [|[|[|[|[|[|k]]]]]]; cbn [vcomp]; rewrite ?H1, ?H2 by lia; reflexivity. Qed.
Lemma vcomp_plus k x f g : vcomp k x (fun c => f c + g c) = vcomp k x f + vcomp k x g.
Proof. destruct k as [|[|[|[|[|[|k]]]]]]; cbn [vcomp]; lra. Qed.
Lemma vcomp_0 k x : vcomp k x (fun _ => 0) = 0.
Proof. destruct k as [|[|[|[|[|[|k]]]]]]; cbn [vcomp]; lra. Qed.

Lemma rl_nth {A} (l : list A) (d : A) (g : A -> R) : rl l g = rsum (length l) (fun q => g (nth q l d)).
Proof. rewrite <- rl_seq. rewrite (tab_nth l d) at 1. unfold tab. rewrite rl_map. reflexivity. Qed.
Lemma nth_map_lt {A B} (g : A -> B) (l : list A) d d' q : (q < length l)%nat -> nth q (map g l) d = g (nth q l d').
Proof. intros H. apply nth_error_nth. rewrite nth_error_map, (nth_error_nth' _ d') by exact H. reflexivity. Qed.
Lemma total_rl {A} (l : list A) g : total (map g l) = rl l g.
Proof. unfold total, rl. induction l as [|x l IH]; [reflexivity|]. cbn. rewrite IH. reflexivity. Qed.

Section Tally.
Variable types : list nat.
Variable rc : R.
Variable l : lmp RNum.
Variables ix J : nat -> nat.
Variable NI : list nat.
Notation s := (sys_on (N:=RNum) types rc l ix NI).
Notation n := (length NI).
Notation at_node ii := (nth ii NI 0%nat).
Notation ed ii j := (nbr_edge (N:=RNum) types l ix (at_node ii) j).

(** (node, neighbour) pairs *)
Definition npairs : list (nat * nat) := flat_map (fun ii => map (pair ii) (kept (N:=RNum) rc l (at_node ii))) (seq 0 n).
Lemma epairs_np : epairs s = map (fun q => (fst q, ed (fst q) (snd q))) npairs.
Proof.
  unfold epairs, npairs. rewrite length_on, map_flat_map. apply flat_map_ext_in. intros ii Hi. apply in_seq in Hi.
  rewrite es_on by lia. rewrite !map_map. reflexivity.
Qed.
Lemma kpairs_np : kpairs l rc NI = map (fun q => (at_node (fst q), snd q)) npairs.
Proof.
  unfold kpairs, npairs. rewrite (tab_nth NI 0%nat) at 1. unfold tab. rewrite map_flat_map, flat_map_concat_map, map_map, <- flat_map_concat_map.
  apply flat_map_ext_in. intros ii _. rewrite map_map. reflexivity.
Qed.
Lemma rl_np g : rl npairs g = rl (seq 0 n) (fun ii => rl (kept (N:=RNum) rc l (at_node ii)) (fun j => g (ii, j))).
Proof. unfold npairs. rewrite rl_flat_map. apply rl_ext. intros. apply rl_map. Qed.
Lemma sum_nn_on : list_sum (f_num_neigh s) = length npairs.
Proof.
  rewrite nn_on. unfold npairs. rewrite BaseLemmas.length_flat_map. rewrite (tab_nth NI 0%nat) at 1. unfold tab. rewrite map_map. apply (f_equal list_sum). apply map_ext. intros. rewrite map_length. reflexivity.
Qed.
Lemma eow_on : eow NI (f_num_neigh s) = map (fun q => at_node (fst q)) npairs.
Proof.
  unfold eow, npairs. rewrite nn_on, map_length, map_flat_map. apply flat_map_ext_in. intros ii Hi. apply in_seq in Hi.
  replace (nth ii (map (fun i => length (kept rc l i)) NI) 0%nat) with (length (kept (N:=RNum) rc l (at_node ii))).
  - rewrite map_map. cbn [fst]. induction (kept rc l (at_node ii)); [reflexivity|]. cbn. congruence.
  - symmetry. apply nth_error_nth. rewrite nth_error_map, (nth_error_nth' _ 0%nat) by lia. reflexivity.
Qed.
Lemma nth_eb F q c : (q < length npairs)%nat -> (c < 3)%nat ->
  nth (3 * q + c) (eb (N:=RNum) s 3 F) 0 = F (fst (nth q npairs (0, 0)%nat)) (ed (fst (nth q npairs (0, 0)%nat)) (snd (nth q npairs (0, 0)%nat))) c.
Proof.
  intros Hq Hc. unfold eb. rewrite epairs_np, flat_map_concat_map, map_map, <- flat_map_concat_map. apply nth_error_nth. replace (3 * q + c)%nat with (q * 3 + c)%nat by lia.
  rewrite nth_error_flat_map_const with (x := nth q npairs (0, 0)%nat) (c := 3%nat); [| |apply nth_error_nth'; exact Hq|exact Hc].
  - destruct c as [|[|[|c]]]; [reflexivity..|lia].
  - intros; apply length_tab.
Qed.
Definition sepc (q : nat * nat) (c : nat) : R := sep (N:=RNum) (atom_x l) (at_node (fst q)) (snd q) c.
Lemma nth_fxyz q c : (q < length npairs)%nat -> (c < 3)%nat -> nth (3 * q + c) (f_xyz s) 0 = sepc (nth q npairs (0, 0)%nat) c.
Proof.
  intros Hq Hc. rewrite xyz_on, kpairs_np, flat_map_concat_map, map_map, <- flat_map_concat_map. apply nth_error_nth. replace (3 * q + c)%nat with (q * 3 + c)%nat by lia.
  rewrite nth_error_flat_map_const with (x := nth q npairs (0, 0)%nat) (c := 3%nat); [|reflexivity|apply nth_error_nth'; exact Hq|exact Hc].
  destruct c as [|[|[|c]]]; [reflexivity..|lia].
Qed.

Lemma tally_rl fl ne na En F (a : accum RNum) : vflag_atom fl = false -> (ne <= length En)%nat -> (ne <= length (eatom a))%nat ->
  length (virial a) = 6%nat -> length (force a) = (3 * na)%nat -> (forall i, In i NI -> (i < na)%nat) ->
  (forall i j, In i NI -> In j (kept (N:=RNum) rc l i) -> (J j < na)%nat) ->
  exists a', tally (N:=RNum) fl ne n NI (f_num_neigh s) (map (fun p => J (snd p)) (kpairs l rc NI)) (f_xyz s) En (eb s 3 F) a = Some a' /\
    length (force a') = length (force a) /\ length (virial a') = length (virial a) /\
    eng_vdwl a' - eng_vdwl a = (if eflag_global fl then total (firstn ne En) else 0) /\
    eatom a' = (if eflag_atom fl then sf (eatom a) (firstn ne En) else eatom a) /\
    (forall k, (k < 6)%nat -> nth k (virial a') 0 - nth k (virial a) 0 =
       if vflag_global fl then rl npairs (fun q => vcomp k (sepc q) (F (fst q) (ed (fst q) (snd q)))) else 0) /\
    (forall k c, (c < 3)%nat -> nth (3 * k + c) (force a') 0 - nth (3 * k + c) (force a) 0 =
       rl npairs (fun q => F (fst q) (ed (fst q) (snd q)) c * (ind (J (snd q)) k - ind (at_node (fst q)) k))).
Proof.
  intros Hva Hne Hea Hv Hf HI HJ. pose proof sum_nn_on as SN.
  assert (LJ : length (map (fun p => J (snd p)) (kpairs l rc NI)) = length npairs) by (rewrite map_length, kpairs_np, map_length; reflexivity).
  assert (LF : length (eb (N:=RNum) s 3 F) = (3 * length npairs)%nat).
  { rewrite length_eb, epairs_np, map_length. lia. }
  assert (LX : length (f_xyz s) = (3 * length npairs)%nat).
  { rewrite xyz_on, (length_gx l), kpairs_np, map_length. reflexivity. }
  rewrite (tally_ok fl ne n na NI (f_num_neigh s) (map (fun p => J (snd p)) (kpairs l rc NI)) (f_xyz s) En (eb (N:=RNum) s 3 F) a); auto.
  - eexists. split; [reflexivity|]. cbn [force virial eng_vdwl eatom]. rewrite SN, eow_on. split; [apply length_frc|]. split; [destruct (vflag_global fl); auto|].
    split; [destruct (eflag_global fl); change (carrier RNum) with R; ring|]. split; [reflexivity|]. split.
    + intros k Hk. destruct (vflag_global fl); [|change (carrier RNum) with R; ring]. rewrite nth_vir by auto. change (carrier RNum) with R. ring_simplify.
      rewrite (rl_nth _ (0, 0)%nat). apply rsum_ext. intros q Hq. apply vcomp_ext; intros c Hc; [apply nth_fxyz|apply nth_eb]; auto.
    + intros k c Hc. rewrite (nth_frc _ _ _ _ na); auto.
      * change (carrier RNum) with R. ring_simplify. rewrite (rl_nth _ (0, 0)%nat). apply rsum_ext. intros q Hq. rewrite nth_eb by auto. rewrite kpairs_np, map_map.
        rewrite !(nth_map_lt _ _ 0%nat (0, 0)%nat) by exact Hq. reflexivity.
      * intros q Hq. split.
        -- apply HI. rewrite <- eow_on. assert (G : In (nth q (eow NI (f_num_neigh s)) 0%nat) (eow NI (f_num_neigh s))) by (apply nth_In; rewrite eow_on, map_length; exact Hq).
           revert G. generalize (nth q (eow NI (f_num_neigh s)) 0%nat) as i. intros i G. rewrite eow_on in G. apply in_map_iff in G. destruct G as (q' & <- & G). unfold npairs in G. apply in_flat_map in G.
           destruct G as (ii & G1 & G2). apply in_seq in G1. apply in_map_iff in G2. destruct G2 as (j & <- & _). cbn [fst]. apply nth_In. lia.
        -- assert (G : In (nth q (map (fun p => J (snd p)) (kpairs l rc NI)) 0%nat) (map (fun p => J (snd p)) (kpairs l rc NI))) by (apply nth_In; lia).
           revert G. generalize (nth q (map (fun p => J (snd p)) (kpairs l rc NI)) 0%nat) as j. intros j G. apply in_map_iff in G. destruct G as (p & <- & G). unfold kpairs in G.
           apply in_flat_map in G. destruct G as (i & G1 & G2). apply in_map_iff in G2. destruct G2 as (j & <- & G2). cbn [snd]. apply (HJ i); auto.
  - rewrite nn_on. apply map_length.
  - rewrite SN. exact LJ.
  - rewrite SN. exact LF.
  - rewrite SN. exact LX.
  - intros j G. apply in_map_iff in G. destruct G as (p & <- & G). unfold kpairs in G.
    apply in_flat_map in G. destruct G as (i & G1 & G2). apply in_map_iff in G2. destruct G2 as (j & <- & G2). cbn [snd]. apply (HJ i); auto.
Qed.
End Tally.
