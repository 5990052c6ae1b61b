(** What the processes add to their accumulators, taken together. *)
From Coq Require Import List Arith ZArith Lia Bool Reals Lra Permutation.
From Verif Require Import Base BaseLemmas Segs Instances RSums RList MaceModel MaceGradSpec Sys SysLoops MaceGrid MaceStages1 MacePure MaceHsrc AseGrad
  PairModel PairMpiModel PairSpec PairCommSpec PairComm PairThms PairTally DistNbr DistAlg DistSpec DistTally DistSum DistTags.
Import ListNotations.
Local Open Scope R_scope.

(** what the end of a compute function adds *)
Record tallied (types : list nat) (rc : R) (l : lmp RNum) (ix J : nat -> nat) (NI : list nat) (fl : ev) (En : list R)
    (F : nat -> edge RNum -> nat -> RNum) (a a' : accum RNum) : Prop := {
  tl_f : length (force a') = length (force a);
  tl_v : length (virial a') = length (virial a);
  tl_energy : eng_vdwl a' - eng_vdwl a = (if eflag_global fl then total En else 0);
  tl_eatom : eatom a' = (if eflag_atom fl then sf (A:=R) (eatom a) En else eatom a);
  tl_virial : forall k, (k < 6)%nat -> nth k (virial a') 0 - nth k (virial a) 0 =
       if vflag_global fl then rl (npairs rc l NI) (fun q => vcomp k (sepc l NI q) (F (fst q) (nbr_edge (N:=RNum) types l ix (nth (fst q) NI 0%nat) (snd q)))) else 0;
  tl_force : forall k c, (c < 3)%nat -> nth (3 * k + c) (force a') 0 - nth (3 * k + c) (force a) 0 =
       rl (npairs rc l NI) (fun q => F (fst q) (nbr_edge (N:=RNum) types l ix (nth (fst q) NI 0%nat) (snd q)) c * (ind (J (snd q)) k - ind (nth (fst q) NI 0%nat) k))
}.
Lemma tally_tallied types rc l ix J NI fl ne na En F (a : accum RNum) : vflag_atom fl = false -> (ne <= length En)%nat -> (ne <= length (eatom a))%nat ->
  length (virial a) = 6%nat -> length (force a) = (3 * na)%nat -> (forall i, In i NI -> (i < na)%nat) ->
  (forall i j, In i NI -> In j (kept (N:=RNum) rc l i) -> (J j < na)%nat) ->
  exists a', tally (N:=RNum) fl ne (length NI) NI (f_num_neigh (sys_on (N:=RNum) types rc l ix NI)) (map (fun p => J (snd p)) (kpairs l rc NI))
      (f_xyz (sys_on (N:=RNum) types rc l ix NI)) En (eb (sys_on (N:=RNum) types rc l ix NI) 3 F) a = Some a' /\
    tallied types rc l ix J NI fl (firstn ne En) F a a'.
Proof.
  intros H1 H2 H3 H4 H5 H6 H7. destruct (tally_rl types rc l ix J NI fl ne na En F a H1 H2 H3 H4 H5 H6 H7) as (a' & E & T1 & T2 & T3 & T4 & T5 & T6).
  exists a'. split; [exact E|]. constructor; assumption.
Qed.

(** neighbour vector of an edge *)
Definition evec (e : edge RNum) (c : nat) : R := match c with 0%nat => e_x e | 1%nat => e_y e | 2%nat => e_z e | _ => 0 end.

Section Join.
Variable types : list nat.
Variable rc : R.
Variable L : lmp RNum.
Variable owner : nat -> nat.
Notation B := (ilist L).
Hypothesis HL : lmp_ok (length types) B L.
Hypothesis O : owner_ok owner L.
Variable needed : lmp RNum -> list nat.
Variable ranks : list (lmp RNum).
Hypothesis SP : split_ok (length types) (rc : RNum) owner needed L ranks.
Notation P := (length ranks).
Notation S := (sys_on (N:=RNum) types rc L (fun j => position (owner j) B) B).
Notation lr r := (nth r ranks L).
Notation nall r := (nlocal (lr r) + nghost (lr r))%nat.
Notation gl r j := (gslot L (tag (lr r) j)).
Notation tags := (map (fun l : lmp RNum => atom_tag l) ranks).

Variable NI : nat -> list nat.
Variable ix : nat -> nat -> nat.
Variable psi : nat -> nat -> nat.
Notation ss r := (sys_on (N:=RNum) types rc (lr r) (ix r) (NI r)).
Hypothesis HNI : forall r i, (r < P)%nat -> In i (NI r) -> In i (needed (lr r)).
Hypothesis Hps : forall r i j, (r < P)%nat -> In i (NI r) -> In j (kept (N:=RNum) rc (lr r) i) -> psi r (ix r j) = gl r j.

Variable FS : nat -> edge RNum -> nat -> RNum.
Variable Fr : nat -> nat -> edge RNum -> nat -> RNum.
(** the processes' edge forces are those of the serial system, tested against any function of the edges *)
Hypothesis HT : forall c (X : nat -> edge RNum -> R), (c < 3)%nat ->
  rl (seq 0 P) (fun r => rl (epairs (ss r)) (fun p => Fr r (fst p) (snd p) c * X (gl r (nth (fst p) (NI r) 0%nat)) (re (psi r) (snd p)))) =
  rl (epairs S) (fun p => FS (fst p) (snd p) c * X (fst p) (snd p)).

Variable fl : ev.
Variables En : nat -> list R.
Variable ES : list R.
Variables as_ as' : nat -> accum RNum.
Variables a a' : accum RNum.
Hypothesis TR : forall r, (r < P)%nat -> tallied types rc (lr r) (ix r) (fun j => j) (NI r) fl (En r) (Fr r) (as_ r) (as' r).
Hypothesis TS : tallied types rc L (fun j => position (owner j) B) owner B fl ES FS a a'.
Hypothesis HE : rl (seq 0 P) (fun r => total (En r)) = total ES.

Lemma join_energy : rl (seq 0 P) (fun r => eng_vdwl (as' r) - eng_vdwl (as_ r)) = eng_vdwl a' - eng_vdwl a.
Proof.
  rewrite (tl_energy _ _ _ _ _ _ _ _ _ _ _ TS). rewrite (rl_ext _ _ (fun r => if eflag_global fl then total (En r) else 0)).
  - rewrite rl_if_const, HE. reflexivity.
  - intros r Hr. apply in_seq in Hr. apply (tl_energy _ _ _ _ _ _ _ _ _ _ _ (TR r ltac:(lia))).
Qed.

Lemma npairs_in r q : (r < P)%nat -> In q (npairs rc (lr r) (NI r)) -> (fst q < length (NI r))%nat /\ In (nth (fst q) (NI r) 0%nat) (NI r) /\ In (snd q) (kept (N:=RNum) rc (lr r) (nth (fst q) (NI r) 0%nat)).
Proof.
  intros Hr Hq. unfold npairs in Hq. apply in_flat_map in Hq. destruct Hq as (ii & H1 & H2). apply in_seq in H1. apply in_map_iff in H2. destruct H2 as (j & <- & H2). cbn [fst snd].
  split; [lia|]. split; [apply nth_In; lia|exact H2].
Qed.
Lemma tested c (X : nat -> edge RNum -> R) (Y : nat -> nat -> nat -> R) : (c < 3)%nat ->
  (forall r ii j, (r < P)%nat -> (ii < length (NI r))%nat -> In j (kept (N:=RNum) rc (lr r) (nth ii (NI r) 0%nat)) ->
     Y r ii j = X (gl r (nth ii (NI r) 0%nat)) (re (psi r) (nbr_edge (N:=RNum) types (lr r) (ix r) (nth ii (NI r) 0%nat) j))) ->
  rl (seq 0 P) (fun r => rl (npairs rc (lr r) (NI r)) (fun q => Fr r (fst q) (nbr_edge (N:=RNum) types (lr r) (ix r) (nth (fst q) (NI r) 0%nat) (snd q)) c * Y r (fst q) (snd q))) =
  rl (npairs rc L B) (fun q => FS (fst q) (nbr_edge (N:=RNum) types L (fun j => position (owner j) B) (nth (fst q) B 0%nat) (snd q)) c *
     X (fst q) (nbr_edge (N:=RNum) types L (fun j => position (owner j) B) (nth (fst q) B 0%nat) (snd q))).
Proof.
  intros Hc HY. etransitivity; [|etransitivity; [exact (HT c X Hc)|]].
  - apply rl_ext. intros r Hr. apply in_seq in Hr. rewrite epairs_np, rl_map. apply rl_ext. intros q Hq. cbn [fst snd].
    destruct (npairs_in r q ltac:(lia) Hq) as (Q1 & Q2 & Q3). rewrite (HY r _ _ ltac:(lia) Q1 Q3). reflexivity.
  - rewrite epairs_np, rl_map. reflexivity.
Qed.

Lemma join_virial k : (k < 6)%nat -> rl (seq 0 P) (fun r => nth k (virial (as' r)) 0 - nth k (virial (as_ r)) 0) = nth k (virial a') 0 - nth k (virial a) 0.
Proof.
  intros Hk. rewrite (tl_virial _ _ _ _ _ _ _ _ _ _ _ TS k Hk).
  rewrite (rl_ext _ _ (fun r => if vflag_global fl then rl (npairs rc (lr r) (NI r)) (fun q => vcomp k (sepc (lr r) (NI r) q) (Fr r (fst q) (nbr_edge (N:=RNum) types (lr r) (ix r) (nth (fst q) (NI r) 0%nat) (snd q)))) else 0)).
  2:{ intros r Hr. apply in_seq in Hr. apply (tl_virial _ _ _ _ _ _ _ _ _ _ _ (TR r ltac:(lia)) k Hk). }
  rewrite rl_if_const. destruct (vflag_global fl); [|reflexivity].
  assert (T : forall c d, (c < 3)%nat -> (d < 3)%nat ->
    rl (seq 0 P) (fun r => rl (npairs rc (lr r) (NI r)) (fun q => Fr r (fst q) (nbr_edge (N:=RNum) types (lr r) (ix r) (nth (fst q) (NI r) 0%nat) (snd q)) c * sepc (lr r) (NI r) q d)) =
    rl (npairs rc L B) (fun q => FS (fst q) (nbr_edge (N:=RNum) types L (fun j => position (owner j) B) (nth (fst q) B 0%nat) (snd q)) c * sepc L B q d)).
  { intros c d Hc Hd. transitivity (rl (npairs rc L B) (fun q => FS (fst q) (nbr_edge (N:=RNum) types L (fun j => position (owner j) B) (nth (fst q) B 0%nat) (snd q)) c *
      evec (nbr_edge (N:=RNum) types L (fun j => position (owner j) B) (nth (fst q) B 0%nat) (snd q)) d)).
    - rewrite <- (tested c (fun _ e => evec e d) (fun r ii j => sepc (lr r) (NI r) (ii, j) d) Hc).
      + apply rl_ext. intros r _. apply rl_ext. intros [ii j] _. reflexivity.
      + intros r ii j _ _ _. unfold sepc. cbn [fst snd]. destruct d as [|[|[|d]]]; [reflexivity..|lia].
    - apply rl_ext. intros q _. apply (f_equal (Rmult _)). destruct d as [|[|[|d]]]; [reflexivity..|lia]. }
  assert (E : forall c d, rl (seq 0 P) (fun r => rl (npairs rc (lr r) (NI r)) (fun q => sepc (lr r) (NI r) q d * Fr r (fst q) (nbr_edge (N:=RNum) types (lr r) (ix r) (nth (fst q) (NI r) 0%nat) (snd q)) c)) =
    rl (seq 0 P) (fun r => rl (npairs rc (lr r) (NI r)) (fun q => Fr r (fst q) (nbr_edge (N:=RNum) types (lr r) (ix r) (nth (fst q) (NI r) 0%nat) (snd q)) c * sepc (lr r) (NI r) q d))).
  { intros c d. apply rl_ext. intros r _. apply rl_ext. intros q _. apply Rmult_comm. }
  assert (E' : forall c d, rl (npairs rc L B) (fun q => sepc L B q d * FS (fst q) (nbr_edge (N:=RNum) types L (fun j => position (owner j) B) (nth (fst q) B 0%nat) (snd q)) c) =
    rl (npairs rc L B) (fun q => FS (fst q) (nbr_edge (N:=RNum) types L (fun j => position (owner j) B) (nth (fst q) B 0%nat) (snd q)) c * sepc L B q d)).
  { intros c d. apply rl_ext. intros q _. apply Rmult_comm. }
  assert (C : forall u v, rl (seq 0 P) (fun r => rl (npairs rc (lr r) (NI r)) (fun q => / 2 * (u r q + v r q))) =
    / 2 * (rl (seq 0 P) (fun r => rl (npairs rc (lr r) (NI r)) (u r)) + rl (seq 0 P) (fun r => rl (npairs rc (lr r) (NI r)) (v r)))).
  { intros u v. rewrite <- rl_plus, <- rl_scal. apply rl_ext. intros r _. rewrite <- rl_plus, <- rl_scal. reflexivity. }
  destruct k as [|[|[|[|[|[|k]]]]]]; [| | | | | |lia]; cbn [vcomp].
  - rewrite E, E'. apply T; lia.
  - rewrite E, E'. apply T; lia.
  - rewrite E, E'. apply T; lia.
  - rewrite C, !E, (T 1 0)%nat, (T 0 1)%nat by lia. rewrite rl_scal, rl_plus, !E'. reflexivity.
  - rewrite C, !E, (T 2 0)%nat, (T 0 2)%nat by lia. rewrite rl_scal, rl_plus, !E'. reflexivity.
  - rewrite C, !E, (T 2 1)%nat, (T 1 2)%nat by lia. rewrite rl_scal, rl_plus, !E'. reflexivity.
Qed.

Lemma lr_In r : (r < P)%nat -> In (lr r) ranks.
Proof. intros H. apply nth_In. exact H. Qed.
Lemma tagged_rl t g : rl (tagged tags t) g = rl (seq 0 P) (fun r => rl (seq 0 (nall r)) (fun j => if (tag (lr r) j =? t)%nat then g (r, j) else 0)).
Proof.
  unfold tagged, atoms. rewrite rl_filter, rl_flat_map, !map_length. apply rl_ext. intros r Hr. apply in_seq in Hr.
  assert (E : nth_error tags r = Some (atom_tag (lr r))) by (rewrite nth_error_map, (nth_error_nth' _ L) by lia; reflexivity).
  assert (E1 : nth r (map (length (A:=nat)) tags) 0%nat = nall r).
  { destruct (sp_rank _ _ _ _ _ _ SP (lr r) (lr_In r ltac:(lia))) as [_ E1]. rewrite <- E1. apply nth_error_nth. rewrite nth_error_map, E. reflexivity. }
  rewrite rl_map, E1. apply rl_ext. intros j _. unfold tag_at. cbn [fst snd].
  assert (E2 : nth r tags [] = atom_tag (lr r)) by (apply nth_error_nth; exact E). rewrite E2. reflexivity.
Qed.

Lemma join_force i c : (i < nlocal L)%nat -> (c < 3)%nat ->
  rl (tagged tags (tag L i)) (fun z => nth (3 * snd z + c) (force (as' (fst z))) 0 - nth (3 * snd z + c) (force (as_ (fst z))) 0) =
  nth (3 * i + c) (force a') 0 - nth (3 * i + c) (force a) 0.
Proof.
  intros Hi Hc. set (t := tag L i). set (gt := gslot L t).
  assert (Ht : In t (local_tags L)) by (apply (LT_in L owner O); exact Hi).
  rewrite (tl_force _ _ _ _ _ _ _ _ _ _ _ TS i c Hc), tagged_rl.
  transitivity (rl (seq 0 P) (fun r => rl (npairs rc (lr r) (NI r)) (fun q => Fr r (fst q) (nbr_edge (N:=RNum) types (lr r) (ix r) (nth (fst q) (NI r) 0%nat) (snd q)) c *
     (ind (tag (lr r) (snd q)) t - ind (tag (lr r) (nth (fst q) (NI r) 0%nat)) t)))).
  - apply rl_ext. intros r Hr. apply in_seq in Hr. cbn [fst snd].
    rewrite (rl_ext _ _ (fun j => rl (npairs rc (lr r) (NI r)) (fun q => if (tag (lr r) j =? t)%nat then Fr r (fst q) (nbr_edge (N:=RNum) types (lr r) (ix r) (nth (fst q) (NI r) 0%nat) (snd q)) c *
      (ind (snd q) j - ind (nth (fst q) (NI r) 0%nat) j) else 0))).
    2:{ intros j _. rewrite rl_if_const. destruct (tag (lr r) j =? t)%nat; [|reflexivity]. apply (tl_force _ _ _ _ _ _ _ _ _ _ _ (TR r ltac:(lia)) j c Hc). }
    rewrite rl_swap. apply rl_ext. intros q Hq. destruct (npairs_in r q ltac:(lia) Hq) as (Q1 & Q2 & Q3).
    assert (B1 : (nth (fst q) (NI r) 0 < nall r)%nat) by (apply (need_lt types rc L owner needed ranks SP (lr r) (lr_In r ltac:(lia))), HNI; [lia|exact Q2]).
    assert (B2 : (snd q < nall r)%nat) by (apply (kept_lt types rc L owner needed ranks SP (lr r) (lr_In r ltac:(lia)) _ _ (HNI r _ ltac:(lia) Q2) Q3)).
    set (F0 := Fr r (fst q) _ c). 
    rewrite (rl_ext _ _ (fun j => F0 * ((if (snd q =? j)%nat then ind (tag (lr r) j) t else 0) - (if (nth (fst q) (NI r) 0 =? j)%nat then ind (tag (lr r) j) t else 0)))).
    + rewrite rl_scal, rl_minus, !rl_pick by assumption. reflexivity.
    + intros j _. unfold ind. destruct (tag (lr r) j =? t)%nat, (snd q =? j)%nat, (nth (fst q) (NI r) 0 =? j)%nat; ring.
  - rewrite (tested c (fun g e => ind (e_idx e) gt - ind g gt) (fun r ii j => ind (tag (lr r) j) t - ind (tag (lr r) (nth ii (NI r) 0%nat)) t)); [|exact Hc|].
    + apply rl_ext. intros [ii j] Hq. cbn [fst snd nbr_edge e_idx]. apply (f_equal (Rmult _)).
      unfold npairs in Hq. apply in_flat_map in Hq. destruct Hq as (ii' & H1 & H2). apply in_seq in H1. apply in_map_iff in H2. destruct H2 as (j' & E & H2). injection E as -> ->.
      assert (Eg : gt = position i B) by (unfold gt, t; rewrite (gslot_tag L owner O (sp_owner _ _ _ _ _ _ SP)) by lia; rewrite (oo_self _ _ O) by exact Hi; reflexivity).
      assert (HiB : In i B) by (apply (il_in L types HL); exact Hi).
      assert (Hb : In (nth ii B 0%nat) B) by (apply nth_In; lia).
      assert (Hj : (j < nlocal L + nghost L)%nat) by (apply (kept_nall types rc L HL (nth ii B 0%nat)); [apply (il_in L types HL); exact Hb|exact H2]).
      assert (HoB : In (owner j) B) by (apply (il_in L types HL), (oo_lt _ _ O); exact Hj).
      rewrite Eg. unfold ind. f_equal; [|f_equal]; match goal with |- (if ?x then _ else _) = (if ?y then _ else _) => replace x with y; [reflexivity|] end.
      * destruct (Nat.eqb_spec (owner j) i) as [->|Ne]; [symmetry; apply Nat.eqb_refl|]. symmetry. apply Nat.eqb_neq. intros E. apply Ne. eapply position_inj; eauto.
      * destruct (Nat.eqb_spec (nth ii B 0%nat) i) as [E|Ne].
        -- subst i. rewrite position_nth; [symmetry; apply Nat.eqb_refl|apply (il_nodup L types HL)|lia].
        -- symmetry. apply Nat.eqb_neq. intros E. apply Ne. rewrite E. apply nth_position. exact HiB.
    + intros r ii j Hr Hii Hj. pose proof (nth_In (NI r) 0%nat Hii) as Hin. cbn [re nbr_edge e_idx]. rewrite (Hps r (nth ii (NI r) 0%nat)) by assumption.
      assert (X : forall k, (k < nall r)%nat -> ind (tag (lr r) k) t = ind (gl r k) gt).
      { intros k Hk. unfold ind. match goal with |- (if ?x then _ else _) = (if ?y then _ else _) => replace x with y; [reflexivity|] end.
        destruct (Nat.eqb_spec (tag (lr r) k) t) as [E|Ne]; [unfold gt; rewrite E; apply Nat.eqb_refl|]. apply Nat.eqb_neq. intros E. apply Ne.
        apply (gslot_inj types L owner HL O); [|exact Ht|exact E]. apply (tag_LT types rc L owner needed ranks SP _ (lr_In r Hr)). exact Hk. }
      rewrite !X; [reflexivity| |].
      * apply (need_lt types rc L owner needed ranks SP (lr r) (lr_In r Hr)), HNI; assumption.
      * apply (kept_lt types rc L owner needed ranks SP (lr r) (lr_In r Hr) _ _ (HNI r _ Hr Hin) Hj).
Qed.
End Join.
