(** Processes that share the atoms of a serial system: their systems are parts of the serial system. *)
From Coq Require Import List Arith ZArith Lia Bool Reals Lra Permutation.
From Verif Require Import Base BaseLemmas Segs Instances RSums RList MaceModel MaceSpec MaceSpec2 Sys SysLoops MaceGrid MacePure MaceLoad MaceFlat
  PairModel PairMpiModel PairSpec PairThms PairCommSpec DistSpec DistNbr DistAlg.
Import ListNotations.
Local Open Scope nat_scope.

Lemma NoDup_perm_map {A B} (g : A -> B) l : NoDup (map g l) -> forall x y, In x l -> In y l -> g x = g y -> x = y.
Proof.
  induction l as [|a l IH]; intros H x y Hx Hy E; [destruct Hx|]. cbn [map] in H. inversion H as [|? ? N1 N2]; subst.
  destruct Hx as [<-|Hx], Hy as [<-|Hy]; auto.
  - exfalso. apply N1. rewrite E. apply in_map. exact Hy.
  - exfalso. apply N1. rewrite <- E. apply in_map. exact Hx.
Qed.
Lemma position_inj a b l : In a l -> In b l -> position a l = position b l -> a = b.
Proof.
  induction l as [|x l IH]; intros Ha Hb E; [destruct Ha|]. cbn [position] in E. destruct (Nat.eqb_spec a x), (Nat.eqb_spec b x); subst; auto; try discriminate.
  injection E as E. destruct Ha as [Ha|Ha]; [congruence|]. destruct Hb as [Hb|Hb]; [congruence|]. auto.
Qed.
Lemma nth_position a l : In a l -> nth (position a l) l 0 = a.
Proof.
  induction l as [|x l IH]; intros H; [destruct H|]. cbn [position]. destruct (Nat.eqb_spec a x); [auto|]. destruct H as [H|H]; [congruence|]. cbn [nth]. auto.
Qed.

Section Tags.
Variable types : list nat.
Variable rc : R.
Variable L : lmp RNum.
Variable owner : nat -> nat.
Notation B := (ilist L).
Hypothesis HL : lmp_ok (length types) B L.
Hypothesis O : owner_ok owner L.
Notation nallL := (nlocal L + nghost L).
Hypothesis Hown : forall j, j < nallL -> tag L (owner j) = tag L j.
Notation LT := (local_tags L).

(** node of the serial system behind a tag *)
Definition gslot (t : nat) : nat := position (position t LT) B.
Notation S := (sys_on (N:=RNum) types rc L (fun j => position (owner j) B) B).

Lemma LT_len : length LT = nlocal L.
Proof. unfold local_tags. rewrite firstn_length, (oo_tag _ _ O). lia. Qed.
Lemma LT_nth a : a < nlocal L -> nth a LT 0 = tag L a.
Proof. intros H. unfold local_tags, tag. apply nth_firstn_lt. exact H. Qed.
Lemma LT_in a : a < nlocal L -> In (tag L a) LT.
Proof. intros H. rewrite <- LT_nth by exact H. apply nth_In. rewrite LT_len. exact H. Qed.
Lemma LT_nodup : NoDup LT.
Proof.
  apply NoDup_nth with (d := 0). intros a b Ha Hb E. rewrite LT_len in *. rewrite !LT_nth in E by auto. unfold tag in E.
  pose proof (oo_map _ _ O a ltac:(lia)) as E1. pose proof (oo_map _ _ O b ltac:(lia)) as E2. rewrite E in E1.
  rewrite !(oo_self _ _ O) in * by auto. congruence.
Qed.
Lemma LT_pos a : a < nlocal L -> position (tag L a) LT = a.
Proof. intros H. rewrite <- LT_nth by exact H. apply position_nth; [apply LT_nodup|rewrite LT_len; exact H]. Qed.
Lemma gslot_tag j : j < nallL -> gslot (tag L j) = position (owner j) B.
Proof. intros H. unfold gslot. rewrite <- Hown by exact H. rewrite LT_pos; [reflexivity|]. apply (oo_lt _ _ O). exact H. Qed.
Lemma LT_inv t : In t LT -> exists a, a < nlocal L /\ tag L a = t /\ position t LT = a.
Proof.
  intros H. exists (position t LT). assert (P : position t LT < nlocal L) by (rewrite <- LT_len; apply position_lt; exact H).
  split; [exact P|]. split; [|reflexivity]. rewrite <- LT_nth by exact P. apply nth_position. exact H.
Qed.
Lemma gslot_lt t : In t LT -> gslot t < length B.
Proof. intros H. destruct (LT_inv t H) as (a & H1 & _ & H2). unfold gslot. rewrite H2. apply position_lt. apply (il_in L types HL). exact H1. Qed.
Lemma gslot_inj t t' : In t LT -> In t' LT -> gslot t = gslot t' -> t = t'.
Proof.
  intros H H' E. destruct (LT_inv t H) as (a & H1 & H2 & H3). destruct (LT_inv t' H') as (a' & H1' & H2' & H3'). unfold gslot in E. rewrite H3, H3' in E.
  apply position_inj in E; try (apply (il_in L types HL); assumption). congruence.
Qed.
(** atom of the serial system behind a tag *)
Lemma gslot_atom t : In t LT -> nth (gslot t) B 0 < nlocal L /\ tag L (nth (gslot t) B 0) = t.
Proof.
  intros H. destruct (LT_inv t H) as (a & H1 & H2 & H3). unfold gslot. rewrite H3, nth_position by (apply (il_in L types HL); exact H1). auto.
Qed.
Lemma gslot_nth g : g < length B -> gslot (tag L (nth g B 0)) = g.
Proof.
  intros H. assert (Ha : nth g B 0 < nlocal L) by (apply (il_in L types HL), nth_In, H). rewrite gslot_tag by lia. rewrite (oo_self _ _ O) by exact Ha.
  apply position_nth; [apply (il_nodup L types HL)|exact H].
Qed.
Lemma gslot_perm : Permutation (map gslot LT) (seq 0 (length B)).
Proof.
  assert (Hlen : length B = nlocal L) by (rewrite (il_len L types HL); apply (lo_il _ _ _ HL)).
  apply NoDup_Permutation_bis.
  - apply NoDup_nth with (d := 0). rewrite map_length, LT_len. intros a b Ha Hb E.
    assert (Z : forall c, c < nlocal L -> nth c (map gslot LT) 0 = gslot (nth c LT 0)).
    { intros c Hc. apply nth_error_nth. rewrite nth_error_map, (nth_error_nth' _ 0) by (rewrite LT_len; exact Hc). reflexivity. }
    rewrite !Z in E by auto. apply gslot_inj in E; try (apply nth_In; rewrite LT_len; assumption). pose proof LT_nodup as ND. rewrite NoDup_nth in ND. apply ND in E; rewrite ?LT_len; auto.
  - rewrite map_length, seq_length, LT_len. lia.
  - intros g Hg. apply in_map_iff in Hg. destruct Hg as (t & <- & Ht). apply in_seq. pose proof (gslot_lt t Ht). lia.
Qed.

(** the surroundings of an atom as edges of the serial system *)
Definition env_edge (v : nat * nat * (RNum * RNum * RNum)) : edge RNum :=
  let '(t, y, (a, b, c)) := v in mkEdge (nth (y - 1) types 0) (gslot t) a b c (nsqrt (n:=RNum) (nadd (n:=RNum) (nadd (n:=RNum) (nmul (n:=RNum) a a) (nmul (n:=RNum) b b)) (nmul (n:=RNum) c c))).

Lemma kept_nall i j : i < nlocal L -> In j (kept (N:=RNum) rc L i) -> j < nallL.
Proof.
  intros Hi Hj. unfold kept in Hj. apply filter_In in Hj. destruct (lo_A _ _ _ HL i) as (_ & _ & _ & _ & A); [apply (il_in L types HL); exact Hi|]. apply A, Hj.
Qed.
Lemma es_S g : g < length B -> es S g = map env_edge (env (N:=RNum) rc L (nth g B 0)).
Proof.
  intros Hg. rewrite es_on by exact Hg. unfold env. rewrite map_map. apply map_ext_in. intros j Hj. unfold nbr_edge, env_edge.
  rewrite gslot_tag; [reflexivity|]. eapply kept_nall; [|exact Hj]. apply (il_in L types HL), nth_In, Hg.
Qed.
Lemma es_rank (l : lmp RNum) ix ps D ii : ii < length D ->
  (forall j, In j (kept (N:=RNum) rc l (nth ii D 0)) -> ps (ix j) = gslot (tag l j)) ->
  map (re ps) (es (sys_on (N:=RNum) types rc l ix D) ii) = map env_edge (env (N:=RNum) rc l (nth ii D 0)).
Proof.
  intros Hi Hps. rewrite es_on by exact Hi. unfold env. rewrite !map_map. apply map_ext_in. intros j Hj. unfold re, nbr_edge, env_edge. cbn [e_type e_idx e_x e_y e_z e_r].
  rewrite Hps by exact Hj. reflexivity.
Qed.

(** the serial system is the evaluated one *)
Lemma flat_S : flat S = nd_input (N:=RNum) types rc owner L.
Proof.
  unfold flat. rewrite length_on, nt_on, nn_on, ix_on, et_on, r_on, xyz_on. unfold nd_input. f_equal.
  - apply (map_kpairs L rc (fun _ j => position (owner j) B)).
  - apply (map_kpairs L rc (fun _ j => spec_of types L j)).
  - apply (flat_kpairs L rc (fun i j => [sep (N:=RNum) (atom_x L) i j 0; sep (N:=RNum) (atom_x L) i j 1; sep (N:=RNum) (atom_x L) i j 2])).
  - apply (map_kpairs L rc (fun i j => nsqrt (n:=RNum) (sep2 (N:=RNum) (atom_x L) i j))).
Qed.

Section Ranks.
Variable needed : lmp RNum -> list nat.
Variable ranks : list (lmp RNum).
Hypothesis SP : split_ok (length types) (rc : RNum) owner needed L ranks.

Section Rank.
Variable l : lmp RNum.
Hypothesis Hl : In l ranks.
Variables (ix ps : nat -> nat) (D : list nat).
Hypothesis HD : forall i, In i D -> In i (needed l).
Notation s := (sys_on (N:=RNum) types rc l ix D).
Notation ph ii := (gslot (tag l (nth ii D 0))).

Lemma need_lt i : In i (needed l) -> i < nlocal l + nghost l.
Proof. intros H. destruct (sp_rank _ _ _ _ _ _ SP l Hl) as [A _]. exact (proj1 (lo_A _ _ _ A i H)). Qed.
Lemma kept_lt i j : In i (needed l) -> In j (kept (N:=RNum) rc l i) -> j < nlocal l + nghost l.
Proof.
  intros H Hj. destruct (sp_rank _ _ _ _ _ _ SP l Hl) as [A _]. destruct (lo_A _ _ _ A i H) as (_ & _ & _ & _ & A'). apply A'. unfold kept in Hj. apply filter_In in Hj. apply Hj.
Qed.
Lemma tag_LT j : j < nlocal l + nghost l -> In (tag l j) LT.
Proof. apply (sp_ghost _ _ _ _ _ _ SP l j Hl). Qed.
Lemma node_need ii : ii < length D -> In (nth ii D 0) (needed l).
Proof. intros H. apply HD, nth_In, H. Qed.
Lemma rank_lt ii : ii < length D -> ph ii < length S.
Proof. intros H. rewrite length_on. apply gslot_lt, tag_LT, need_lt, node_need, H. Qed.
Lemma rank_ty ii : ii < length D -> ty s ii = ty S (ph ii).
Proof.
  intros H. pose proof (rank_lt ii H) as G. rewrite length_on in G. rewrite !ty_on by assumption. unfold spec_of.
  destruct (gslot_atom (tag l (nth ii D 0))) as [A1 A2]; [apply tag_LT, need_lt, node_need, H|].
  destruct (sp_env _ _ _ _ _ _ SP l (nth ii D 0) _ Hl (node_need ii H) A1 (eq_sym A2)) as [E _]. rewrite E. reflexivity.
Qed.
Lemma rank_env ii : ii < length D -> Permutation (map env_edge (env (N:=RNum) rc l (nth ii D 0))) (es S (ph ii)).
Proof.
  intros H. pose proof (rank_lt ii H) as G. rewrite length_on in G. rewrite (es_S (ph ii)) by exact G.
  destruct (gslot_atom (tag l (nth ii D 0))) as [A1 A2]; [apply tag_LT, need_lt, node_need, H|].
  destruct (sp_env _ _ _ _ _ _ SP l (nth ii D 0) _ Hl (node_need ii H) A1 (eq_sym A2)) as [_ E].
  apply Permutation_map. exact E.
Qed.
Lemma rank_es ii : ii < length D -> (forall j, In j (kept (N:=RNum) rc l (nth ii D 0)) -> ps (ix j) = gslot (tag l j)) ->
  Permutation (map (re ps) (es s ii)) (es S (ph ii)).
Proof. intros H Hps. rewrite es_rank by assumption. apply rank_env. exact H. Qed.
(** up to the indices of the neighbours this needs no condition on the indices *)
Lemma rank_es0 ii : ii < length D -> Permutation (map strip (es s ii)) (map strip (es S (ph ii))).
Proof.
  intros H. rewrite <- (Permutation_map strip (rank_env ii H)). rewrite es_on by exact H. unfold env. rewrite !map_map. 
  apply Permutation_refl.
Qed.

(** the evaluation of the process stays inside the domain of the tables *)
Lemma rank_wf (m : mace_model RNum) nH : sys_wf m S (length S) ->
  (forall ii j, ii < length D -> In j (kept (N:=RNum) rc l (nth ii D 0)) -> ix j < nH) -> sys_wf m s nH.
Proof.
  intros [W1 W2 W3 W4 W5 W6 W7] Hix.
  assert (M : forall ii e, ii < length s -> In e (es s ii) -> exists e', ph ii < length S /\ In e' (es S (ph ii)) /\ ty s ii = ty S (ph ii) /\ e_type e = e_type e' /\ e_r e = e_r e').
  { intros ii e Hi He. rewrite length_on in Hi. pose proof (rank_es0 ii Hi) as PM.
    assert (I : In (strip e) (map strip (es S (ph ii)))) by (apply (Permutation_in _ PM), in_map, He).
    apply in_map_iff in I. destruct I as (e' & E & I). exists e'. split; [apply rank_lt; exact Hi|]. split; [exact I|]. split; [apply rank_ty; exact Hi|].
    destruct e, e'. unfold strip, re in E. cbn in *. injection E as <- _ _ _ <-. auto. }
  constructor.
  - intros ii Hi. rewrite length_on in Hi. rewrite rank_ty by exact Hi. apply W1, rank_lt, Hi.
  - intros ii e Hi He. destruct (M ii e Hi He) as (e' & A & I & T & Et & Er). rewrite Et. eapply W2; eauto.
  - intros ii e Hi He. rewrite length_on in Hi. rewrite es_on in He by exact Hi. apply in_map_iff in He. destruct He as (j & <- & Hj). cbn [nbr_edge e_idx]. eapply Hix; eauto.
  - intros ii e Hi He. destruct (M ii e Hi He) as (e' & A & I & T & Et & Er). rewrite T, Et, Er. apply W4; auto.
  - intros ii e Hi He. destruct (M ii e Hi He) as (e' & A & I & T & Et & Er). rewrite T, Et, Er. apply W5; auto.
  - intros Hsc ii e Hi He. destruct (M ii e Hi He) as (e' & A & I & T & Et & Er). rewrite T, Et, Er. apply W6; auto.
  - intros Hsc ii e Hi He. destruct (M ii e Hi He) as (e' & A & I & T & Et & Er). rewrite T, Et, Er. apply W7; auto.
Qed.
End Rank.

(** every node of the serial system is a local atom of exactly one process *)
Lemma map_nth_seq {A C} (g : A -> C) (l : list A) d : map g l = map (fun i => g (nth i l d)) (seq 0 (length l)).
Proof. rewrite (tab_nth l d) at 1. unfold tab. rewrite map_map. reflexivity. Qed.
Lemma ranks_part (lr : nat -> lmp RNum) : ranks = map lr (seq 0 (length ranks)) ->
  Permutation (flat_map (fun r => map (fun i => gslot (tag (lr r) i)) (seq 0 (nlocal (lr r)))) (seq 0 (length ranks))) (seq 0 (length B)).
Proof.
  intros Hr. transitivity (map gslot LT); [|apply gslot_perm]. rewrite <- (Permutation_map gslot (sp_part _ _ _ _ _ _ SP)). rewrite Hr at 2.
  rewrite map_flat_map, (flat_map_concat_map _ (map lr _)), map_map, <- flat_map_concat_map.
  apply Permutation_refl'. apply flat_map_ext_in. intros r Hin. 
  assert (Hl : In (lr r) ranks) by (rewrite Hr; apply in_map; exact Hin).
  destruct (sp_rank _ _ _ _ _ _ SP _ Hl) as [_ A].
  rewrite (map_nth_seq gslot (local_tags (lr r)) 0). unfold local_tags at 2. rewrite firstn_length, A. replace (Nat.min (nlocal (lr r)) (nlocal (lr r) + nghost (lr r))) with (nlocal (lr r)) by lia.
  apply map_ext_in. intros i Hi. apply in_seq in Hi. unfold local_tags, tag. rewrite nth_firstn_lt by lia. reflexivity.
Qed.
End Ranks.
End Tags.
