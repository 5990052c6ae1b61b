(** The ASE calculator and the LAMMPS pair style agree. *)
From Coq Require Import List Arith ZArith Lia Bool Permutation Reals Lra.
From Verif Require Import Base BaseLemmas Instances RSums RList MpSpec MaceModel MaceSpec MaceSpec2 MaceGradSpec MaceTab MaceLoad MaceThms MaceForces ExportPolySpec EnergySpec EnergyProofs ExportSubset
  AseModel AseSpec AseThms AseGrad PairModel PairSpec PairThms PairTally PairGrad SymSpec SymProofs SymForces SymAse SymPairSpec SymPair CoverSpec Cover CoverForces CoverAse AgreeSpec.
Import ListNotations.
Local Open Scope R_scope.

(** ** An input whose nodes have the environments of nodes of another one covers it *)
Lemma seg_concat {A} (d : A) : forall (ls : list (list A)) nns i, map (@length A) ls = nns -> (i < length ls)%nat ->
  map (fun p => nth p (concat ls) d) (seq (list_sum (firstn i nns)) (nth i nns 0%nat)) = nth i ls [].
Proof.
  induction ls as [|a ls IH]; intros nns i <- Hi; [cbn in Hi; lia|]. cbn [map]. destruct i as [|i].
  - cbn [firstn list_sum fold_right nth concat]. apply (nth_ext _ _ d d); [rewrite map_length, seq_length; reflexivity|]. intros n Hn. rewrite map_length, seq_length in Hn.
    rewrite (nth_indep _ d ((fun p => nth p (a ++ concat ls) d) 0%nat)) by (rewrite map_length, seq_length; exact Hn). rewrite (map_nth (fun p => nth p (a ++ concat ls) d)). rewrite seq_nth by exact Hn. apply app_nth1. exact Hn.
  - cbn [firstn nth concat]. change (list_sum (length a :: firstn i (map (@length A) ls))) with (length a + list_sum (firstn i (map (@length A) ls)))%nat.
    cbn [length] in Hi. rewrite <- (IH _ i eq_refl ltac:(lia)). generalize (list_sum (firstn i (map (@length A) ls))) as s. generalize (nth i (map (@length A) ls) 0%nat) as n.
    induction n as [|n IHn]; intros s; [reflexivity|]. cbn [seq map]. rewrite app_nth2 by lia. replace (length a + s - length a)%nat with s by lia. f_equal. rewrite <- IHn. f_equal. f_equal. lia.
Qed.
Lemma choice_list {A} (P : nat -> A -> Prop) n : (forall i, (i < n)%nat -> exists a, P i a) -> exists ls, length ls = n /\ forall i d, (i < n)%nat -> P i (nth i ls d).
Proof.
  induction n as [|n IH]; intros H; [exists []; split; [reflexivity|intros; lia]|]. destruct IH as (ls & L & Q); [intros; apply H; lia|]. destruct (H n ltac:(lia)) as (a & Ha).
  exists (ls ++ [a]). split; [rewrite app_length, L; cbn; lia|]. intros i d Hi. destruct (Nat.eq_dec i n) as [->|].
  - rewrite app_nth2, L, Nat.sub_diag by lia. exact Ha.
  - rewrite app_nth1 by lia. apply Q. lia.
Qed.

Definition env (x : input RNum) (xs : list R) (lab : nat -> nat) (p : nat) : nat * nat * (R * R * R) := (lab (nth p (i_neigh_indices x) 0%nat), nth p (i_neigh_types x) 0%nat, vec xs p).
Section Env.
Variables (x' x : input RNum) (xs' xs : list R) (sg : nat -> nat).
Hypothesis H1 : length (i_node_types x') = i_num_nodes x'.
Hypothesis H2 : length (i_num_neigh x') = i_num_nodes x'.
Hypothesis H3 : length (i_neigh_indices x') = list_sum (i_num_neigh x').
Hypothesis H4 : length (i_neigh_types x') = list_sum (i_num_neigh x').
Hypothesis H5 : forall j, In j (i_neigh_indices x') -> (j < i_num_nodes x')%nat.
Hypothesis H6 : forall i, (i < i_num_nodes x')%nat -> (sg i < i_num_nodes x)%nat /\ nth i (i_node_types x') 0%nat = nth (sg i) (i_node_types x) 0%nat.
Hypothesis H7 : length xs' = (3 * list_sum (i_num_neigh x'))%nat.
Hypothesis H8 : forall i, (i < i_num_nodes x')%nat -> Permutation (map (env x' xs' sg) (edges_of x' i)) (map (env x xs (fun j => j)) (edges_of x (sg i))).
Lemma env_cover : exists ep, covers sg ep x' x /\ xs' = lift3 ep (list_sum (i_num_neigh x')) xs.
Proof.
  destruct (choice_list (fun i l3 => map (env x' xs' sg) (edges_of x' i) = map (env x xs (fun j => j)) l3 /\ Permutation (edges_of x (sg i)) l3) (i_num_nodes x')) as (ls & Ll & Q).
  { intros i Hi. destruct (Permutation_map_inv _ _ (H8 i Hi)) as (l3 & A & B). exists l3. split; assumption. }
  assert (LL : map (@length nat) ls = i_num_neigh x').
  { apply (nth_ext _ _ 0%nat 0%nat); [rewrite map_length, Ll, H2; reflexivity|]. intros i Hi. rewrite map_length, Ll in Hi. destruct (Q i [] Hi) as (A & _). apply (f_equal (@length _)) in A. rewrite !map_length in A.
    unfold edges_of in A. rewrite seq_length in A. rewrite (nth_indep _ 0%nat (length (@nil nat))) by (rewrite map_length; lia). rewrite map_nth. symmetry. exact A. }
  set (ep := fun p => nth p (concat ls) 0%nat).
  assert (SE : forall i, (i < i_num_nodes x')%nat -> map ep (edges_of x' i) = nth i ls []) by (intros i Hi; apply seg_concat; [exact LL|lia]).
  assert (EN : forall p, (p < list_sum (i_num_neigh x'))%nat -> env x' xs' sg p = env x xs (fun j => j) (ep p)).
  { intros p Hp. destruct (edge_owner _ _ Hp) as (i & Hi & Hin). rewrite H2 in Hi. destruct (Q i [] Hi) as (A & _). rewrite <- (SE i Hi), map_map in A.
    assert (G : forall l, map (env x' xs' sg) l = map (fun p => env x xs (fun j => j) (ep p)) l -> In p l -> env x' xs' sg p = env x xs (fun j => j) (ep p)).
    { clear. induction l as [|a l IH]; [intros _ []|]. intros E [Ha|Hl]; cbn [map] in E; [subst a; congruence|]. apply IH; [congruence|exact Hl]. }
    exact (G _ A Hin). }
  exists ep. split.
  - constructor; auto.
    + intros i Hi. apply H6. exact Hi.
    + intros i Hi. apply H6. exact Hi.
    + intros i Hi. rewrite SE by exact Hi. apply Permutation_sym. apply Q. exact Hi.
    + intros p Hp. specialize (EN p Hp). unfold env in EN. congruence.
    + intros p Hp. specialize (EN p Hp). unfold env in EN. congruence.
  - apply (nth_ext _ _ 0 0); [rewrite length_lift3; exact H7|]. intros j Hj. rewrite H7 in Hj. destruct (split3 j) as (q & c & -> & Hc). rewrite nth_lift3 by lia.
    assert (Hq : (q < list_sum (i_num_neigh x'))%nat) by lia. specialize (EN q Hq). unfold env, vec in EN. injection EN as _ _ E0 E1 E2.
    destruct c as [|[|[|c]]]; [| | |lia]; rewrite ?Nat.add_0_r; assumption.
Qed.
End Env.

(** ** The input of the pair style *)
Section Lammps.
Variable l : lmp RNum.
Variable rc : R.
Variable types : list nat.
Hypothesis L : lmp_ok (length types) (ilist l) l.
Variable owner : nat -> nat.
Hypothesis Ow : owner_ok owner l.
Notation B := (ilist l).
Notation K0 := (kpairs l rc B).
Notation x0 := (nd_input (N:=RNum) types rc owner l).
Lemma B_nodup : NoDup B.
Proof. eapply Permutation_NoDup; [apply Permutation_sym; apply (lo_il _ _ _ L)|apply seq_NoDup]. Qed.
Lemma B_in i : In i B <-> (i < nlocal l)%nat.
Proof.
  split; intros H.
  - eapply Permutation_in in H; [|apply (lo_il _ _ _ L)]. apply in_seq in H. lia.
  - eapply Permutation_in; [apply Permutation_sym; apply (lo_il _ _ _ L)|]. apply in_seq. lia.
Qed.
Lemma B_len : length B = nlocal l.
Proof. rewrite (Permutation_length (proj2 (lo_il _ _ _ L))). apply seq_length. Qed.
Lemma edges_K ii : (ii < length B)%nat -> map (fun p => nth p K0 (0, 0)%nat) (edges_of x0 ii) = map (pair (nth ii B 0%nat)) (kept (N:=RNum) rc l (nth ii B 0%nat)).
Proof.
  intros Hi. unfold edges_of. cbn [nd_input i_num_neigh]. unfold kpairs. rewrite flat_map_concat_map.
  rewrite (seg_concat (0, 0)%nat (map (fun i => map (pair i) (kept (N:=RNum) rc l i)) B) (map (fun i => length (kept (N:=RNum) rc l i)) B) ii).
  - rewrite (nth_indep _ [] ((fun i => map (pair i) (kept (N:=RNum) rc l i)) 0%nat)) by (rewrite map_length; exact Hi). apply (map_nth (fun i => map (pair i) (kept (N:=RNum) rc l i))).
  - rewrite map_map. apply map_ext. intros i. apply map_length.
  - rewrite map_length. exact Hi.
Qed.
Lemma pos_nth a : In a B -> nth (position a B) B 0%nat = a.
Proof. intros H. destruct (In_nth _ _ 0%nat H) as (p & Hp & <-). rewrite position_nth by (auto using B_nodup). reflexivity. Qed.
Lemma edge_env sg ii : (ii < length B)%nat -> let i := nth ii B 0%nat in
  map (env x0 (pvec K0 (atom_x l)) (fun k => sg (nth k B 0%nat))) (edges_of x0 ii) = map (fun j => (sg (owner j), spec_of types l j, vec_to l i j)) (kept (N:=RNum) rc l i).
Proof.
  intros Hi i. transitivity (map (fun pr => (sg (owner (snd pr)), spec_of types l (snd pr), vec_to l (fst pr) (snd pr))) (map (fun p => nth p K0 (0, 0)%nat) (edges_of x0 ii))).
  2:{ rewrite edges_K by exact Hi. rewrite map_map. reflexivity. }
  rewrite map_map. apply map_ext_in. intros p Hp.
  assert (HpK : (p < length K0)%nat).
  { rewrite <- (sum_nn0 l rc types owner). apply (edges_lt x0 ii); [cbn [nd_input i_num_neigh i_num_nodes]; apply map_length|exact Hi|exact Hp]. }
  destruct (K0_nth l rc types L p HpK) as (Q1 & Q2). unfold env, vec, vec_to. cbn [nd_input i_neigh_indices i_neigh_types].
  rewrite <- (map_kpairs l rc (fun _ j => position (owner j) B) B), <- (map_kpairs l rc (fun _ => spec_of types l) B).
  rewrite (nth_indep (map (fun p0 : nat * nat => position (owner (snd p0)) B) K0) 0%nat ((fun p0 : nat * nat => position (owner (snd p0)) B) (0, 0)%nat)) by (rewrite map_length; exact HpK).
  rewrite (map_nth (fun p0 : nat * nat => position (owner (snd p0)) B)).
  rewrite (nth_indep (map (fun p0 : nat * nat => spec_of types l (snd p0)) K0) 0%nat ((fun p0 : nat * nat => spec_of types l (snd p0)) (0, 0)%nat)) by (rewrite map_length; exact HpK).
  rewrite (map_nth (fun p0 : nat * nat => spec_of types l (snd p0))).
  rewrite pos_nth by (apply B_in; apply (oo_lt _ _ Ow); exact Q2).
  rewrite !sep_R. rewrite <- !nth_pvec by (auto; lia). rewrite Nat.add_0_r. reflexivity.
Qed.
Lemma pos_far p : (p < length K0)%nat -> nth (nth p (i_neigh_indices x0) 0%nat) B 0%nat = owner (snd (nth p K0 (0, 0)%nat)).
Proof.
  intros HpK. destruct (K0_nth l rc types L p HpK) as (Q1 & Q2). cbn [nd_input i_neigh_indices]. rewrite <- (map_kpairs l rc (fun _ j => position (owner j) B) B).
  rewrite (nth_indep (map (fun p0 : nat * nat => position (owner (snd p0)) B) K0) 0%nat ((fun p0 : nat * nat => position (owner (snd p0)) B) (0, 0)%nat)) by (rewrite map_length; exact HpK).
  rewrite (map_nth (fun p0 : nat * nat => position (owner (snd p0)) B)). apply pos_nth, B_in, (oo_lt _ _ Ow), Q2.
Qed.
Lemma edge_first ii p : (ii < length B)%nat -> In p (edges_of x0 ii) -> fst (nth p K0 (0, 0)%nat) = nth ii B 0%nat.
Proof.
  intros Hi Hp. pose proof (edges_K ii Hi) as E. assert (H : In (nth p K0 (0, 0)%nat) (map (fun p => nth p K0 (0, 0)%nat) (edges_of x0 ii))) by (apply (in_map (fun p => nth p K0 (0, 0)%nat)); exact Hp).
  rewrite E in H. apply in_map_iff in H. destruct H as (j & <- & _). reflexivity.
Qed.
End Lammps.
