(** Derivatives of the energy of a distributed system: composition of the serial derivatives with the agreement of
    distributed and serial evaluation. *)
From Coq Require Import List Arith ZArith Lia Bool Reals Lra Permutation.
From Verif Require Import Base BaseLemmas Instances RSums MlpR MaceModel MaceSpec MaceSpec2 MaceGradSpec MaceFlat MaceLoad MaceThms MaceForces
  AseSpec AseGrad PairModel PairMpiModel PairSpec PairThms PairCommSpec PairTally PairGrad DistSpec DistThms DistNoThms DistGradSpec.
Import ListNotations.
Local Open Scope R_scope.

(** a motion of the atoms that is the same wherever an atom is stored *)
Record motion (Ls : list (lmp RNum)) (X : R -> lmp RNum -> list R) (X' : lmp RNum -> nat -> R) (phi : R -> nat -> nat -> R -> R -> R -> nat -> R) : Prop := {
  mt0 : forall l, In l Ls -> X 0 l = atom_x l;
  mtl : forall u l, In l Ls -> length (X u l) = length (atom_x l);
  mtd : forall l k, In l Ls -> (k < length (atom_x l))%nat -> derivable_pt_lim (fun u => nth k (X u l) 0) 0 (X' l k);
  mts : forall u l i j c, In l Ls -> length (atom_x l) = (3 * (nlocal l + nghost l))%nat -> (i < nlocal l + nghost l)%nat -> (j < nlocal l + nghost l)%nat -> (c < 3)%nat ->
    sep (N:=RNum) (X u l) i j c = phi u (tag l i) (tag l j) (sep (N:=RNum) (atom_x l) i j 0) (sep (N:=RNum) (atom_x l) i j 1) (sep (N:=RNum) (atom_x l) i j 2) c
}.

Lemma kept_open_at nt A (l : lmp RNum) (rc : R) (P : R -> list R) P' t0 : lmp_ok nt A l ->
  P t0 = atom_x l -> (forall k, (k < length (atom_x l))%nat -> derivable_pt_lim (fun t => nth k (P t) 0) t0 (P' k)) ->
  off_cutoff_at A l rc -> exists eps, 0 < eps /\ forall t, Rabs (t - t0) < eps -> forall i, In i A -> kept (N:=RNum) rc (at_x l (P t)) i = kept (N:=RNum) rc l i.
Proof.
  intros L HP HD HO. pose proof (lo_x _ _ _ L) as Lx.
  apply (list_open (fun i t => kept (N:=RNum) rc (at_x l (P t)) i = kept (N:=RNum) rc l i)). intros i Hi.
  destruct (list_open (fun j t => nltb (n:=RNum) (sep2 (N:=RNum) (P t) i j) (rc * rc) = nltb (n:=RNum) (sep2 (N:=RNum) (atom_x l) i j) (rc * rc)) (listed l i) t0) as (eps & He & H).
  - intros j Hj. destruct (lo_A _ _ _ L i Hi) as (Hi1 & _ & _ & _ & A'). specialize (A' j Hj).
    rewrite <- HP. assert (Hs : forall c, (c < 3)%nat -> derivable_pt_lim (fun t => sep (N:=RNum) (P t) i j c) t0 (P' (3 * j + c)%nat - P' (3 * i + c)%nat)).
    { intros c Hc. apply dlim_ext with (f := fun t => nth (3 * j + c) (P t) 0 - nth (3 * i + c) (P t) 0); [intros; symmetry; apply sep_R|].
      apply dlim_minus; apply HD; change (carrier RNum) with R in *; lia. }
    apply (side_open (fun t => sep2 (N:=RNum) (P t) i j) t0
      (let s c := sep (N:=RNum) (P t0) i j c in let d c := P' (3 * j + c)%nat - P' (3 * i + c)%nat in
       (d 0%nat * s 0%nat + s 0%nat * d 0%nat) + (d 1%nat * s 1%nat + s 1%nat * d 1%nat) + (d 2%nat * s 2%nat + s 2%nat * d 2%nat))).
    + unfold sep2. apply dlim_plus; [apply dlim_plus|]; apply dlim_mult; apply Hs; lia.
    + rewrite HP. apply HO; assumption.
  - exists eps. split; [exact He|]. intros t Ht. unfold kept. change (listed (at_x l (P t)) i) with (listed l i). change (atom_x (at_x l (P t))) with (P t).
    apply filter_ext_in. intros j Hj. exact (H t Ht j Hj).
Qed.

Section Moved.
Variable f : mace_file RNum.
Hypothesis F : file_ok f.
Hypothesis SF : smooth_ok f.
Variable types : list nat.
Variable rc : R.
Variable needed : lmp RNum -> list nat.
Hypothesis Hneed : forall l x, (forall i, In i (needed l) -> kept (N:=RNum) rc (at_x l x) i = kept (N:=RNum) rc l i) -> needed (at_x l x) = needed l.
Variable P : nat.
Variable t : dstep.
Hypothesis S : step_ok f rc types needed P t.
Hypothesis OL : off_cutoff (d_L t) rc.
Hypothesis OR : forall l, In l (d_ranks t) -> off_cutoff_at (needed l) l rc.
Notation x0 := (nd_input (N:=RNum) types rc (d_owner t) (d_L t)).
Hypothesis SA : smooth_at f x0 (i_xyz x0).
Variable X : R -> lmp RNum -> list R.
Variable X' : lmp RNum -> nat -> R.
Variable phi : R -> nat -> nat -> R -> R -> R -> nat -> R.
Hypothesis M : motion (d_L t :: d_ranks t) X X' phi.
Notation mv u := (fun l => at_x l (X u l)).

Lemma kept_lt nt A (l : lmp RNum) i j : lmp_ok nt A l -> In i A -> In j (kept (N:=RNum) rc l i) -> (j < nlocal l + nghost l)%nat.
Proof. intros L Hi Hj. destruct (lo_A _ _ _ L i Hi) as (_ & _ & _ & _ & A'). apply A'. unfold kept in Hj. apply filter_In in Hj. apply Hj. Qed.

Lemma env_moved u nt A l i : In l (d_L t :: d_ranks t) -> lmp_ok nt A l -> In i A -> kept (N:=RNum) rc (at_x l (X u l)) i = kept (N:=RNum) rc l i ->
  env (N:=RNum) rc (at_x l (X u l)) i = map (fun z => match z with (tj, ty, (a, b, c)) =>
    (tj, ty, (phi u (tag l i) tj a b c 0%nat, phi u (tag l i) tj a b c 1%nat, phi u (tag l i) tj a b c 2%nat)) end) (env (N:=RNum) rc l i).
Proof.
  intros Hl L Hi K. unfold env. rewrite K, map_map. apply map_ext_in. intros j Hj. pose proof (kept_lt _ _ _ _ _ L Hi Hj) as Hj'.
  destruct (lo_A _ _ _ L i Hi) as (Hi' & _). pose proof (lo_x _ _ _ L) as Lx.
  change (tag (at_x l (X u l)) j) with (tag l j). change (atom_type (at_x l (X u l))) with (atom_type l). change (atom_x (at_x l (X u l))) with (X u l).
  rewrite !(mts _ _ _ _ M) by auto. reflexivity.
Qed.

Lemma moved_ok : exists del, 0 < del /\ forall u, Rabs u < del -> step_ok f rc types needed P (moved (mv u) t).
Proof.
  pose proof S as [S1 S2 S3 S4 S5 S6 S7]. pose proof S4 as [P1 P2 P3 P4 P5].
  set (L := d_L t) in *. set (owner := d_owner t) in *.
  destruct (kept_open_at _ _ L rc (fun u => X u L) (X' L) 0 S2 (mt0 _ _ _ _ M L (or_introl eq_refl)) (fun k => mtd _ _ _ _ M L k (or_introl eq_refl)) OL) as (d1 & Hd1 & K1).
  destruct (list_open (fun l u => forall i, In i (needed l) -> kept (N:=RNum) rc (at_x l (X u l)) i = kept (N:=RNum) rc l i) (d_ranks t) 0) as (d2 & Hd2 & K2).
  { intros l Hl. apply (kept_open_at (length types) (needed l) l rc (fun u => X u l) (X' l) 0).
    - apply (P1 l Hl). - apply (mt0 _ _ _ _ M l (or_intror Hl)). - intros k. apply (mtd _ _ _ _ M l k (or_intror Hl)). - apply (OR l Hl). }
  set (K0 := kpairs L rc (ilist L)). pose proof (lo_x _ _ _ S2) as Lx.
  assert (sn : list_sum (i_num_neigh x0) = length K0) by (apply sum_nn0).
  destruct (local_ok f SF x0 (fun u => pvec K0 (X u L)) (tab (3 * length K0) (fun k => X' L (3 * snd (nth (k / 3) K0 (0, 0)) + k mod 3)%nat - X' L (3 * fst (nth (k / 3) K0 (0, 0)) + k mod 3)%nat)) 0)
    as (d3 & Hd3 & K3).
  { intros u. rewrite sn. apply length_pvec. } { rewrite sn. apply length_tab. }
  { rewrite sn. intros q Hq. rewrite nth_tab by exact Hq. apply pvec_d with (types := types); auto. intros k Hk. apply (mtd _ _ _ _ M L k (or_introl eq_refl)). change (carrier RNum) with R in *. lia. }
  { rewrite (xyz_x0 L rc types owner) in SA. change (atom_x L) with (atom_x (d_L t)). rewrite (mt0 _ _ _ _ M L (or_introl eq_refl)). exact SA. }
  exists (Rmin d1 (Rmin d2 d3)). split; [repeat apply Rmin_case; auto|]. intros u Hu.
  assert (M1 := Rmin_l d1 (Rmin d2 d3)). assert (M2 := Rmin_r d1 (Rmin d2 d3)). assert (M3 := Rmin_l d2 d3). assert (M4 := Rmin_r d2 d3).
  specialize (K1 u ltac:(rewrite Rminus_0_r; lra)). specialize (K2 u ltac:(rewrite Rminus_0_r; lra)). specialize (K3 u ltac:(rewrite Rminus_0_r; lra)).
  assert (NE : forall l, In l (d_ranks t) -> needed (at_x l (X u l)) = needed l) by (intros l Hl; apply Hneed, K2, Hl).
  assert (LL : lmp_ok (length types) (ilist L) (at_x L (X u L))) by (apply lmp_ok_at; [exact S2|apply (mtl _ _ _ _ M u L (or_introl eq_refl))]).
  constructor; cbn [moved d_ranks d_own d_msgs d_fl d_acc d_L d_owner]; fold L; fold owner.
  - rewrite map_length. exact S1.
  - exact LL.
  - apply owner_ok_at. exact S3.
  - constructor.
    + intros l' Hl'. apply in_map_iff in Hl'. destruct Hl' as (l & <- & Hl). destruct (P1 l Hl) as [A1 A2]. split; [|exact A2].
      rewrite (NE l Hl). apply lmp_ok_at; [exact A1|apply (mtl _ _ _ _ M u l (or_intror Hl))].
    + rewrite flat_map_concat_map, map_map. cbv beta. etransitivity; [|exact P2]. rewrite flat_map_concat_map. apply Permutation_refl.
    + exact P3.
    + intros l' j Hl'. apply in_map_iff in Hl'. destruct Hl' as (l & <- & Hl). exact (P4 l j Hl).
    + intros l' i a Hl'. apply in_map_iff in Hl'. destruct Hl' as (l & <- & Hl). rewrite (NE l Hl). intros Hi Ha T.
      change (tag l i = tag L a) in T. change (a < nlocal L)%nat in Ha. destruct (P5 l i a Hl Hi Ha T) as [Q1 Q2]. split; [exact Q1|].
      assert (Ha' : In a (ilist L)) by (apply (il_in L types S2); exact Ha).
      rewrite (env_moved u _ _ l i (or_intror Hl) (proj1 (P1 l Hl)) Hi (K2 l Hl i Hi)), (env_moved u _ _ L a (or_introl eq_refl) S2 Ha' (K1 a Ha')).
      rewrite T. apply Permutation_map. exact Q2.
  - rewrite (nd_input_at L rc types owner (X u L) K1). exact K3.
  - clear -S6. induction S6 as [|l a ls as_ H1 H2 IH]; cbn [map]; constructor; auto. destruct H1 as [A1 A2 A3]. constructor; assumption.
  - exact S7.
Qed.
End Moved.
