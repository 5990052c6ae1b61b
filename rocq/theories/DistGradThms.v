(** Forces and virial of distributed runs as derivatives of the distributed energy. *)
From Coq Require Import List Arith ZArith Lia Bool Reals Lra Permutation.
From Verif Require Import Base BaseLemmas Instances RSums MlpR MaceModel MaceSpec MaceSpec2 MaceGradSpec MacePure MacePipe MaceFlat MaceLoad MaceThms MaceForces
  AseSpec AseGrad PairModel PairMpiModel PairSpec PairThms PairCommSpec PairTally PairGrad DistSpec DistThms DistNoThms DistGradSpec DistGrad.
Import ListNotations.
Local Open Scope R_scope.

Lemma total_combine (g : accum RNum -> accum RNum -> R) (A A' : list (accum RNum)) d : length A' = length A ->
  total (map (fun z => g (fst z) (snd z)) (combine A A')) = total (map (fun r => g (nth r A d) (nth r A' d)) (seq 0 (length A))).
Proof.
  intros E. f_equal. revert A' E. induction A as [|a A IH]; intros [|a' A'] E; try discriminate; [reflexivity|].
  injection E as E. cbn [length]. cbn [combine seq map]. cbn [fst snd nth]. f_equal. rewrite <- seq_shift, map_map. cbn [nth]. apply IH. exact E.
Qed.

Lemma sep_moved_strain e u (l : lmp RNum) i j c : length (atom_x l) = (3 * (nlocal l + nghost l))%nat -> (i < nlocal l + nghost l)%nat -> (j < nlocal l + nghost l)%nat -> (c < 3)%nat ->
  let s := sep (N:=RNum) (atom_x l) i j in
  sep (N:=RNum) (strain e u (atom_x l)) i j c = s c + u * (e c 0%nat * s 0%nat + e c 1%nat * s 1%nat + e c 2%nat * s 2%nat).
Proof.
  intros Lx Hi Hj Hc s. unfold s. change (carrier RNum) with R in *.
  assert (T : forall k, (k < nlocal l + nghost l)%nat -> nth (3 * k + c) (strain e u (atom_x l)) 0 = nth (3 * k + c) (atom_x l) 0 +
    u * (e c 0%nat * nth (3 * k + 0) (atom_x l) 0 + e c 1%nat * nth (3 * k + 1) (atom_x l) 0 + e c 2%nat * nth (3 * k + 2) (atom_x l) 0)).
  { intros k Hk. unfold strain. etransitivity; [apply (nth_tab (length (atom_x l))); change (carrier RNum) with R in *; lia|]. cbv beta.
    replace ((3 * k + c) / 3)%nat with k by (rewrite Nat.mul_comm, Nat.div_add_l, Nat.div_small by lia; lia).
    replace ((3 * k + c) mod 3)%nat with c by (rewrite Nat.add_comm, Nat.mul_comm, Nat.mod_add, Nat.mod_small by lia; lia). rewrite Nat.add_0_r. reflexivity. }
  rewrite !sep_R, !T by lia. change (carrier RNum) with R. ring.
Qed.
Lemma motion_strain e (Ls : list (lmp RNum)) : motion Ls (fun u l => strain e u (atom_x l))
  (fun l k => rsum 3 (fun c => e (k mod 3)%nat c * nth (3 * (k / 3) + c) (atom_x l) 0))
  (fun u _ _ a b d c => match c with 0%nat => a | 1%nat => b | _ => d end + u * (e c 0%nat * a + e c 1%nat * b + e c 2%nat * d)).
Proof.
  constructor.
  - intros l _. apply (list_eq_nth _ _ 0); [unfold strain; rewrite map_length, seq_length; reflexivity|]. intros k Hk.
    unfold strain in *. rewrite map_length, seq_length in Hk. etransitivity; [apply (nth_tab (length (atom_x l))); exact Hk|]. change (carrier RNum) with R. ring.
  - intros u l _. unfold strain. rewrite map_length, seq_length. reflexivity.
  - intros l k _ Hk. apply dlim_ext with (f := fun t => nth k (atom_x l) 0 + t * rsum 3 (fun c => e (k mod 3)%nat c * nth (3 * (k / 3) + c) (atom_x l) 0)).
    + intros t. symmetry. unfold strain. etransitivity; [apply (nth_tab (length (atom_x l))); exact Hk|]. cbn [rsum]. change (carrier RNum) with R. rewrite Nat.add_0_r. ring.
    + eapply dlim_eq; [|apply dlim_plus; [apply dlim_const|apply dlim_mult; [apply dlim_id|apply dlim_const]]]. cbv beta. ring.
  - intros u l i j c _ Lx Hi Hj Hc. etransitivity; [apply (sep_moved_strain e u l i j c Lx Hi Hj Hc)|].
    destruct c as [|[|[|c]]]; [reflexivity..|lia].
Qed.

(** displacement of one atom and all its copies *)
Definition dx_at (q c : nat) (l : lmp RNum) (u : R) (k : nat) : R := nth k (atom_x l) 0 + (if (tag l (k / 3) =? q)%nat && (k mod 3 =? c)%nat then u else 0).
Definition disp (q c : nat) (u : R) (l : lmp RNum) : list R := map (dx_at q c l u) (seq 0 (length (atom_x l))).
Lemma displaced_disp q c u l : displaced q c u l = at_x l (disp q c u l).
Proof. reflexivity. Qed.
Lemma sep_moved_disp q cc u (l : lmp RNum) i j c : length (atom_x l) = (3 * (nlocal l + nghost l))%nat -> (i < nlocal l + nghost l)%nat -> (j < nlocal l + nghost l)%nat -> (c < 3)%nat ->
  sep (N:=RNum) (disp q cc u l) i j c = sep (N:=RNum) (atom_x l) i j c + (if (tag l j =? q)%nat && (c =? cc)%nat then u else 0) - (if (tag l i =? q)%nat && (c =? cc)%nat then u else 0).
Proof.
  intros Lx Hi Hj Hc. change (carrier RNum) with R in *.
  assert (T : forall k, (k < nlocal l + nghost l)%nat -> nth (3 * k + c) (disp q cc u l) 0 = nth (3 * k + c) (atom_x l) 0 + (if (tag l k =? q)%nat && (c =? cc)%nat then u else 0)).
  { intros k Hk. unfold disp. etransitivity; [apply (nth_tab (length (atom_x l))); change (carrier RNum) with R in *; lia|]. unfold dx_at.
    replace ((3 * k + c) / 3)%nat with k by (rewrite Nat.mul_comm, Nat.div_add_l, Nat.div_small by lia; lia).
    replace ((3 * k + c) mod 3)%nat with c by (rewrite Nat.add_comm, Nat.mul_comm, Nat.mod_add, Nat.mod_small by lia; lia). reflexivity. }
  rewrite !sep_R, !T by lia. change (carrier RNum) with R. ring.
Qed.
Lemma motion_disp q cc (Ls : list (lmp RNum)) : motion Ls (disp q cc)
  (fun l k => if (tag l (k / 3) =? q)%nat && (k mod 3 =? cc)%nat then 1 else 0)
  (fun u ti tj a b d c => match c with 0%nat => a | 1%nat => b | _ => d end + (if (tj =? q)%nat && (c =? cc)%nat then u else 0) - (if (ti =? q)%nat && (c =? cc)%nat then u else 0)).
Proof.
  constructor.
  - intros l _. apply (list_eq_nth _ _ 0); [unfold disp; rewrite map_length, seq_length; reflexivity|]. intros k Hk.
    unfold disp in *. rewrite map_length, seq_length in Hk. etransitivity; [apply (nth_tab (length (atom_x l))); exact Hk|]. unfold dx_at. change (carrier RNum) with R. destruct (_ && _); ring.
  - intros u l _. unfold disp. rewrite map_length, seq_length. reflexivity.
  - intros l k _ Hk. apply dlim_ext with (f := fun u => dx_at q cc l u k).
    + intros t. symmetry. unfold disp. etransitivity; [apply (nth_tab (length (atom_x l))); exact Hk|]. reflexivity.
    + unfold dx_at. destruct (_ && _).
      * eapply dlim_eq; [|apply dlim_plus; [apply dlim_const|apply dlim_id]]. ring.
      * eapply dlim_eq; [|apply dlim_plus; [apply dlim_const|apply dlim_const]]. ring.
  - intros u l i j c _ Lx Hi Hj Hc. etransitivity; [apply (sep_moved_disp q cc u l i j c Lx Hi Hj Hc)|].
    destruct c as [|[|[|c]]]; [reflexivity..|lia].
Qed.

Section Thms.
Variable sph : nat -> RNum -> RNum -> RNum -> list RNum * list RNum.
Hypothesis Hsph : sph_ok (N:=RNum) sph.
Hypothesis Hgr : sph_gradient sph.
Variable srt : list (list (list nat)) -> list (list (list nat)).
Hypothesis Hsrt : forall l, Permutation l (srt l).
Variable f : mace_file RNum.
Hypothesis F : file_ok f.
Hypothesis SF : smooth_ok f.
Variable types : list nat.
Variable rc : R.
Notation bl b := (bufs_live (ldm f) (ldp0 srt f) (ldp1 srt f) (ldlive f) b).

(** either mode *)
Section Mode.
Variable P : nat.
Variable needed : lmp RNum -> list nat.
Hypothesis Hneed : forall l x, (forall i, In i (needed l) -> kept (N:=RNum) rc (at_x l x) i = kept (N:=RNum) rc l i) -> needed (at_x l x) = needed l.
Variable okm : dstep -> Prop.
Hypothesis okm_step : forall t, okm t -> step_ok f rc types needed P t.
Hypothesis okm_moved : forall t X, okm t -> step_ok f rc types needed P (moved (fun l => at_x l (X l)) t) -> okm (moved (fun l => at_x l (X l)) t).
Variable run : dstep -> list (mace_bufs RNum * pair_bufs RNum) -> option (list (proc RNum)).
Hypothesis one : forall t st, okm t -> length st = P -> (forall q, In q st -> bl (fst q)) ->
  exists qs, run t st = Some qs /\ length qs = P /\ (forall q, In q qs -> bl (pr_b q)) /\
  forall b p a, bl b -> acc_ok (d_L t) a -> exists b1 p1 a1,
    compute_no_domain_decomposition (N:=RNum) sph (ldm f) rc types (d_fl t) (d_L t) b p a = Some (b1, p1, a1) /\
    (forall r l q, nth_error (d_ranks t) r = Some l -> nth_error qs r = Some q -> same_energies (d_fl t) (d_L t) l (pr_b q) b1 (pr_a q)) /\
    same_added (d_L t) (map (fun l : lmp RNum => atom_tag l) (d_ranks t)) (d_acc t) (map (fun q => pr_a q) qs) a a1.
Variable t : dstep.
Hypothesis T : okm t.
Hypothesis OL : off_cutoff (d_L t) rc.
Hypothesis OR : forall l, In l (d_ranks t) -> off_cutoff_at (needed l) l rc.
Hypothesis SA : smooth_at f (nd_input (N:=RNum) types rc (d_owner t) (d_L t)) (i_xyz (nd_input (N:=RNum) types rc (d_owner t) (d_L t))).
Hypothesis He : eflag_global (d_fl t) = true.

Definition L0acc : accum RNum := mkAcc (N:=RNum) 0 (repeat 0 (nlocal (d_L t) + nghost (d_L t))) (repeat 0 6) (repeat 0 (3 * (nlocal (d_L t) + nghost (d_L t)))).
Lemma L0acc_ok : acc_ok (d_L t) L0acc.
Proof. constructor; cbn [L0acc force eatom virial]; apply repeat_length. Qed.
Definition L0p : pair_bufs RNum := mkPB (N:=RNum) [] [] [] [] [] [] [] [] [] [] [] [] [].
Definition accs (qs : list (proc RNum)) : list (accum RNum) := map (fun q => pr_a q) qs.

Lemma sums L tags A A' a a' : same_added L tags A A' a a' -> added_energy A A' = eng_vdwl a' - eng_vdwl a /\
  (forall k, (k < 6)%nat -> added_virial A A' k = nth k (virial a') 0 - nth k (virial a) 0) /\
  (length tags = length A -> forall i c, (i < nlocal L)%nat -> (c < 3)%nat -> added_force tags A A' (tag L i) c = nth (3 * i + c) (force a') 0 - nth (3 * i + c) (force a) 0).
Proof.
  intros [[H1 _] H2 H3 H4]. split; [|split].
  - unfold added_energy. rewrite (total_combine (fun x y => eng_vdwl y - eng_vdwl x) A A' a H1). exact H2.
  - intros k Hk. unfold added_virial. rewrite (total_combine (fun x y => nth k (virial y) 0 - nth k (virial x) 0) A A' a H1). apply H3. exact Hk.
  - intros Lt i c Hi Hc. rewrite <- H4 by assumption. unfold added_force. f_equal. apply map_ext_in. intros z Hz.
    unfold tagged in Hz. apply filter_In in Hz. destruct Hz as [Hz _].
    assert (Hr : (fst z < length A)%nat). { unfold atoms in Hz. apply in_flat_map in Hz. destruct Hz as (r & Hr & Hz). apply in_map_iff in Hz. destruct Hz as (j & <- & _). apply in_seq in Hr. rewrite map_length in Hr. cbn [fst]. lia. }
    rewrite !(nth_indep _ no_acc a) by (change (carrier RNum) with R in *; lia). reflexivity.
Qed.

Lemma dist_motion (X : R -> lmp RNum -> list R) X' phi (E : R -> R) del st bh :
  motion (d_L t :: d_ranks t) X X' phi -> length st = P -> (forall q, In q st -> bl (fst q)) -> bl bh -> 0 < del ->
  (forall u, Rabs u < del -> exists b p' a', compute_no_domain_decomposition sph (ldm f) rc types (d_fl t) (at_x (d_L t) (X u (d_L t))) bh L0p L0acc = Some (b, p', a') /\
     E u = eng_vdwl a' - eng_vdwl L0acc) ->
  exists del', 0 < del' /\ forall u, Rabs u < del' -> exists qs, run (moved (fun l => at_x l (X u l)) t) st = Some qs /\
     E u = added_energy (d_acc t) (accs qs).
Proof.
  intros M Lst Hst Hb Hd HE.
  destruct (moved_ok f SF types rc needed Hneed P t (okm_step t T) OL OR SA X X' phi M) as (d1 & Hd1 & H1).
  exists (Rmin del d1). split; [apply Rmin_case; assumption|]. intros u Hu. assert (M1 := Rmin_l del d1). assert (M2 := Rmin_r del d1).
  destruct (HE u ltac:(lra)) as (b & p' & a' & E1 & E2).
  destruct (one (moved (fun l => at_x l (X u l)) t) st) as (qs & Q1 & Q2 & Q3 & Q4); auto. { apply okm_moved; [exact T|]. apply H1. lra. }
  exists qs. split; [exact Q1|]. destruct (Q4 bh L0p L0acc Hb) as (b1 & p1 & a1 & C1 & _ & C3).
  { constructor; cbn [L0acc force eatom virial]; apply repeat_length. }
  cbn [moved d_L d_fl d_acc] in C1, C3. rewrite E1 in C1. injection C1 as <- <- <-. rewrite E2. symmetry. apply (sums _ _ _ _ _ _ C3).
Qed.

Lemma tags_len : length (map (fun l : lmp RNum => atom_tag l) (d_ranks t)) = length (d_acc t).
Proof. rewrite map_length. eapply Forall2_len. apply (so_acc _ _ _ _ _ _ (okm_step t T)). Qed.

Lemma mode_strain e st : vflag_global (d_fl t) = true -> (forall i c, e i c = e c i) -> length st = P -> (forall q, In q st -> bl (fst q)) ->
  exists qs E del, run t st = Some qs /\ length qs = P /\ 0 < del /\
    (forall u, Rabs u < del -> exists qs', run (moved (strained e u) t) st = Some qs' /\ E u = added_energy (d_acc t) (accs qs')) /\
    let v := added_virial (d_acc t) (accs qs) in
    derivable_pt_lim E 0 (- (v 0%nat * e 0%nat 0%nat + v 1%nat * e 1%nat 1%nat + v 2%nat * e 2%nat 2%nat
                               + 2 * (v 3%nat * e 0%nat 1%nat) + 2 * (v 4%nat * e 0%nat 2%nat) + 2 * (v 5%nat * e 1%nat 2%nat))).
Proof.
  intros Hv Hsym Lst Hst. pose proof (okm_step t T) as [S1 S2 S3 S4 S5 S6 S7].
  destruct (one t st T Lst Hst) as (qs & Q1 & Q2 & Q3 & Q4).
  destruct (nd_strain sph Hsph Hgr srt Hsrt f F SF (d_L t) rc types S2 (d_owner t) S3 [] (d_fl t) L0p L0acc e (Forall_nil _) S7 He Hv L0acc_ok Hsym OL SA)
    as (m & b0 & bh & b1 & p1 & a1 & E & del & A1 & A2 & A3 & A4 & A5 & A6 & A7).
  injection A2 as <-. destruct (load_ok srt Hsrt f F) as (b0' & E0 & L0). rewrite E0 in A1. injection A1 as <- <-.
  destruct (dist_motion _ _ _ E del st b0' (motion_strain e (d_L t :: d_ranks t)) Lst Hst L0 A5 A6) as (del' & D1 & D2).
  exists qs, E, del'. split; [exact Q1|]. split; [exact Q2|]. split; [exact D1|]. split; [exact D2|].
  destruct (Q4 b0' L0p L0acc L0 L0acc_ok) as (b1' & p1' & a1' & C1 & _ & C3). rewrite A3 in C1. injection C1 as <- <- <-.
  destruct (sums _ _ _ _ _ _ C3) as (_ & V & _). cbv zeta in A7 |- *. unfold accs. rewrite !V by lia. exact A7.
Qed.

Lemma mode_forces st : length st = P -> (forall q, In q st -> bl (fst q)) ->
  exists qs, run t st = Some qs /\ length qs = P /\
  forall i c, (i < nlocal (d_L t))%nat -> (c < 3)%nat -> exists E del, 0 < del /\
    (forall u, Rabs u < del -> exists qs', run (moved (displaced (tag (d_L t) i) c u) t) st = Some qs' /\ E u = added_energy (d_acc t) (accs qs')) /\
    derivable_pt_lim E 0 (- added_force (map (fun l : lmp RNum => atom_tag l) (d_ranks t)) (d_acc t) (accs qs) (tag (d_L t) i) c).
Proof.
  intros Lst Hst. pose proof (okm_step t T) as [S1 S2 S3 S4 S5 S6 S7].
  destruct (one t st T Lst Hst) as (qs & Q1 & Q2 & Q3 & Q4). exists qs. split; [exact Q1|]. split; [exact Q2|]. intros i c Hi Hc.
  set (L := d_L t) in *. set (owner := d_owner t) in *. set (nall := (nlocal L + nghost L)%nat). pose proof (lo_x _ _ _ S2) as Lx. fold nall in Lx.
  set (pos := firstn (3 * nlocal L) (atom_x L)). set (sh := tab (3 * nall) (fun k => nth k (atom_x L) 0 - nth (3 * owner (k / 3)%nat + k mod 3) (atom_x L) 0)).
  assert (Lpos : length pos = (3 * nlocal L)%nat) by (unfold pos; rewrite firstn_length; unfold nall in Lx; change (carrier RNum) with R in *; lia).
  assert (OW : forall k, (k < 3 * nall)%nat -> (3 * owner (k / 3)%nat + k mod 3 < 3 * nlocal L)%nat).
  { intros k Hk. assert (k / 3 < nall)%nat by (apply Nat.div_lt_upper_bound; lia). pose proof (oo_lt _ _ S3 (k / 3)%nat H). assert (k mod 3 < 3)%nat by (apply Nat.mod_upper_bound; lia). lia. }
  assert (NP : forall k, (k < 3 * nlocal L)%nat -> nth k pos 0 = nth k (atom_x L) 0) by (intros k Hk; apply nth_firstn_lt; exact Hk).
  assert (HX : atom_x L = images nall owner sh pos).
  { apply (list_eq_nth _ _ 0); [unfold images; rewrite map_length, seq_length; exact Lx|]. intros k Hk. change (carrier RNum) with R in *.
    symmetry. etransitivity; [apply (nth_tab (3 * nall)); lia|]. cbv beta. rewrite NP by (apply OW; lia). unfold sh. rewrite nth_tab by lia. change (carrier RNum) with R. ring. }
  destruct (nd_forces sph Hsph Hgr srt Hsrt f F SF L rc types S2 owner S3 [] (d_fl t) L0p L0acc sh pos (Forall_nil _) S7 He L0acc_ok Lpos HX OL SA)
    as (m & b0 & bh & b1 & p1 & a1 & A1 & A2 & A3 & A4 & A5 & A6).
  injection A2 as <-. destruct (load_ok srt Hsrt f F) as (b0' & E0 & L0). rewrite E0 in A1. injection A1 as <- <-.
  destruct (A6 (3 * i + c)%nat ltac:(lia)) as (E & del & B1 & B2 & B3). set (z0 := nth (3 * i + c) pos 0) in *.
  assert (DI : forall u, disp (tag L i) c u L = images nall owner sh (upd pos (3 * i + c) (z0 + u))).
  { intros u. apply (list_eq_nth _ _ 0); [unfold disp, images; rewrite !map_length, !seq_length; exact Lx|]. intros k Hk. unfold disp in Hk. rewrite map_length, seq_length in Hk.
    change (carrier RNum) with R in *. etransitivity; [apply (nth_tab (length (atom_x L))); exact Hk|]. symmetry. etransitivity; [apply (nth_tab (3 * nall)); lia|]. cbv beta.
    unfold dx_at, sh. assert (Hk' : (k < 3 * nall)%nat) by lia. rewrite nth_tab by exact Hk'. rewrite nth_upd by lia.
    assert (Hkd : (k / 3 < nall)%nat) by (apply Nat.div_lt_upper_bound; lia). assert (Hkm : (k mod 3 < 3)%nat) by (apply Nat.mod_upper_bound; lia).
    assert (TG : tag L (k / 3) = tag L i <-> owner (k / 3)%nat = i).
    { split; intros H.
      - pose proof (oo_map _ _ S3 (k / 3)%nat Hkd) as Z1. pose proof (oo_map _ _ S3 i ltac:(lia)) as Z2. unfold tag in H. rewrite H in Z1. rewrite Z1 in Z2. apply (f_equal (fun o => match o with Some z => z | None => 0%nat end)) in Z2. cbv beta iota in Z2. rewrite (oo_self _ _ S3 i Hi) in Z2. exact Z2.
      - transitivity (tag L (owner (k / 3)%nat)); [symmetry; exact (sp_owner _ _ _ _ _ _ S4 (k / 3)%nat Hkd)|exact (f_equal (tag L) H)]. }
    destruct (Nat.eqb_spec (3 * i + c) (3 * owner (k / 3)%nat + k mod 3)) as [Eq|Ne].
    - assert (owner (k / 3)%nat = i /\ k mod 3 = c)%nat as [O1 O2] by lia. rewrite (proj2 TG O1), O2, !Nat.eqb_refl. cbn [andb]. rewrite O1.
      unfold z0. rewrite NP by lia. change (carrier RNum) with R. ring.
    - rewrite NP by (apply OW; exact Hk'). destruct (Nat.eqb_spec (tag L (k / 3)) (tag L i)) as [Et|Nt]; cbn [andb]; [|change (carrier RNum) with R; ring].
      destruct (Nat.eqb_spec (k mod 3) c) as [Ec|Nc]; [exfalso; apply Ne; rewrite (proj1 TG Et); lia|change (carrier RNum) with R; ring]. }
  destruct (dist_motion _ _ _ (fun u => E (z0 + u)) del st b0' (motion_disp (tag L i) c (d_L t :: d_ranks t)) Lst Hst L0 B1) as (del' & D1 & D2).
  { intros u Hu. fold L. rewrite DI. apply (B2 (z0 + u)). match goal with |- Rabs ?w < _ => replace w with u; [exact Hu|unfold z0; change (carrier RNum) with R; ring] end. }
  exists (fun u => E (z0 + u)), del'. split; [exact D1|]. split; [exact D2|].
  destruct (Q4 b0' L0p L0acc L0 L0acc_ok) as (b1' & p1' & a1' & C1 & _ & C3). rewrite A3 in C1. injection C1 as <- <- <-.
  destruct (sums _ _ _ _ _ _ C3) as (_ & _ & V). unfold accs. fold L in V. rewrite (V tags_len i c Hi Hc).
  eapply dlim_eq; [|apply dlim_comp with (f := fun u => z0 + u)].
  2:{ apply dlim_plus; [apply dlim_const|apply dlim_id]. }
  2:{ rewrite Rplus_0_r. exact B3. }
  change (carrier RNum) with R. ring.
Qed.
End Mode.

(** mode mpi_message_passing *)
Lemma need_mpi l x : (forall i, In i (needed_mpi (N:=RNum) l) -> kept (N:=RNum) rc (at_x l x) i = kept (N:=RNum) rc l i) -> needed_mpi (N:=RNum) (at_x l x) = needed_mpi (N:=RNum) l.
Proof. reflexivity. Qed.
Lemma need_no_mpi l x : (forall i, In i (needed_no_mpi (N:=RNum) rc l) -> kept (N:=RNum) rc (at_x l x) i = kept (N:=RNum) rc l i) ->
  needed_no_mpi (N:=RNum) rc (at_x l x) = needed_no_mpi (N:=RNum) rc l.
Proof.
  intros H. unfold needed_no_mpi. f_equal. apply flat_map_ext_in. intros i Hi. apply H. unfold needed_no_mpi. apply in_or_app. left. exact Hi.
Qed.
Lemma moved_mpi P t X : mpi_step_ok f rc types P t -> step_ok f rc types needed_mpi P (moved (fun l => at_x l (X l)) t) -> mpi_step_ok f rc types P (moved (fun l => at_x l (X l)) t).
Proof.
  intros [M1 M2 [M3 M4]] S. constructor; [exact S| |].
  - intros l' Hl'. cbn [moved d_ranks] in Hl'. apply in_map_iff in Hl'. destruct Hl' as (l & <- & Hl). exact (M2 l Hl).
  - cbn [moved d_ranks d_own d_msgs]. constructor; rewrite !map_map; assumption.
Qed.

Section Run.
Variable P : nat.
Variable ts : list dstep.
Variable t : dstep.
Variable pbs : list (pair_bufs RNum).
Hypothesis Lp : length pbs = P.
Hypothesis OL : off_cutoff (d_L t) rc.
Hypothesis SA : smooth_at f (nd_input (N:=RNum) types rc (d_owner t) (d_L t)) (i_xyz (nd_input (N:=RNum) types rc (d_owner t) (d_L t))).
Hypothesis He : eflag_global (d_fl t) = true.

Lemma mpi_strain e : Forall (mpi_step_ok f rc types P) ts -> mpi_step_ok f rc types P t -> (forall l, In l (d_ranks t) -> off_cutoff_at (needed_mpi l) l rc) ->
  vflag_global (d_fl t) = true -> (forall i c, e i c = e c i) ->
  exists m b0 st qs E del, load_from_json srt f = Some (m, b0) /\
    mpi_steps sph m rc types ts (map (fun pb => (b0, pb)) pbs) = Some st /\
    mpi_run (N:=RNum) sph m rc types (d_fl t) (d_msgs t) (procs t st) = Some qs /\ length qs = P /\ 0 < del /\
    (forall u, Rabs u < del -> exists qs', mpi_run (N:=RNum) sph m rc types (d_fl t) (d_msgs t) (procs (moved (strained e u) t) st) = Some qs' /\
       E u = added_energy (d_acc t) (map (fun q => pr_a q) qs')) /\
    let v := added_virial (d_acc t) (map (fun q => pr_a q) qs) in
    derivable_pt_lim E 0 (- (v 0%nat * e 0%nat 0%nat + v 1%nat * e 1%nat 1%nat + v 2%nat * e 2%nat 2%nat
                               + 2 * (v 3%nat * e 0%nat 1%nat) + 2 * (v 4%nat * e 0%nat 2%nat) + 2 * (v 5%nat * e 1%nat 2%nat))).
Proof.
  intros Hts Ht OR Hv Hsym. destruct (load_ok srt Hsrt f F) as (b0 & E0 & L0).
  destruct (mpi_many sph Hsph srt f F types rc P ts Hts (map (fun pb => (b0, pb)) pbs)) as (st & Es & Ls & Hs).
  { rewrite map_length. exact Lp. } { intros q Hq. apply in_map_iff in Hq. destruct Hq as (pb & <- & _). exact L0. }
  destruct (mode_strain P needed_mpi need_mpi (mpi_step_ok f rc types P) (fun t H => mo_step _ _ _ _ _ H) (moved_mpi P)
    (fun t st => mpi_run (N:=RNum) sph (ldm f) rc types (d_fl t) (d_msgs t) (procs t st)) (mpi_one sph Hsph srt f F types rc P) t Ht OL OR SA He e st Hv Hsym Ls Hs)
    as (qs & E & del & Q1 & Q2 & Q3 & Q4 & Q5).
  exists (ldm f), b0, st, qs, E, del. split; [exact E0|]. split; [exact Es|]. split; [exact Q1|]. split; [exact Q2|]. split; [exact Q3|]. split; [exact Q4|exact Q5].
Qed.
Lemma no_strain e : Forall (step_ok f rc types (needed_no_mpi (N:=RNum) rc) P) ts -> step_ok f rc types (needed_no_mpi (N:=RNum) rc) P t ->
  (forall l, In l (d_ranks t) -> off_cutoff_at (needed_no_mpi (N:=RNum) rc l) l rc) ->
  vflag_global (d_fl t) = true -> (forall i c, e i c = e c i) ->
  exists m b0 st qs E del, load_from_json srt f = Some (m, b0) /\
    no_mpi_steps sph m rc types ts (map (fun pb => (b0, pb)) pbs) = Some st /\
    no_mpi_run sph m rc types (d_fl t) (procs t st) = Some qs /\ length qs = P /\ 0 < del /\
    (forall u, Rabs u < del -> exists qs', no_mpi_run sph m rc types (d_fl t) (procs (moved (strained e u) t) st) = Some qs' /\
       E u = added_energy (d_acc t) (map (fun q => pr_a q) qs')) /\
    let v := added_virial (d_acc t) (map (fun q => pr_a q) qs) in
    derivable_pt_lim E 0 (- (v 0%nat * e 0%nat 0%nat + v 1%nat * e 1%nat 1%nat + v 2%nat * e 2%nat 2%nat
                               + 2 * (v 3%nat * e 0%nat 1%nat) + 2 * (v 4%nat * e 0%nat 2%nat) + 2 * (v 5%nat * e 1%nat 2%nat))).
Proof.
  intros Hts Ht OR Hv Hsym. destruct (load_ok srt Hsrt f F) as (b0 & E0 & L0).
  destruct (no_many sph Hsph srt f F types rc P ts Hts (map (fun pb => (b0, pb)) pbs)) as (st & Es & Ls & Hs).
  { rewrite map_length. exact Lp. } { intros q Hq. apply in_map_iff in Hq. destruct Hq as (pb & <- & _). exact L0. }
  destruct (mode_strain P (needed_no_mpi (N:=RNum) rc) need_no_mpi (step_ok f rc types (needed_no_mpi (N:=RNum) rc) P) (fun t H => H) (fun t X _ H => H)
    (fun t st => no_mpi_run sph (ldm f) rc types (d_fl t) (procs t st)) (no_one sph Hsph srt f F types rc P) t Ht OL OR SA He e st Hv Hsym Ls Hs)
    as (qs & E & del & Q1 & Q2 & Q3 & Q4 & Q5).
  exists (ldm f), b0, st, qs, E, del. split; [exact E0|]. split; [exact Es|]. split; [exact Q1|]. split; [exact Q2|]. split; [exact Q3|]. split; [exact Q4|exact Q5].
Qed.
Lemma mpi_forces : Forall (mpi_step_ok f rc types P) ts -> mpi_step_ok f rc types P t -> (forall l, In l (d_ranks t) -> off_cutoff_at (needed_mpi l) l rc) ->
  exists m b0 st qs, load_from_json srt f = Some (m, b0) /\
    mpi_steps sph m rc types ts (map (fun pb => (b0, pb)) pbs) = Some st /\
    mpi_run (N:=RNum) sph m rc types (d_fl t) (d_msgs t) (procs t st) = Some qs /\ length qs = P /\
    forall i c, (i < nlocal (d_L t))%nat -> (c < 3)%nat -> exists E del, 0 < del /\
      (forall u, Rabs u < del -> exists qs', mpi_run (N:=RNum) sph m rc types (d_fl t) (d_msgs t) (procs (moved (displaced (tag (d_L t) i) c u) t) st) = Some qs' /\
         E u = added_energy (d_acc t) (map (fun q => pr_a q) qs')) /\
      derivable_pt_lim E 0 (- added_force (map (fun l : lmp RNum => atom_tag l) (d_ranks t)) (d_acc t) (map (fun q => pr_a q) qs) (tag (d_L t) i) c).
Proof.
  intros Hts Ht OR. destruct (load_ok srt Hsrt f F) as (b0 & E0 & L0).
  destruct (mpi_many sph Hsph srt f F types rc P ts Hts (map (fun pb => (b0, pb)) pbs)) as (st & Es & Ls & Hs).
  { rewrite map_length. exact Lp. } { intros q Hq. apply in_map_iff in Hq. destruct Hq as (pb & <- & _). exact L0. }
  destruct (mode_forces P needed_mpi need_mpi (mpi_step_ok f rc types P) (fun t H => mo_step _ _ _ _ _ H) (moved_mpi P)
    (fun t st => mpi_run (N:=RNum) sph (ldm f) rc types (d_fl t) (d_msgs t) (procs t st)) (mpi_one sph Hsph srt f F types rc P) t Ht OL OR SA He st Ls Hs)
    as (qs & Q1 & Q2 & Q3).
  exists (ldm f), b0, st, qs. split; [exact E0|]. split; [exact Es|]. split; [exact Q1|]. split; [exact Q2|exact Q3].
Qed.
Lemma no_forces : Forall (step_ok f rc types (needed_no_mpi (N:=RNum) rc) P) ts -> step_ok f rc types (needed_no_mpi (N:=RNum) rc) P t ->
  (forall l, In l (d_ranks t) -> off_cutoff_at (needed_no_mpi (N:=RNum) rc l) l rc) ->
  exists m b0 st qs, load_from_json srt f = Some (m, b0) /\
    no_mpi_steps sph m rc types ts (map (fun pb => (b0, pb)) pbs) = Some st /\
    no_mpi_run sph m rc types (d_fl t) (procs t st) = Some qs /\ length qs = P /\
    forall i c, (i < nlocal (d_L t))%nat -> (c < 3)%nat -> exists E del, 0 < del /\
      (forall u, Rabs u < del -> exists qs', no_mpi_run sph m rc types (d_fl t) (procs (moved (displaced (tag (d_L t) i) c u) t) st) = Some qs' /\
         E u = added_energy (d_acc t) (map (fun q => pr_a q) qs')) /\
      derivable_pt_lim E 0 (- added_force (map (fun l : lmp RNum => atom_tag l) (d_ranks t)) (d_acc t) (map (fun q => pr_a q) qs) (tag (d_L t) i) c).
Proof.
  intros Hts Ht OR. destruct (load_ok srt Hsrt f F) as (b0 & E0 & L0).
  destruct (no_many sph Hsph srt f F types rc P ts Hts (map (fun pb => (b0, pb)) pbs)) as (st & Es & Ls & Hs).
  { rewrite map_length. exact Lp. } { intros q Hq. apply in_map_iff in Hq. destruct Hq as (pb & <- & _). exact L0. }
  destruct (mode_forces P (needed_no_mpi (N:=RNum) rc) need_no_mpi (step_ok f rc types (needed_no_mpi (N:=RNum) rc) P) (fun t H => H) (fun t X _ H => H)
    (fun t st => no_mpi_run sph (ldm f) rc types (d_fl t) (procs t st)) (no_one sph Hsph srt f F types rc P) t Ht OL OR SA He st Ls Hs)
    as (qs & Q1 & Q2 & Q3).
  exists (ldm f), b0, st, qs. split; [exact E0|]. split; [exact Es|]. split; [exact Q1|]. split; [exact Q2|exact Q3].
Qed.
End Run.
End Thms.
