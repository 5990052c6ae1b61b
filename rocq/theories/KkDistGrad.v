(** Forces and virial of the Kokkos pair style in the distributed modes as derivatives of the distributed energy.  Used in proofs only. *)
From Coq Require Import String List Arith ZArith Lia Bool Permutation Reals Lra.
From Verif Require Import Base BaseLemmas Instances RSums RList MpSpec MaceModel MaceSpec MaceSpec2 MaceGradSpec MacePipe MaceLoad MaceThms
  AseSpec PairModel PairMpiModel PairKokkosModel PairSpec PairCommSpec DistSpec DistThms DistNoThms DistGradSpec DistGrad DistGradThms.
From Verif Require Import KkSem KkModel KkSpec KkPairModel KkPairSpec KkPairThms KkPairMpiModel KkPairMpiSpec KkNoThms KkPairMpi2Model KkPairMpi2Spec KkMpiThms KkDistGradSpec.
Import ListNotations.
Local Open Scope R_scope.

Section Main.
Variable sph : nat -> RNum -> RNum -> RNum -> list RNum * list RNum.
Hypothesis Hs : sph_ok (N:=RNum) sph.
Hypothesis Hg : sph_gradient sph.
Variable junk : mem RNum -> KkSem.cell -> RNum.
Variable srt : list (list (list nat)) -> list (list (list nat)).
Hypothesis Hp : forall l, Permutation l (srt l).
Variable f : mace_file RNum.
Hypothesis F : file_ok f.
Hypothesis FK : kk_file_ok f.
Hypothesis S : smooth_ok f.
Variable arg : list string.
Variable types : list nat.
Hypothesis ND : NoDup (f_atomic_numbers f).
Hypothesis CT : coeff_types (f_atomic_numbers f) arg = Some types.
Hypothesis LT : (List.length types <= List.length (f_atomic_numbers f))%nat.
Variable rc : R.
Notation bl b := (bufs_live (ldm f) (ldp0 srt f) (ldp1 srt f) (ldlive f) b).
Notation tags t := (map (fun l : lmp RNum => atom_tag l) (d_ranks t)).

(** outcomes [out] with the same sums as the serial evaluation have the same sums as the runs of the CPU pair style *)
Section Mode.
Variable P : nat.
Variable needed : lmp RNum -> list nat.
Hypothesis Hneed : forall l x, (forall i, In i (needed l) -> kept (N:=RNum) rc (at_x l x) i = kept (N:=RNum) rc l i) -> needed (at_x l x) = needed l.
Variable okm : dstep -> Prop.
Hypothesis okm_step : forall t, okm t -> step_ok f rc types needed P t.
Hypothesis okm_moved : forall t X, okm t -> step_ok f rc types needed P (moved (fun l => at_x l (X l)) t) -> okm (moved (fun l => at_x l (X l)) t).
Variable run : dstep -> list (mace_bufs RNum * pair_bufs RNum) -> option (list (proc RNum)).
Hypothesis one : forall t st, okm t -> List.length st = P -> (forall q, In q st -> bl (fst q)) ->
  exists qs, run t st = Some qs /\ List.length qs = P /\ (forall q, In q qs -> bl (pr_b q)) /\
  forall b p a, bl b -> acc_ok (d_L t) a -> exists b1 p1 a1,
    compute_no_domain_decomposition (N:=RNum) sph (ldm f) rc types (d_fl t) (d_L t) b p a = Some (b1, p1, a1) /\
    (forall r l q, nth_error (d_ranks t) r = Some l -> nth_error qs r = Some q -> same_energies (d_fl t) (d_L t) l (pr_b q) b1 (pr_a q)) /\
    same_added (d_L t) (tags t) (d_acc t) (map (fun q => pr_a q) qs) a a1.
Variable b0 : mace_bufs RNum.
Hypothesis Hb0 : bl b0.
Variable out : dstep -> list (accum RNum) -> Prop.
Hypothesis kone : forall t A', okm t -> out t A' -> forall a, acc_ok (d_L t) a -> exists b1 p1 a1,
  compute_no_domain_decomposition (N:=RNum) sph (ldm f) rc types (d_fl t) (d_L t) b0 L0p a = Some (b1, p1, a1) /\ same_added (d_L t) (tags t) (d_acc t) A' a a1.
Notation st0 := (repeat (b0, L0p) P).

Lemma st0_len : List.length st0 = P.
Proof. apply repeat_length. Qed.
Lemma st0_bl q : In q st0 -> bl (fst q).
Proof. intros H. apply repeat_spec in H. subst q. exact Hb0. Qed.

Lemma same_sums t A' qs : okm t -> out t A' -> run t st0 = Some qs ->
  added_energy (d_acc t) A' = added_energy (d_acc t) (accs qs) /\
  (forall k, (k < 6)%nat -> added_virial (d_acc t) A' k = added_virial (d_acc t) (accs qs) k) /\
  (forall i c, (i < nlocal (d_L t))%nat -> (c < 3)%nat -> added_force (tags t) (d_acc t) A' (tag (d_L t) i) c = added_force (tags t) (d_acc t) (accs qs) (tag (d_L t) i) c).
Proof.
  intros T O E. destruct (one t st0 T st0_len st0_bl) as (qs' & Q1 & _ & _ & Q4). rewrite E in Q1. injection Q1 as <-.
  destruct (Q4 b0 L0p (L0acc t) Hb0 (L0acc_ok t)) as (b1 & p1 & a1 & C1 & _ & C3).
  destruct (kone t A' T O (L0acc t) (L0acc_ok t)) as (b1' & p1' & a1' & D1 & D3). rewrite C1 in D1. injection D1 as <- <- <-.
  assert (TL : List.length (tags t) = List.length (d_acc t)). { rewrite map_length. eapply Forall2_len. apply (so_acc _ _ _ _ _ _ (okm_step t T)). }
  destruct (sums _ _ _ _ _ _ C3) as (X1 & X2 & X3). destruct (sums _ _ _ _ _ _ D3) as (Y1 & Y2 & Y3). unfold accs.
  split; [congruence|]. split.
  - intros k Hk. rewrite X2, Y2 by exact Hk. reflexivity.
  - intros i c Hi Hc. rewrite X3, Y3 by assumption. reflexivity.
Qed.

Variable t : dstep.
Hypothesis T : okm t.
Hypothesis OL : off_cutoff (d_L t) rc.
Hypothesis OR : forall l, In l (d_ranks t) -> off_cutoff_at (needed l) l rc.
Hypothesis SA : smooth_at f (nd_input (N:=RNum) types rc (d_owner t) (d_L t)) (i_xyz (nd_input (N:=RNum) types rc (d_owner t) (d_L t))).
Hypothesis He : eflag_global (d_fl t) = true.
Variable A' : list (accum RNum).
Hypothesis HA : out t A'.

Lemma near X X' phi (E : R -> R) del : motion (d_L t :: d_ranks t) X X' phi -> 0 < del ->
  (forall u, Rabs u < del -> exists qs, run (moved (fun l => at_x l (X u l)) t) st0 = Some qs /\ E u = added_energy (d_acc t) (accs qs)) ->
  exists del', 0 < del' /\ forall u, Rabs u < del' -> okm (moved (fun l => at_x l (X u l)) t) /\
    forall B, out (moved (fun l => at_x l (X u l)) t) B -> E u = added_energy (d_acc t) B.
Proof.
  intros M Hd HE. destruct (moved_ok f S types rc needed Hneed P t (okm_step t T) OL OR SA X X' phi M) as (d1 & Hd1 & H1).
  exists (Rmin del d1). split; [apply Rmin_case; assumption|]. intros u Hu. assert (M1 := Rmin_l del d1). assert (M2 := Rmin_r del d1).
  assert (K : okm (moved (fun l => at_x l (X u l)) t)) by (apply okm_moved; [exact T|apply H1; lra]). split; [exact K|]. intros B HB.
  destruct (HE u ltac:(lra)) as (qs & Q1 & Q2). destruct (same_sums _ B qs K HB Q1) as (Z & _). cbn [moved d_acc] in Z. rewrite Q2, Z. reflexivity.
Qed.

Lemma tr_forces i c : (i < nlocal (d_L t))%nat -> (c < 3)%nat -> exists E del, 0 < del /\
  (forall u, Rabs u < del -> okm (moved (displaced (tag (d_L t) i) c u) t) /\ forall B, out (moved (displaced (tag (d_L t) i) c u) t) B -> E u = added_energy (d_acc t) B) /\
  derivable_pt_lim E 0 (- added_force (tags t) (d_acc t) A' (tag (d_L t) i) c).
Proof.
  intros Hi Hc. destruct (mode_forces sph Hs Hg srt Hp f F S types rc P needed Hneed okm okm_step okm_moved run one t T OL OR SA He st0 st0_len st0_bl) as (qs & Q1 & Q2 & Q3).
  destruct (Q3 i c Hi Hc) as (E & del & D1 & D2 & D3).
  destruct (near _ _ _ E del (motion_disp (tag (d_L t) i) c (d_L t :: d_ranks t)) D1 D2) as (del' & G1 & G2).
  exists E, del'. split; [exact G1|]. split; [exact G2|]. destruct (same_sums t A' qs T HA Q1) as (_ & _ & Z). rewrite Z by assumption. exact D3.
Qed.

Lemma tr_strain e : vflag_global (d_fl t) = true -> (forall i c, e i c = e c i) -> exists E del, 0 < del /\
  (forall u, Rabs u < del -> okm (moved (strained e u) t) /\ forall B, out (moved (strained e u) t) B -> E u = added_energy (d_acc t) B) /\
  let v := added_virial (d_acc t) A' in
  derivable_pt_lim E 0 (- (v 0%nat * e 0%nat 0%nat + v 1%nat * e 1%nat 1%nat + v 2%nat * e 2%nat 2%nat
                             + 2 * (v 3%nat * e 0%nat 1%nat) + 2 * (v 4%nat * e 0%nat 2%nat) + 2 * (v 5%nat * e 1%nat 2%nat))).
Proof.
  intros Hv Hsym. destruct (mode_strain sph Hs Hg srt Hp f F S types rc P needed Hneed okm okm_step okm_moved run one t T OL OR SA He e st0 Hv Hsym st0_len st0_bl) as (qs & E & del & Q1 & Q2 & D1 & D2 & D3).
  destruct (near _ _ _ E del (motion_strain e (d_L t :: d_ranks t)) D1 D2) as (del' & G1 & G2).
  exists E, del'. split; [exact G1|]. split; [exact G2|]. destruct (same_sums t A' qs T HA Q1) as (_ & Z & _). cbv zeta in D3 |- *. rewrite !Z by lia. exact D3.
Qed.
End Mode.

Variable t : dstep.
Hypothesis OL : off_cutoff (d_L t) rc.
Hypothesis SA : smooth_at f (nd_input (N:=RNum) types rc (d_owner t) (d_L t)) (i_xyz (nd_input (N:=RNum) types rc (d_owner t) (d_L t))).
Hypothesis He : eflag_global (d_fl t) = true.

Lemma kd_moved_ok g qs : (forall l, nlocal (g l) = nlocal l) -> kd_ok f rc types t qs -> mpi_step_ok f rc types (List.length qs) (moved g t) ->
  kd_ok f rc types (moved g t) (map (kd_moved g) qs).
Proof.
  intros Hn [K1 K2 K3 K4] M. constructor.
  - rewrite map_length. exact M.
  - cbn [moved d_ranks]. rewrite <- K2, !map_map. reflexivity.
  - cbn [moved d_acc]. rewrite <- K3, map_map. reflexivity.
  - intros q Hq. apply in_map_iff in Hq. destruct Hq as (q0 & <- & Hq). cbn [kd_moved kd_l kd_max]. rewrite Hn. apply K4. exact Hq.
Qed.
Lemma kq_moved_ok km mt g qs : (forall l, nlocal (g l) = nlocal l) -> kprocs_ok sph junk km f rc types mt t qs -> step_ok f rc types (needed_no_mpi (N:=RNum) rc) (List.length qs) (moved g t) ->
  kprocs_ok sph junk km f rc types mt (moved g t) (map (kq_moved g) qs).
Proof.
  intros Hn [K1 K2 K3 K4 K5] M. constructor.
  - rewrite map_length. exact M.
  - cbn [moved d_ranks]. rewrite <- K2, !map_map. reflexivity.
  - cbn [moved d_acc]. rewrite <- K3, map_map. reflexivity.
  - intros q Hq. apply in_map_iff in Hq. destruct Hq as (q0 & <- & Hq). exact (K4 q0 Hq).
  - intros q Hq. apply in_map_iff in Hq. destruct Hq as (q0 & <- & Hq). cbn [kq_moved kq_l kq_max]. rewrite Hn. apply K5. exact Hq.
Qed.

Section Mpi.
Variable host : bool.

Lemma lemma_C92_mpi : exists km mt, kk_load_from_json srt f = Some km /\ coeff_types_kk (f_atomic_numbers f) arg = Some mt /\
  forall qs, kd_reach sph junk km f rc types mt host (map kd_st qs) -> kd_ok f rc types t qs -> (forall q, In q qs -> off_cutoff_at (needed_mpi (kd_l q)) (kd_l q) rc) ->
  (exists o, kk_mpi_run sph junk km rc mt (d_fl t) (d_msgs t) host qs o) /\
  forall o, kk_mpi_run sph junk km rc mt (d_fl t) (d_msgs t) host qs o -> exists rs, o = Some rs /\ List.length rs = List.length qs /\
  (forall i c, (i < nlocal (d_L t))%nat -> (c < 3)%nat -> exists E del, 0 < del /\
     (forall u, Rabs u < del -> let qu := map (kd_moved (displaced (tag (d_L t) i) c u)) qs in
        (exists o', kk_mpi_run sph junk km rc mt (d_fl t) (d_msgs t) host qu o') /\
        forall o', kk_mpi_run sph junk km rc mt (d_fl t) (d_msgs t) host qu o' -> exists rs', o' = Some rs' /\ List.length rs' = List.length qs /\ E u = added_energy (map kd_a qs) (map snd rs')) /\
     derivable_pt_lim E 0 (- added_force (map (fun q => atom_tag (kd_l q)) qs) (map kd_a qs) (map snd rs) (tag (d_L t) i) c)) /\
  (forall e, vflag_global (d_fl t) = true -> (forall i c, e i c = e c i) -> exists E del, 0 < del /\
     (forall u, Rabs u < del -> let qu := map (kd_moved (strained e u)) qs in
        (exists o', kk_mpi_run sph junk km rc mt (d_fl t) (d_msgs t) host qu o') /\
        forall o', kk_mpi_run sph junk km rc mt (d_fl t) (d_msgs t) host qu o' -> exists rs', o' = Some rs' /\ List.length rs' = List.length qs /\ E u = added_energy (map kd_a qs) (map snd rs')) /\
     let v := added_virial (map kd_a qs) (map snd rs) in
     derivable_pt_lim E 0 (- (v 0%nat * e 0%nat 0%nat + v 1%nat * e 1%nat 1%nat + v 2%nat * e 2%nat 2%nat
                                + 2 * (v 3%nat * e 0%nat 1%nat) + 2 * (v 4%nat * e 0%nat 2%nat) + 2 * (v 5%nat * e 1%nat 2%nat)))).
Proof.
  destruct (lemma_C62_serial sph Hs junk srt Hp f F FK arg types ND CT LT rc host) as (km & mt & m & b0 & A1 & A2 & A3 & A4).
  exists km, mt. split; [exact A1|]. split; [exact A2|]. destruct (A4 [] (Forall_nil _)) as (b & Eb & A5). injection Eb as <-.
  destruct (load_ok srt Hp f F) as (b0' & E0 & L0). rewrite E0 in A3. injection A3 as <- <-.
  set (P := fun qs => kk_mpi_run sph junk km rc mt (d_fl t) (d_msgs t) host qs).
  intros qs Hr K OR.
  set (out := fun t' B => exists qs' rs', kd_reach sph junk km f rc types mt host (map kd_st qs') /\ kd_ok f rc types t' qs' /\
     kk_mpi_run sph junk km rc mt (d_fl t') (d_msgs t') host qs' (Some rs') /\ B = map snd rs').
  assert (kone : forall t' B, mpi_step_ok f rc types (List.length qs) t' -> out t' B -> forall a, acc_ok (d_L t') a -> exists b1 p1 a1,
    compute_no_domain_decomposition (N:=RNum) sph (ldm f) rc types (d_fl t') (d_L t') b0' L0p a = Some (b1, p1, a1) /\ same_added (d_L t') (tags t') (d_acc t') B a a1).
  { intros t' B _ (qs' & rs' & R1 & R2 & R3 & ->) a Ha. destruct (A5 t' qs' R1 R2 L0p a Ha) as (b1 & p1 & a1 & C1 & _ & C3).
    exists b1, p1, a1. split; [exact C1|]. destruct (C3 _ R3) as (rs'' & Er & C4 & _). injection Er as <-. destruct R2 as [_ G2 G3 _]. rewrite <- G2, <- G3, map_map. exact C4. }
  assert (all : forall g, (forall l, nlocal (g l) = nlocal l) -> mpi_step_ok f rc types (List.length qs) (moved g t) ->
    (exists o', P (map (kd_moved g) qs) o') /\ forall o', P (map (kd_moved g) qs) o' -> exists rs', o' = Some rs' /\ List.length rs' = List.length qs /\ out (moved g t) (map snd rs')).
  { intros g Hn M. pose proof (kd_moved_ok g qs Hn K M) as KM.
    assert (Er : kd_reach sph junk km f rc types mt host (map kd_st (map (kd_moved g) qs))) by (rewrite map_map; exact Hr).
    destruct (A5 (moved g t) (map (kd_moved g) qs) Er KM L0p (L0acc (moved g t)) (L0acc_ok (moved g t))) as (b1 & p1 & a1 & _ & C2 & C3).
    split; [exact C2|]. intros o' Ho'. destruct (C3 o' Ho') as (rs' & -> & C4 & _). exists rs'. split; [reflexivity|]. split.
    - destruct C4 as [[C4 _] _ _ _]. rewrite !map_length in C4. exact C4.
    - exists (map (kd_moved g) qs), rs'. split; [exact Er|]. split; [exact KM|]. split; [exact Ho'|reflexivity]. }
  destruct (A5 t qs Hr K L0p (L0acc t) (L0acc_ok t)) as (b1 & p1 & a1 & _ & C2 & C3). split; [exact C2|].
  intros o Ho. destruct (C3 o Ho) as (rs & -> & C4 & _). exists rs. split; [reflexivity|]. split. { destruct C4 as [[C4 _] _ _ _]. rewrite !map_length in C4. exact C4. }
  assert (HO : out t (map snd rs)) by (exists qs, rs; auto).
  assert (OR' : forall l, In l (d_ranks t) -> off_cutoff_at (needed_mpi l) l rc).
  { intros l Hl. rewrite <- (kd_ranks _ _ _ _ _ K) in Hl. apply in_map_iff in Hl. destruct Hl as (q & <- & Hq). exact (OR q Hq). }
  replace (map (fun q => atom_tag (kd_l q)) qs) with (tags t) by (rewrite <- (kd_ranks _ _ _ _ _ K), map_map; reflexivity). rewrite (kd_acc _ _ _ _ _ K).
  split.
  - intros i c Hi Hc.
    destruct (tr_forces (List.length qs) needed_mpi (need_mpi rc) (mpi_step_ok f rc types (List.length qs)) (fun t H => mo_step _ _ _ _ _ H) (moved_mpi f types rc (List.length qs))
      (fun t st => mpi_run (N:=RNum) sph (ldm f) rc types (d_fl t) (d_msgs t) (procs t st)) (mpi_one sph Hs srt f F types rc (List.length qs)) b0' L0 out kone t (kd_step _ _ _ _ _ K) OL OR' SA He _ HO i c Hi Hc)
      as (E & del & D1 & D2 & D3). exists E, del. split; [exact D1|]. split; [|exact D3]. intros u Hu qu. destruct (D2 u Hu) as (G1 & G2).
    destruct (all (displaced (tag (d_L t) i) c u) (fun l => eq_refl) G1) as (H1 & H2). split; [exact H1|]. intros o' Ho'. destruct (H2 o' Ho') as (rs' & E1 & E2 & E3).
    exists rs'. split; [exact E1|]. split; [exact E2|]. apply G2. exact E3.
  - intros e Hv Hsym.
    destruct (tr_strain (List.length qs) needed_mpi (need_mpi rc) (mpi_step_ok f rc types (List.length qs)) (fun t H => mo_step _ _ _ _ _ H) (moved_mpi f types rc (List.length qs))
      (fun t st => mpi_run (N:=RNum) sph (ldm f) rc types (d_fl t) (d_msgs t) (procs t st)) (mpi_one sph Hs srt f F types rc (List.length qs)) b0' L0 out kone t (kd_step _ _ _ _ _ K) OL OR' SA He _ HO e Hv Hsym)
      as (E & del & D1 & D2 & D3). exists E, del. split; [exact D1|]. split; [|exact D3]. intros u Hu qu. destruct (D2 u Hu) as (G1 & G2).
    destruct (all (strained e u) (fun l => eq_refl) G1) as (H1 & H2). split; [exact H1|]. intros o' Ho'. destruct (H2 o' Ho') as (rs' & E1 & E2 & E3).
    exists rs'. split; [exact E1|]. split; [exact E2|]. apply G2. exact E3.
Qed.
End Mpi.

Lemma lemma_C92_no_mpi : exists km mt, kk_load_from_json srt f = Some km /\ coeff_types_kk (f_atomic_numbers f) arg = Some mt /\
  forall qs, kprocs_ok sph junk km f rc types mt t qs -> (forall q, In q qs -> off_cutoff_at (needed_no_mpi (N:=RNum) rc (kq_l q)) (kq_l q) rc) ->
  (exists os, kk_no_run sph junk km rc mt (d_fl t) qs os) /\
  forall os, kk_no_run sph junk km rc mt (d_fl t) qs os -> exists rs, os = map Some rs /\ List.length rs = List.length qs /\
  (forall i c, (i < nlocal (d_L t))%nat -> (c < 3)%nat -> exists E del, 0 < del /\
     (forall u, Rabs u < del -> let qu := map (kq_moved (displaced (tag (d_L t) i) c u)) qs in
        (exists os', kk_no_run sph junk km rc mt (d_fl t) qu os') /\
        forall os', kk_no_run sph junk km rc mt (d_fl t) qu os' -> exists rs', os' = map Some rs' /\ List.length rs' = List.length qs /\ E u = added_energy (map kq_a qs) (map snd rs')) /\
     derivable_pt_lim E 0 (- added_force (map (fun q => atom_tag (kq_l q)) qs) (map kq_a qs) (map snd rs) (tag (d_L t) i) c)) /\
  (forall e, vflag_global (d_fl t) = true -> (forall i c, e i c = e c i) -> exists E del, 0 < del /\
     (forall u, Rabs u < del -> let qu := map (kq_moved (strained e u)) qs in
        (exists os', kk_no_run sph junk km rc mt (d_fl t) qu os') /\
        forall os', kk_no_run sph junk km rc mt (d_fl t) qu os' -> exists rs', os' = map Some rs' /\ List.length rs' = List.length qs /\ E u = added_energy (map kq_a qs) (map snd rs')) /\
     let v := added_virial (map kq_a qs) (map snd rs) in
     derivable_pt_lim E 0 (- (v 0%nat * e 0%nat 0%nat + v 1%nat * e 1%nat 1%nat + v 2%nat * e 2%nat 2%nat
                                + 2 * (v 3%nat * e 0%nat 1%nat) + 2 * (v 4%nat * e 0%nat 2%nat) + 2 * (v 5%nat * e 1%nat 2%nat)))).
Proof.
  destruct (lemma_C61_serial sph Hs junk srt Hp f F FK arg types ND CT LT rc) as (km & mt & m & b0 & A1 & A2 & A3 & A4).
  exists km, mt. split; [exact A1|]. split; [exact A2|]. destruct (A4 [] (Forall_nil _)) as (b & Eb & A5). injection Eb as <-.
  destruct (load_ok srt Hp f F) as (b0' & E0 & L0). rewrite E0 in A3. injection A3 as <- <-.
  set (P := fun qs => kk_no_run sph junk km rc mt (d_fl t) qs).
  intros qs K OR.
  set (okm := step_ok f rc types (needed_no_mpi (N:=RNum) rc) (List.length qs)).
  set (out := fun t' B => exists qs' rs', kprocs_ok sph junk km f rc types mt t' qs' /\
     kk_no_run sph junk km rc mt (d_fl t') qs' (map Some rs') /\ B = map snd rs').
  assert (inj : forall (X : Type) (l l' : list X), map Some l = map Some l' -> l = l').
  { intros X l. induction l as [|x l IH]; intros [|y l'] Hl; try discriminate; [reflexivity|]. injection Hl as -> Hl. f_equal. apply IH. exact Hl. }
  assert (kone : forall t' B, okm t' -> out t' B -> forall a, acc_ok (d_L t') a -> exists b1 p1 a1,
    compute_no_domain_decomposition (N:=RNum) sph (ldm f) rc types (d_fl t') (d_L t') b0' L0p a = Some (b1, p1, a1) /\ same_added (d_L t') (tags t') (d_acc t') B a a1).
  { intros t' B _ (qs' & rs' & R2 & R3 & ->) a Ha. destruct (A5 t' qs' R2 L0p a Ha) as (b1 & p1 & a1 & C1 & _ & C3).
    exists b1, p1, a1. split; [exact C1|]. destruct (C3 _ R3) as (rs'' & Er & C4 & _). apply inj in Er. subst rs''. destruct R2 as [_ G2 G3 _ _]. rewrite <- G2, <- G3, map_map. exact C4. }
  assert (all : forall g, (forall l, nlocal (g l) = nlocal l) -> okm (moved g t) ->
    (exists o', P (map (kq_moved g) qs) o') /\ forall o', P (map (kq_moved g) qs) o' -> exists rs', o' = map Some rs' /\ List.length rs' = List.length qs /\ out (moved g t) (map snd rs')).
  { intros g Hn M. pose proof (kq_moved_ok km mt g qs Hn K M) as KM.
    destruct (A5 (moved g t) (map (kq_moved g) qs) KM L0p (L0acc (moved g t)) (L0acc_ok (moved g t))) as (b1 & p1 & a1 & _ & C2 & C3).
    split; [exact C2|]. intros o' Ho'. destruct (C3 o' Ho') as (rs' & -> & C4 & _). exists rs'. split; [reflexivity|]. split.
    - destruct C4 as [[C4 _] _ _ _]. rewrite !map_length in C4. exact C4.
    - exists (map (kq_moved g) qs), rs'. split; [exact KM|]. split; [exact Ho'|reflexivity]. }
  destruct (A5 t qs K L0p (L0acc t) (L0acc_ok t)) as (b1 & p1 & a1 & _ & C2 & C3). split; [exact C2|].
  intros o Ho. destruct (C3 o Ho) as (rs & -> & C4 & _). exists rs. split; [reflexivity|]. split. { destruct C4 as [[C4 _] _ _ _]. rewrite !map_length in C4. exact C4. }
  assert (HO : out t (map snd rs)) by (exists qs, rs; auto).
  assert (OR' : forall l, In l (d_ranks t) -> off_cutoff_at (needed_no_mpi (N:=RNum) rc l) l rc).
  { intros l Hl. rewrite <- (kq_ranks _ _ _ _ _ _ _ _ _ K) in Hl. apply in_map_iff in Hl. destruct Hl as (q & <- & Hq). exact (OR q Hq). }
  replace (map (fun q => atom_tag (kq_l q)) qs) with (tags t) by (rewrite <- (kq_ranks _ _ _ _ _ _ _ _ _ K), map_map; reflexivity). rewrite (kq_acc _ _ _ _ _ _ _ _ _ K).
  split.
  - intros i c Hi Hc.
    destruct (tr_forces (List.length qs) (needed_no_mpi (N:=RNum) rc) (need_no_mpi rc) okm (fun t H => H) (fun t X _ H => H)
      (fun t st => no_mpi_run sph (ldm f) rc types (d_fl t) (procs t st)) (no_one sph Hs srt f F types rc (List.length qs)) b0' L0 out kone t (kq_step _ _ _ _ _ _ _ _ _ K) OL OR' SA He _ HO i c Hi Hc)
      as (E & del & D1 & D2 & D3). exists E, del. split; [exact D1|]. split; [|exact D3]. intros u Hu qu. destruct (D2 u Hu) as (G1 & G2).
    destruct (all (displaced (tag (d_L t) i) c u) (fun l => eq_refl) G1) as (H1 & H2). split; [exact H1|]. intros o' Ho'. destruct (H2 o' Ho') as (rs' & E1 & E2 & E3).
    exists rs'. split; [exact E1|]. split; [exact E2|]. apply G2. exact E3.
  - intros e Hv Hsym.
    destruct (tr_strain (List.length qs) (needed_no_mpi (N:=RNum) rc) (need_no_mpi rc) okm (fun t H => H) (fun t X _ H => H)
      (fun t st => no_mpi_run sph (ldm f) rc types (d_fl t) (procs t st)) (no_one sph Hs srt f F types rc (List.length qs)) b0' L0 out kone t (kq_step _ _ _ _ _ _ _ _ _ K) OL OR' SA He _ HO e Hv Hsym)
      as (E & del & D1 & D2 & D3). exists E, del. split; [exact D1|]. split; [|exact D3]. intros u Hu qu. destruct (D2 u Hu) as (G1 & G2).
    destruct (all (strained e u) (fun l => eq_refl) G1) as (H1 & H2). split; [exact H1|]. intros o' Ho'. destruct (H2 o' Ho') as (rs' & E1 & E2 & E3).
    exists rs'. split; [exact E1|]. split; [exact E2|]. apply G2. exact E3.
Qed.
End Main.
