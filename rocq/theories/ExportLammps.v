(** The LAMMPS pair style with an exported file: energies, forces and virial are those of the PyTorch model. *)
From Coq Require Import List Arith ZArith Lia Bool Permutation Sorted Reals Lra.
From Verif Require Import Base BaseLemmas Instances RSums RList MlpR MlpSpec MpSpec SplineModel MaceModel MaceSpec MaceSpec2 MaceLoad MaceFlat MaceThms MaceGradSpec MaceForces
  ExportModel ExportSpec ExportPolySpec EnergySpec EnergyProofs ExportFullModel TorchSpec ExportFullThms TorchGradSpec ExportForces ExportAse
  AseSpec AseThms AseGrad PairModel PairSpec PairThms PairTally PairGrad PairMpiModel PairCommSpec DistSpec DistGradSpec DistTally DistThms DistNoThms DistGradThms.
Import ListNotations.
Local Open Scope R_scope.

Section Serial.
Variable sph : nat -> RNum -> RNum -> RNum -> list RNum * list RNum.
Hypothesis Hsph : sph_ok sph.
Hypothesis Hgr : sph_gradient sph.
Variable srt : list (list (list nat)) -> list (list (list nat)).
Hypothesis Hsrt : forall l, Permutation l (srt l).
Variable f : mace_file RNum.
Hypothesis F : file_ok f.
Hypothesis SF : smooth_ok f.
Variable te : input RNum -> nat -> R.
Hypothesis HE : forall hist x, List.Forall (input_ok f) hist -> input_ok f x -> exists m c0 c1 c2, load_from_json srt f = Some (m, c0) /\ calls sph m c0 hist = Some c1 /\ call sph m c1 x = Some c2 /\
        b_node_energies c2 = map (te x) (seq 0 (i_num_nodes x)).
Variable rc : R.
Variable types : list nat.
Variable owner : nat -> nat.
Notation inp l := (nd_input (N:=RNum) types rc owner l).
Notation tot x := (sum (i_num_nodes x) (te x)).

Lemma at_self (l : lmp RNum) : at_x l (atom_x l) = l.
Proof. destruct l. reflexivity. Qed.
Lemma keptS (l : lmp RNum) i : kept (N:=RNum) rc (at_x l (atom_x l)) i = kept (N:=RNum) rc l i.
Proof. rewrite at_self. reflexivity. Qed.

Lemma ser_energy (l : lmp RNum) hist fl p (a : accum RNum) : lmp_ok (length types) (ilist l) l -> owner_ok owner l -> List.Forall (input_ok f) hist -> vflag_atom fl = false -> acc_ok l a -> input_ok f (inp l) ->
  exists m b0 bh b1 p1 a1, load_from_json srt f = Some (m, b0) /\ calls sph m b0 hist = Some bh /\
    compute_no_domain_decomposition sph m rc types fl l bh p a = Some (b1, p1, a1) /\
    b_node_energies b1 = map (te (inp l)) (seq 0 (length (ilist l))) /\ (eflag_global fl = true -> eng_vdwl a1 = eng_vdwl a + tot (inp l)).
Proof.
  intros L O Hh Hv Ha HI. destruct (HE hist (inp l) Hh HI) as (m & b0 & bh & b1 & E1 & E2 & E3 & E4).
  destruct (load_ok srt Hsrt f F) as (b0' & E1' & L0). rewrite E1' in E1. injection E1 as <- <-.
  destruct (calls_ok sph Hsph srt f F b0' hist L0 Hh) as (bh' & E2' & Lh). rewrite E2' in E2. injection E2 as <-.
  assert (EI : inp l = with_xyz (inp l) (pvec (kpairs l rc (ilist l)) (atom_x l))).
  { rewrite <- (nd_input_at l rc types owner (atom_x l)) by (intros; apply keptS). rewrite at_self. reflexivity. }
  destruct (nd_step sph Hsph srt f F l rc types L owner O fl p a (atom_x l) bh' Hv Ha eq_refl) as (b & p1 & S1 & S2 & S3 & S4).
  { intros; apply keptS. } { rewrite <- EI. exact HI. } { exact Lh. }
  rewrite <- EI in S1. rewrite E3 in S1. injection S1 as <-. rewrite at_self in S4.
  exists (ldm f), b0', bh', b1, p1. eexists. split; [exact E1'|]. split; [exact E2'|]. split; [exact S4|]. split; [exact E4|].
  intros He. unfold acc1. cbn [eng_vdwl]. rewrite He, E4, <- sum_total. reflexivity.
Qed.

Lemma ser_forces (l : lmp RNum) : lmp_ok (length types) (ilist l) l -> owner_ok owner l ->
  forall hist fl p (a : accum RNum) sh pos, List.Forall (input_ok f) hist -> vflag_atom fl = false -> eflag_global fl = true -> acc_ok l a ->
  length pos = (3 * nlocal l)%nat -> atom_x l = images (nlocal l + nghost l) owner sh pos -> off_cutoff l rc -> smooth_at f (inp l) (i_xyz (inp l)) -> input_ok f (inp l) ->
  exists m b0 bh b1 p1 a1, load_from_json srt f = Some (m, b0) /\ calls sph m b0 hist = Some bh /\
    compute_no_domain_decomposition sph m rc types fl l bh p a = Some (b1, p1, a1) /\
    b_node_energies b1 = map (te (inp l)) (seq 0 (length (ilist l))) /\ eng_vdwl a1 = eng_vdwl a + tot (inp l) /\
    forall q, (q < 3 * nlocal l)%nat -> derivable_pt_lim (fun u => tot (inp (at_x l (images (nlocal l + nghost l) owner sh (upd pos q u))))) (nth q pos 0)
      (- (nth q (force a1) 0 - nth q (force a) 0)).
Proof.
  intros L O hist fl p a sh pos Hh Hv He Ha Lp Hx HO SA HI.
  destruct (ser_energy l hist fl p a L O Hh Hv Ha HI) as (m & b0 & bh & b1 & p1 & a1 & E1 & E2 & E3 & E4 & E5).
  destruct (nd_forces sph Hsph Hgr srt Hsrt f F SF l rc types L owner O hist fl p a sh pos Hh Hv He Ha Lp Hx HO SA) as (m' & b0' & bh' & b1' & p1' & a1' & A1 & A2 & A3 & _ & _ & A4).
  rewrite E1 in A1. injection A1 as <- <-. rewrite E2 in A2. injection A2 as <-. rewrite E3 in A3. injection A3 as <- <- <-.
  exists m, b0, bh, b1, p1, a1. split; [exact E1|]. split; [exact E2|]. split; [exact E3|]. split; [exact E4|]. split; [exact (E5 He)|].
  intros q Hq. destruct (A4 q Hq) as (E & del & Hd & H1 & H2).
  destruct (nd_near f SF l rc types L owner (fun u => images (nlocal l + nghost l) owner sh (upd pos q u)) (fun r => ind (3 * owner (r / 3)%nat + r mod 3) q) (nth q pos 0)) as (d2 & Hd2 & Hn).
  { rewrite upd_same. symmetry. exact Hx. } { intros; unfold images; rewrite map_length, seq_length; reflexivity. }
  { intros r Hr. apply dlim_ext with (f := fun u => nth (3 * owner (r / 3)%nat + r mod 3) (upd pos q u) 0 + nth r sh 0).
    { intros u. symmetry. unfold images. apply (nth_tab (3 * (nlocal l + nghost l)) (fun k => nth (3 * owner (k / 3)%nat + k mod 3) (upd pos q u) 0 + nth k sh 0)). exact Hr. }
    eapply dlim_eq; [|apply dlim_plus; [|apply dlim_const]]; [apply Rplus_0_r|].
    apply dlim_ext with (f := fun u => if (3 * owner (r / 3)%nat + r mod 3 =? q)%nat then u else nth (3 * owner (r / 3)%nat + r mod 3) pos 0).
    - intros u. rewrite nth_upd by lia. rewrite Nat.eqb_sym. reflexivity.
    - unfold ind. destruct (_ =? q)%nat; [apply dlim_id|apply dlim_const]. }
  { exact HO. } { exact SA. }
  apply (dlim_local E _ _ _ (Rmin del d2)); [exact H2|apply Rmin_case; assumption|].
  intros u Hu. assert (U1 : Rabs (u - nth q pos 0) < del) by (eapply Rlt_le_trans; [exact Hu|apply Rmin_l]).
  assert (U2 : Rabs (u - nth q pos 0) < d2) by (eapply Rlt_le_trans; [exact Hu|apply Rmin_r]).
  destruct (H1 u U1) as (b & p' & a' & B1 & ->). set (l' := at_x l (images (nlocal l + nghost l) owner sh (upd pos q u))) in *.
  assert (Lx : length (images (nlocal l + nghost l) owner sh (upd pos q u)) = length (atom_x l)) by (rewrite Hx; unfold images; rewrite !map_length, !seq_length; reflexivity).
  destruct (ser_energy l' hist fl p a (lmp_ok_at _ _ _ _ L Lx) (owner_ok_at _ _ _ O) Hh Hv) as (m' & b0' & bh' & b1' & p2 & a2 & G1 & G2 & G3 & _ & G5).
  { destruct Ha. constructor; assumption. } { exact (Hn u U2). }
  rewrite E1 in G1. injection G1 as <- <-. rewrite E2 in G2. injection G2 as <-. rewrite B1 in G3. injection G3 as <- <- <-. rewrite (G5 He). ring.
Qed.

Lemma ser_strain (l : lmp RNum) : lmp_ok (length types) (ilist l) l -> owner_ok owner l ->
  forall hist fl p (a : accum RNum) e, List.Forall (input_ok f) hist -> vflag_atom fl = false -> eflag_global fl = true -> vflag_global fl = true -> acc_ok l a ->
  (forall i c, e i c = e c i) -> off_cutoff l rc -> smooth_at f (inp l) (i_xyz (inp l)) ->
  exists m b0 bh b1 p1 a1, load_from_json srt f = Some (m, b0) /\ calls sph m b0 hist = Some bh /\
    compute_no_domain_decomposition sph m rc types fl l bh p a = Some (b1, p1, a1) /\
    let v k := nth k (virial a1) 0 - nth k (virial a) 0 in
    derivable_pt_lim (fun u => tot (inp (at_x l (strain e u (atom_x l))))) 0
      (- (v 0%nat * e 0%nat 0%nat + v 1%nat * e 1%nat 1%nat + v 2%nat * e 2%nat 2%nat + 2 * (v 3%nat * e 0%nat 1%nat) + 2 * (v 4%nat * e 0%nat 2%nat) + 2 * (v 5%nat * e 1%nat 2%nat))).
Proof.
  intros L O hist fl p a e Hh Hv He Hvg Ha Hsym HO SA. pose proof (lo_x _ _ _ L) as Lx.
  destruct (nd_strain sph Hsph Hgr srt Hsrt f F SF l rc types L owner O hist fl p a e Hh Hv He Hvg Ha Hsym HO SA) as (m & b0 & bh & b1 & p1 & a1 & E & del & A1 & A2 & A3 & _ & Hd & A5 & A6).
  exists m, b0, bh, b1, p1, a1. split; [exact A1|]. split; [exact A2|]. split; [exact A3|]. cbv zeta in *.
  destruct (nd_near f SF l rc types L owner (fun t => strain e t (atom_x l)) (fun k => rsum 3 (fun c => e (k mod 3)%nat c * nth (3 * (k / 3) + c) (atom_x l) 0)) 0) as (d2 & Hd2 & Hn); auto.
  { apply (list_eq_nth _ _ 0); [unfold strain; rewrite map_length, seq_length; reflexivity|]. intros k Hk.
    unfold strain in *. rewrite map_length, seq_length in Hk. etransitivity; [apply (nth_tab (length (atom_x l))); exact Hk|]. ring. }
  { intros t. unfold strain. rewrite map_length, seq_length. exact Lx. }
  { intros k Hk. apply dlim_ext with (f := fun t => nth k (atom_x l) 0 + t * rsum 3 (fun c => e (k mod 3)%nat c * nth (3 * (k / 3) + c) (atom_x l) 0)).
    - intros t. symmetry. unfold strain. etransitivity; [apply (nth_tab (length (atom_x l))); change (carrier RNum) with R in *; lia|]. cbn [rsum]. change (carrier RNum) with R. rewrite Nat.add_0_r. ring.
    - eapply dlim_eq; [|apply dlim_plus; [apply dlim_const|apply dlim_mult; [apply dlim_id|apply dlim_const]]]. cbv beta. ring. }
  apply (dlim_local E _ _ _ (Rmin del d2)); [exact A6|apply Rmin_case; assumption|].
  intros u Hu. rewrite Rminus_0_r in Hu. assert (U1 : Rabs u < del) by (eapply Rlt_le_trans; [exact Hu|apply Rmin_l]).
  assert (U2 : Rabs (u - 0) < d2) by (rewrite Rminus_0_r; eapply Rlt_le_trans; [exact Hu|apply Rmin_r]).
  destruct (A5 u U1) as (b & p' & a' & B1 & ->).
  assert (Lx' : length (strain e u (atom_x l)) = length (atom_x l)) by (unfold strain; rewrite map_length, seq_length; reflexivity).
  destruct (ser_energy (at_x l (strain e u (atom_x l))) hist fl p a (lmp_ok_at _ _ _ _ L Lx') (owner_ok_at _ _ _ O) Hh Hv) as (m' & b0' & bh' & b1' & p2 & a2 & G1 & G2 & G3 & _ & G5).
  { destruct Ha. constructor; assumption. } { exact (Hn u U2). }
  rewrite A1 in G1. injection G1 as <- <-. rewrite A2 in G2. injection G2 as <-. rewrite B1 in G3. injection G3 as <- <- <-. rewrite (G5 He). ring.
Qed.
End Serial.

(** the distributed modes, from the serial one *)
Section Ranks.
Variable sph : nat -> RNum -> RNum -> RNum -> list RNum * list RNum.
Hypothesis Hsph : sph_ok sph.
Hypothesis Hgr : sph_gradient sph.
Variable srt : list (list (list nat)) -> list (list (list nat)).
Hypothesis Hsrt : forall l, Permutation l (srt l).
Variable f : mace_file RNum.
Hypothesis F : file_ok f.
Hypothesis SF : smooth_ok f.
Variable te : input RNum -> nat -> R.
Hypothesis HE : forall hist x, List.Forall (input_ok f) hist -> input_ok f x -> exists m c0 c1 c2, load_from_json srt f = Some (m, c0) /\ calls sph m c0 hist = Some c1 /\ call sph m c1 x = Some c2 /\
        b_node_energies c2 = map (te x) (seq 0 (i_num_nodes x)).
Variable rc : R.
Variable types : list nat.
Notation inp t := (nd_input (N:=RNum) types rc (d_owner t) (d_L t)).
Variable t : dstep.
Variable sh pos : list R.
Hypothesis HL : lmp_ok (length types) (ilist (d_L t)) (d_L t).
Hypothesis HO : owner_ok (d_owner t) (d_L t).
Hypothesis HI : input_ok f (inp t).
Hypothesis Hfl : vflag_atom (d_fl t) = false.
Hypothesis He : eflag_global (d_fl t) = true.
Hypothesis Hpos : length pos = (3 * nlocal (d_L t))%nat.
Hypothesis Hx : atom_x (d_L t) = images (nlocal (d_L t) + nghost (d_L t)) (d_owner t) sh pos.
Hypothesis Hoff : off_cutoff (d_L t) rc.
Hypothesis SA : smooth_at f (inp t) (i_xyz (inp t)).
Hypothesis Hacc : length (d_acc t) = length (d_ranks t).

(** what the processes compute, from what the serial evaluation computes *)
Lemma ranks_ok (m : mace_model RNum) b0 b1 p1 a1 (qs : list (proc RNum)) : load_from_json srt f = Some (m, b0) ->
  compute_no_domain_decomposition sph m rc types (d_fl t) (d_L t) b0 L0p (L0acc t) = Some (b1, p1, a1) ->
  (forall r l q, nth_error (d_ranks t) r = Some l -> nth_error qs r = Some q -> same_energies (d_fl t) (d_L t) l (pr_b q) b1 (pr_a q)) ->
  same_added (d_L t) (map (fun l : lmp RNum => atom_tag l) (d_ranks t)) (d_acc t) (map (fun q => pr_a q) qs) (L0acc t) a1 ->
  let A' := map (fun q => pr_a q) qs in
  (forall r l q i j, nth_error (d_ranks t) r = Some l -> nth_error qs r = Some q -> (i < nlocal l)%nat -> (j < nlocal (d_L t))%nat -> tag l i = tag (d_L t) j ->
     nth (position i (ilist l)) (b_node_energies (pr_b q)) 0 = te (inp t) (position j (ilist (d_L t)))) /\
  added_energy (d_acc t) A' = sum (i_num_nodes (inp t)) (te (inp t)) /\
  forall i c, (i < nlocal (d_L t))%nat -> (c < 3)%nat ->
    derivable_pt_lim (fun u => let x := nd_input (N:=RNum) types rc (d_owner t) (at_x (d_L t) (images (nlocal (d_L t) + nghost (d_L t)) (d_owner t) sh (upd pos (3 * i + c) u))) in
        sum (i_num_nodes x) (te x)) (nth (3 * i + c) pos 0)
      (- added_force (map (fun l : lmp RNum => atom_tag l) (d_ranks t)) (d_acc t) A' (tag (d_L t) i) c).
Proof.
  intros E1 E2 HS HA.
  destruct (ser_forces sph Hsph Hgr srt Hsrt f F SF te HE rc types (d_owner t) (d_L t) HL HO [] (d_fl t) L0p (L0acc t) sh pos) as (m' & b0' & bh & b1' & p1' & a1' & G1 & G2 & G3 & G4 & G5 & G6); auto.
  { apply L0acc_ok. }
  rewrite E1 in G1. injection G1 as <- <-. cbn [calls] in G2. injection G2 as <-. rewrite E2 in G3. injection G3 as <- <- <-.
  destruct (sums _ _ _ _ _ _ HA) as (S1 & _ & S2). cbv zeta. split; [|split].
  - intros r l q i j Hr Hq Hi Hj Ht. rewrite (se_node _ _ _ _ _ _ (HS r l q Hr Hq) i j Hi Hj Ht). rewrite G4.
    assert (P : (position j (ilist (d_L t)) < length (ilist (d_L t)))%nat) by (apply position_lt; apply (il_in _ _ HL); exact Hj).
    etransitivity; [apply (nth_tab (length (ilist (d_L t)))); exact P|reflexivity].
  - rewrite S1, G5. cbn [L0acc eng_vdwl]. ring.
  - intros i c Hi Hc. eapply dlim_eq; [|apply (G6 (3 * i + c)%nat); lia]. f_equal. symmetry. apply S2; auto. rewrite map_length. symmetry. exact Hacc.
Qed.
End Ranks.

(** smoothness at the system of the pair style *)
Lemma nd_with_xyz types rc owner (l : lmp RNum) : lmp_ok (length types) (ilist l) l ->
  with_xyz (nd_input (N:=RNum) types rc owner l) (i_xyz (nd_input (N:=RNum) types rc owner l)) = nd_input (N:=RNum) types rc owner l.
Proof.
  intros L. rewrite (xyz_x0 l rc types owner).
  rewrite <- (nd_input_at l rc types owner (atom_x l)) by (intros; apply keptS). rewrite at_self. reflexivity.
Qed.

Lemma lemma_C73_serial : forall rank inv spl t C, torch_ok t C -> spl_ok spl -> inv_ok rank inv -> (t_num_channels t <= rank (t_num_channels t) (fused t))%nat -> repulsion_smooth t ->
  forall species points, NoDup species -> incl species (t_atomic_numbers t) -> (2 <= points)%nat -> 1 / 10 ^ 12 < t_r_cut t ->
  exists f, extract_mace_data rank inv spl t species points = Some f /\
    forall sph, sph_ok (N:=RNum) sph -> sph_gradient sph -> forall srt, (forall l, Permutation l (srt l)) ->
    forall el, (forall j, (j < length (f_atomic_numbers f))%nat -> (el j < length (t_atomic_numbers t))%nat /\ nth (el j) (t_atomic_numbers t) 0%nat = nth j (f_atomic_numbers f) 0%nat) ->
    forall types (rc : R) l owner, lmp_ok (length types) (ilist l) l -> owner_ok owner l ->
    forall hist fl p (a : accum RNum) sh pos, List.Forall (input_ok f) hist -> vflag_atom fl = false -> eflag_global fl = true -> acc_ok l a ->
    length pos = (3 * nlocal l)%nat -> atom_x l = images (nlocal l + nghost l) owner sh pos -> off_cutoff l rc ->
    input_ok f (nd_input (N:=RNum) types rc owner l) -> regular spl points t el (nd_input (N:=RNum) types rc owner l) ->
    let total_at x := torch_total sph spl points t el (nd_input (N:=RNum) types rc owner (at_x l x)) in
    exists m b0 bh b1 p1 a1, load_from_json srt f = Some (m, b0) /\ calls sph m b0 hist = Some bh /\
      compute_no_domain_decomposition sph m rc types fl l bh p a = Some (b1, p1, a1) /\
      b_node_energies b1 = map (torch_energy sph spl points t el (nd_input (N:=RNum) types rc owner l)) (seq 0 (length (ilist l))) /\
      eng_vdwl a1 = eng_vdwl a + total_at (atom_x l) /\
      (forall q, (q < 3 * nlocal l)%nat ->
         derivable_pt_lim (fun u => total_at (images (nlocal l + nghost l) owner sh (upd pos q u))) (nth q pos 0) (- (nth q (force a1) 0 - nth q (force a) 0))) /\
      (vflag_global fl = true -> forall e, (forall i c, e i c = e c i) -> let v k := nth k (virial a1) 0 - nth k (virial a) 0 in
         derivable_pt_lim (fun u => total_at (strain e u (atom_x l))) 0
           (- (v 0%nat * e 0%nat 0%nat + v 1%nat * e 1%nat 1%nat + v 2%nat * e 2%nat 2%nat + 2 * (v 3%nat * e 0%nat 1%nat) + 2 * (v 4%nat * e 0%nat 2%nat) + 2 * (v 5%nat * e 1%nat 2%nat)))).
Proof.
  intros rank inv spl t C HT Hspl Hinv Hrank HR species points HND HIS Hpts Hr.
  destruct (export_core rank inv spl t C HT Hspl Hinv Hrank species points HND HIS Hpts Hr) as (f & EF & FO & _ & _ & _ & HS & HE).
  exists f. split; [exact EF|]. specialize (HS HR). intros sph Hsph Hgr srt Hsrt el Hel types rc l owner L O hist fl p a sh pos HH Hv He Ha Lp Hx Hoff HI RG. destruct (HE el Hel) as [HE1 HE2].
  pose proof (nd_with_xyz types rc owner l L) as W.
  assert (SA : smooth_at f (nd_input (N:=RNum) types rc owner l) (i_xyz (nd_input (N:=RNum) types rc owner l))) by (apply HE2; rewrite W; assumption).
  destruct (ser_forces sph Hsph Hgr srt Hsrt f FO HS (torch_energy sph spl points t el) (HE1 sph Hsph srt Hsrt) rc types owner l L O hist fl p a sh pos)
    as (m & b0 & bh & b1 & p1 & a1 & E1 & E2 & E3 & E4 & E5 & E6); auto.
  cbv zeta. exists m, b0, bh, b1, p1, a1. split; [exact E1|]. split; [exact E2|]. split; [exact E3|]. split; [exact E4|]. split; [rewrite at_self; exact E5|]. split; [exact E6|].
  intros Hvg e Hsym.
  destruct (ser_strain sph Hsph Hgr srt Hsrt f FO HS (torch_energy sph spl points t el) (HE1 sph Hsph srt Hsrt) rc types owner l L O hist fl p a e)
    as (m' & b0' & bh' & b1' & p1' & a1' & G1 & G2 & G3 & G4); auto.
  rewrite E1 in G1. injection G1 as <- <-. rewrite E2 in G2. injection G2 as <-. rewrite E3 in G3. injection G3 as <- <- <-. exact G4.
Qed.

(** what a distributed run should deliver: energies of the atoms, total energy, forces *)
Lemma lemma_C73_mpi : forall rank inv spl t C, torch_ok t C -> spl_ok spl -> inv_ok rank inv -> (t_num_channels t <= rank (t_num_channels t) (fused t))%nat -> repulsion_smooth t ->
  forall species points, NoDup species -> incl species (t_atomic_numbers t) -> (2 <= points)%nat -> 1 / 10 ^ 12 < t_r_cut t ->
  exists f, extract_mace_data rank inv spl t species points = Some f /\
    forall sph, sph_ok (N:=RNum) sph -> sph_gradient sph -> forall srt, (forall l, Permutation l (srt l)) ->
    forall el, (forall j, (j < length (f_atomic_numbers f))%nat -> (el j < length (t_atomic_numbers t))%nat /\ nth (el j) (t_atomic_numbers t) 0%nat = nth j (f_atomic_numbers f) 0%nat) ->
    forall types (rc : R) P ts st_ pbs sh pos, List.Forall (mpi_step_ok f rc types P) ts -> mpi_step_ok f rc types P st_ -> length pbs = P ->
    let L := d_L st_ in let input_at l := nd_input (N:=RNum) types rc (d_owner st_) l in
    eflag_global (d_fl st_) = true -> length pos = (3 * nlocal L)%nat -> atom_x L = images (nlocal L + nghost L) (d_owner st_) sh pos -> off_cutoff L rc ->
    regular spl points t el (input_at L) ->
    exists m b0 s qs, load_from_json srt f = Some (m, b0) /\
      mpi_steps sph m rc types ts (map (fun pb => (b0, pb)) pbs) = Some s /\
      mpi_run (N:=RNum) sph m rc types (d_fl st_) (d_msgs st_) (procs st_ s) = Some qs /\ length qs = P /\
      (forall r l q i j, nth_error (d_ranks st_) r = Some l -> nth_error qs r = Some q -> (i < nlocal l)%nat -> (j < nlocal L)%nat -> tag l i = tag L j ->
         nth (position i (ilist l)) (b_node_energies (pr_b q)) 0 = torch_energy sph spl points t el (input_at L) (position j (ilist L))) /\
      added_energy (d_acc st_) (map (fun q => pr_a q) qs) = torch_total sph spl points t el (input_at L) /\
      forall i c, (i < nlocal L)%nat -> (c < 3)%nat ->
        derivable_pt_lim (fun u => torch_total sph spl points t el (input_at (at_x L (images (nlocal L + nghost L) (d_owner st_) sh (upd pos (3 * i + c) u))))) (nth (3 * i + c) pos 0)
          (- added_force (map (fun l : lmp RNum => atom_tag l) (d_ranks st_)) (d_acc st_) (map (fun q => pr_a q) qs) (tag L i) c).
Proof.
  intros rank inv spl t C HT Hspl Hinv Hrank HR species points HND HIS Hpts Hr.
  destruct (export_core rank inv spl t C HT Hspl Hinv Hrank species points HND HIS Hpts Hr) as (f & EF & FO & _ & _ & _ & HS & HE).
  exists f. split; [exact EF|]. specialize (HS HR). intros sph Hsph Hgr srt Hsrt el Hel types rc P ts st_ pbs sh pos Hts Ht Lp L input_at He Lpos Hx Hoff RG. destruct (HE el Hel) as [HE1 HE2].
  pose proof (mo_step _ _ _ _ _ Ht) as [T1 T2 T3 T4 T5 T6 T7].
  pose proof (nd_with_xyz types rc (d_owner st_) L T2) as W.
  assert (SA : smooth_at f (input_at L) (i_xyz (input_at L))) by (apply HE2; unfold input_at in *; rewrite W; assumption).
  destruct (mpi_serial sph Hsph srt Hsrt f FO types rc P ts st_ pbs [] L0p (L0acc st_) Hts Ht Lp (Forall_nil _) (L0acc_ok st_))
    as (m & b0 & s & qs & bh & b1 & p1 & a1 & E1 & E2 & E3 & E4 & E5 & E6 & E7 & E8). injection E5 as <-.
  exists m, b0, s, qs. split; [exact E1|]. split; [exact E2|]. split; [exact E3|]. split; [exact E4|].
  apply (ranks_ok sph Hsph Hgr srt Hsrt f FO HS (torch_energy sph spl points t el) (HE1 sph Hsph srt Hsrt) rc types st_ sh pos) with (m := m) (b0 := b0) (b1 := b1) (p1 := p1) (a1 := a1); auto.
  symmetry. clear - T6. induction T6; cbn [length]; congruence.
Qed.

Lemma lemma_C73_no_mpi : forall rank inv spl t C, torch_ok t C -> spl_ok spl -> inv_ok rank inv -> (t_num_channels t <= rank (t_num_channels t) (fused t))%nat -> repulsion_smooth t ->
  forall species points, NoDup species -> incl species (t_atomic_numbers t) -> (2 <= points)%nat -> 1 / 10 ^ 12 < t_r_cut t ->
  exists f, extract_mace_data rank inv spl t species points = Some f /\
    forall sph, sph_ok (N:=RNum) sph -> sph_gradient sph -> forall srt, (forall l, Permutation l (srt l)) ->
    forall el, (forall j, (j < length (f_atomic_numbers f))%nat -> (el j < length (t_atomic_numbers t))%nat /\ nth (el j) (t_atomic_numbers t) 0%nat = nth j (f_atomic_numbers f) 0%nat) ->
    forall types (rc : R) P ts st_ pbs sh pos, List.Forall (step_ok f rc types (needed_no_mpi (N:=RNum) rc) P) ts -> step_ok f rc types (needed_no_mpi (N:=RNum) rc) P st_ -> length pbs = P ->
    let L := d_L st_ in let input_at l := nd_input (N:=RNum) types rc (d_owner st_) l in
    eflag_global (d_fl st_) = true -> length pos = (3 * nlocal L)%nat -> atom_x L = images (nlocal L + nghost L) (d_owner st_) sh pos -> off_cutoff L rc ->
    regular spl points t el (input_at L) ->
    exists m b0 s qs, load_from_json srt f = Some (m, b0) /\
      no_mpi_steps sph m rc types ts (map (fun pb => (b0, pb)) pbs) = Some s /\
      no_mpi_run sph m rc types (d_fl st_) (procs st_ s) = Some qs /\ length qs = P /\
      (forall r l q i j, nth_error (d_ranks st_) r = Some l -> nth_error qs r = Some q -> (i < nlocal l)%nat -> (j < nlocal L)%nat -> tag l i = tag L j ->
         nth (position i (ilist l)) (b_node_energies (pr_b q)) 0 = torch_energy sph spl points t el (input_at L) (position j (ilist L))) /\
      added_energy (d_acc st_) (map (fun q => pr_a q) qs) = torch_total sph spl points t el (input_at L) /\
      forall i c, (i < nlocal L)%nat -> (c < 3)%nat ->
        derivable_pt_lim (fun u => torch_total sph spl points t el (input_at (at_x L (images (nlocal L + nghost L) (d_owner st_) sh (upd pos (3 * i + c) u))))) (nth (3 * i + c) pos 0)
          (- added_force (map (fun l : lmp RNum => atom_tag l) (d_ranks st_)) (d_acc st_) (map (fun q => pr_a q) qs) (tag L i) c).
Proof.
  intros rank inv spl t C HT Hspl Hinv Hrank HR species points HND HIS Hpts Hr.
  destruct (export_core rank inv spl t C HT Hspl Hinv Hrank species points HND HIS Hpts Hr) as (f & EF & FO & _ & _ & _ & HS & HE).
  exists f. split; [exact EF|]. specialize (HS HR). intros sph Hsph Hgr srt Hsrt el Hel types rc P ts st_ pbs sh pos Hts Ht Lp L input_at He Lpos Hx Hoff RG. destruct (HE el Hel) as [HE1 HE2].
  pose proof Ht as [T1 T2 T3 T4 T5 T6 T7].
  pose proof (nd_with_xyz types rc (d_owner st_) L T2) as W.
  assert (SA : smooth_at f (input_at L) (i_xyz (input_at L))) by (apply HE2; unfold input_at in *; rewrite W; assumption).
  destruct (no_serial sph Hsph srt Hsrt f FO types rc P ts st_ pbs [] L0p (L0acc st_) Hts Ht Lp (Forall_nil _) (L0acc_ok st_))
    as (m & b0 & s & qs & bh & b1 & p1 & a1 & E1 & E2 & E3 & E4 & E5 & E6 & E7 & E8). injection E5 as <-.
  exists m, b0, s, qs. split; [exact E1|]. split; [exact E2|]. split; [exact E3|]. split; [exact E4|].
  apply (ranks_ok sph Hsph Hgr srt Hsrt f FO HS (torch_energy sph spl points t el) (HE1 sph Hsph srt Hsrt) rc types st_ sh pos) with (m := m) (b0 := b0) (b1 := b1) (p1 := p1) (a1 := a1); auto.
  symmetry. clear - T6. induction T6; cbn [length]; congruence.
Qed.
