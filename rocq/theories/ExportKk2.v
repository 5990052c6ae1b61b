(** With an exported file, the Kokkos evaluator and the Kokkos pair style compute the energies of the PyTorch model and their derivatives.  Used in proofs only. *)
From Coq Require Import String List Arith ZArith Lia Bool Permutation Sorted Reals Lra.
From Verif Require Import Base BaseLemmas Instances RSums RList MlpSpec MpSpec MaceModel MaceSpec MaceSpec2 MaceGradSpec MacePipe MaceLoad MaceThms ExportModel ExportSpec ExportProofs ExportPolyModel ExportPolySpec
  EnergySpec EnergyProofs ExportFullModel TorchSpec TorchGradSpec ExportFullPre ExportFullParts ExportFullCoupling ExportFullEnergy ExportFullThms ExportForces ExportLammps ExportKk
  AseSpec PairModel PairMpiModel PairKokkosModel PairSpec PairCommSpec DistSpec DistThms DistGradSpec DistGradThms.
From Verif Require Import KkSem KkModel KkSpec KkLoad2 KkThms KkPairModel KkPairSpec KkPairThms KkPairMpiModel KkPairMpiSpec KkNoThms KkPairMpi2Model KkPairMpi2Spec KkMpiThms.
Import ListNotations.
Local Open Scope R_scope.

Lemma strict_nodup l : StronglySorted lt l -> NoDup l.
Proof. induction 1 as [|a l H IH Ha]; constructor; [|exact IH]. intros Hin. rewrite Forall_forall in Ha. specialize (Ha a Hin). lia. Qed.
Lemma rows_same (points cols : nat) (t : torch_model RNum) g (ps : list (nat * nat)) spl : spl_ok spl ->
  forall v row, In v (map (xRv t points cols g) ps) -> In row v -> List.length row = List.length (nth 0 (nth 0 (map (xRv t points cols g) ps) []) []).
Proof.
  intros Hspl v row Hv Hrow. assert (A : forall p r, In r (xRv t points cols g p) -> List.length r = points).
  { intros p r Hr. unfold xRv in Hr. apply in_map_iff in Hr. destruct Hr as (k & <- & _). apply (vals_ok spl t Hspl points). }
  apply in_map_iff in Hv. destruct Hv as (p & <- & Hp). rewrite (A _ _ Hrow). symmetry. destruct ps as [|p0 ps]; [destruct Hp|]. cbn [map nth]. apply (A p0). apply nth_In.
  unfold xRv in *. rewrite map_length, seq_length. apply in_map_iff in Hrow. destruct Hrow as (k & _ & Hk). apply in_seq in Hk. lia.
Qed.
Lemma dens_same (points : nat) (t : torch_model RNum) g (ps : list (nat * nat)) spl : spl_ok spl ->
  forall row, In row (map (xDv t points g) ps) -> List.length row = List.length (nth 0 (map (xDv t points g) ps) []).
Proof.
  intros Hspl row Hrow. assert (A : forall p, List.length (xDv t points g p) = points) by (intros p; apply (vals_ok spl t Hspl points)).
  apply in_map_iff in Hrow. destruct Hrow as (p & <- & Hp). destruct ps as [|p0 ps]; [destruct Hp|]. cbn [map nth]. rewrite !A. reflexivity.
Qed.

Lemma export_kk : forall rank inv spl t C, torch_ok t C -> spl_ok spl -> inv_ok rank inv -> (t_num_channels t <= rank (t_num_channels t) (fused t))%nat ->
  forall species points, NoDup species -> incl species (t_atomic_numbers t) -> (2 <= points)%nat -> 1 / 10 ^ 12 < t_r_cut t ->
  forall f, extract_mace_data rank inv spl t species points = Some f -> kk_file_ok f.
Proof.
  intros rank inv spl t C HT Hspl Hinv Hrank species points HND HIS Hpts Hr f EF.
  destruct (numbers_ok t C species HT HND HIS) as (HS & HI & Hne & _).
  destruct (export_file rank inv spl t C HT Hspl Hrank species points HI) as (b0 & b1 & f' & EB & EF' & IE). rewrite EF in EF'. injection EF' as <-.
  destruct (extract_short _ _ _ _ _ _ _ EF) as (S0 & S1). rewrite (to_corr0 t C HT) in S0.
  assert (LP : List.length (export_pairs (export_numbers t species)) = (List.length (export_numbers t species) * (List.length (export_numbers t species) + 1) / 2)%nat)
    by (rewrite (export_pairs_eq _ HS), map_length, upairs_length; reflexivity).
  constructor.
  - rewrite (ie_R0v _ _ _ _ _ _ _ _ _ IE). apply (rows_same _ _ _ _ _ spl Hspl).
  - rewrite (ie_R1v _ _ _ _ _ _ _ _ _ IE). apply (rows_same _ _ _ _ _ spl Hspl).
  - rewrite (ie_R1v _ _ _ _ _ _ _ _ _ IE), (ie_an _ _ _ _ _ _ _ _ _ IE), map_length. exact LP.
  - rewrite (ie_A0s _ _ _ _ _ _ _ _ _ IE). intros Eb. destruct (ie_D0 _ _ _ _ _ _ _ _ _ IE Eb) as (_ & -> & _). rewrite (ie_an _ _ _ _ _ _ _ _ _ IE), map_length.
    split; [exact LP|apply (dens_same _ _ _ _ spl Hspl)].
  - rewrite (ie_A1s _ _ _ _ _ _ _ _ _ IE). intros Eb. destruct (ie_D1 _ _ _ _ _ _ _ _ _ IE Eb) as (_ & -> & _). rewrite (ie_an _ _ _ _ _ _ _ _ _ IE), map_length.
    split; [exact LP|apply (dens_same _ _ _ _ spl Hspl)].
  - intros lm _ mo Hmo. exact (S0 lm mo Hmo).
  - exact S1.
Qed.

Section Main.
Variables (rank : nat -> list R -> nat) (inv : nat -> list R -> list R) (spl : list R -> list R -> list R * list R) (t : torch_model RNum) (C : nat -> nat -> nat -> nat -> R).
Hypothesis HT : torch_ok t C.
Hypothesis Hspl : spl_ok spl.
Hypothesis Hinv : inv_ok rank inv.
Hypothesis Hrank : (t_num_channels t <= rank (t_num_channels t) (fused t))%nat.
Hypothesis Hrep : repulsion_smooth t.
Variables (species : list nat) (points : nat).
Hypothesis HND : NoDup species.
Hypothesis HIS : incl species (t_atomic_numbers t).
Hypothesis Hpts : (2 <= points)%nat.
Hypothesis Hr : 1 / 10 ^ 12 < t_r_cut t.

Lemma lemma_C93_eval : exists f, extract_mace_data rank inv spl t species points = Some f /\
  forall sph, sph_ok (N:=RNum) sph -> sph_gradient sph -> forall junk srt, (forall l, Permutation l (srt l)) ->
  forall el, (forall j, (j < List.length (f_atomic_numbers f))%nat -> (el j < List.length (t_atomic_numbers t))%nat /\ nth (el j) (t_atomic_numbers t) 0%nat = nth j (f_atomic_numbers f) 0%nat) ->
  exists km, kk_load_from_json srt f = Some km /\
  forall hist x, List.Forall (input_ok f) hist -> input_ok f x ->
  (exists mem, kk_calls sph junk km kk_fresh (hist ++ [x]) (Some mem)) /\
  forall o, kk_calls sph junk km kk_fresh (hist ++ [x]) o -> exists mem, o = Some mem /\
    firstn (i_num_nodes x) (kk_node_energies mem) = map (torch_energy sph spl points t el x) (seq 0 (i_num_nodes x)) /\
    forall y xs, x = with_xyz y xs -> regular spl points t el x -> forall p, (p < List.length xs)%nat ->
      derivable_pt_lim (fun u => torch_total sph spl points t el (with_xyz y (upd xs p u))) (nth p xs 0) (- nth p (kk_node_forces mem) 0).
Proof.
  destruct (export_core rank inv spl t C HT Hspl Hinv Hrank species points HND HIS Hpts Hr) as (f & EF & FO & _ & _ & _ & _ & HE). exists f. split; [exact EF|].
  intros sph Hs Hg junk srt Hp el Hel. pose proof (export_kk rank inv spl t C HT Hspl Hinv Hrank species points HND HIS Hpts Hr f EF) as FK.
  destruct (HE el Hel) as (HE1 & _). destruct (kk_load_ok srt Hp f FO FK) as (km & EK & _). exists km. split; [exact EK|]. intros hist x Hh Hx.
  destruct (lemma_C54 sph Hs junk srt Hp f FO FK hist x Hh Hx) as (km' & m & b0 & b1 & A1 & A2 & A3 & A4 & A5). rewrite EK in A1. injection A1 as <-. split; [exact A4|].
  intros o Ho. destruct (A5 o Ho) as (mem & -> & B1 & B2). exists mem. split; [reflexivity|].
  destruct (HE1 sph Hs srt Hp [] x (Forall_nil _) Hx) as (m' & c0 & c1 & c2 & D1 & D2 & D3 & D4). rewrite A2 in D1. injection D1 as <- <-. injection D2 as <-. rewrite A3 in D3. injection D3 as <-.
  split; [rewrite B1; exact D4|]. intros y xs Ex HR p Hlt.
  destruct (lemma_C71 rank inv spl t C HT Hspl Hinv Hrank Hrep species points HND HIS Hpts Hr) as (f' & EF' & H71). rewrite EF in EF'. injection EF' as <-.
  rewrite Ex in Hx, HR. destruct (H71 sph Hs Hg srt Hp el Hel [] y xs (Forall_nil _) Hx HR) as (m' & c0 & c1 & c2 & G1 & G2 & G3 & G4 & G5).
  rewrite A2 in G1. injection G1 as <- <-. injection G2 as <-. rewrite Ex in A3, B2. rewrite A3 in G3. injection G3 as <-.
  replace (nth p (kk_node_forces mem) 0) with (nth p (b_node_forces b1) 0); [apply G5; exact Hlt|].
  rewrite <- B2. change (i_xyz (with_xyz y xs)) with xs. apply nth_firstn_lt. exact Hlt.
Qed.

Lemma lemma_C93_serial : exists f, extract_mace_data rank inv spl t species points = Some f /\
  forall sph, sph_ok (N:=RNum) sph -> sph_gradient sph -> forall junk srt, (forall l, Permutation l (srt l)) ->
  forall el, (forall j, (j < List.length (f_atomic_numbers f))%nat -> (el j < List.length (t_atomic_numbers t))%nat /\ nth (el j) (t_atomic_numbers t) 0%nat = nth j (f_atomic_numbers f) 0%nat) ->
  forall arg types, coeff_types (f_atomic_numbers f) arg = Some types -> (List.length types <= List.length (f_atomic_numbers f))%nat -> forall rc : R,
  exists km mt, kk_load_from_json srt f = Some km /\ coeff_types_kk (f_atomic_numbers f) arg = Some mt /\
  forall s owner maxeatom fl l a sh pos, kp_reach sph junk km f rc types mt s -> nd_call_ok f types rc owner maxeatom fl l a -> eflag_global fl = true ->
  List.length pos = (3 * nlocal l)%nat -> atom_x l = images (nlocal l + nghost l) owner sh pos -> off_cutoff l rc -> regular spl points t el (nd_input (N:=RNum) types rc owner l) ->
  let total_at x := torch_total sph spl points t el (nd_input (N:=RNum) types rc owner (at_x l x)) in
  (exists o, kk_no_domain sph junk km rc mt maxeatom fl l s a o) /\
  forall o, kk_no_domain sph junk km rc mt maxeatom fl l s a o -> exists s' ak, o = Some (s', ak) /\
    eng_vdwl ak = eng_vdwl a + total_at (atom_x l) /\
    (forall q, (q < 3 * nlocal l)%nat ->
       derivable_pt_lim (fun u => total_at (images (nlocal l + nghost l) owner sh (upd pos q u))) (nth q pos 0) (- (nth q (force ak) 0 - nth q (force a) 0))) /\
    (vflag_global fl = true -> forall e, (forall i c, e i c = e c i) -> let v k := nth k (virial ak) 0 - nth k (virial a) 0 in
       derivable_pt_lim (fun u => total_at (strain e u (atom_x l))) 0
         (- (v 0%nat * e 0%nat 0%nat + v 1%nat * e 1%nat 1%nat + v 2%nat * e 2%nat 2%nat + 2 * (v 3%nat * e 0%nat 1%nat) + 2 * (v 4%nat * e 0%nat 2%nat) + 2 * (v 5%nat * e 1%nat 2%nat)))).
Proof.
  destruct (export_core rank inv spl t C HT Hspl Hinv Hrank species points HND HIS Hpts Hr) as (f & EF & FO & _ & HS & _). exists f. split; [exact EF|].
  destruct (lemma_C73_serial rank inv spl t C HT Hspl Hinv Hrank Hrep species points HND HIS Hpts Hr) as (f' & EF' & H73). rewrite EF in EF'. injection EF' as <-.
  intros sph Hs Hg junk srt Hp el Hel arg types CT LT rc. pose proof (export_kk rank inv spl t C HT Hspl Hinv Hrank species points HND HIS Hpts Hr f EF) as FK.
  destruct (lemma_C59 sph Hs junk srt Hp f FO FK arg types (strict_nodup _ HS) CT LT rc) as (km & mt & m & b0 & A1 & A2 & A3 & A4).
  exists km, mt. split; [exact A1|]. split; [exact A2|]. destruct (A4 [] (Forall_nil _)) as (c0 & A5 & A6). injection A5 as <-.
  intros s owner maxeatom fl l a sh pos Hreach K He Lpos HX HO HR total_at. pose proof K as [K1 K2 K3 K4 K5 K6 K7].
  destruct (A6 s Hreach owner maxeatom fl l a K L0p) as (b1 & p1 & ac & B1 & B2 & B3). split; [exact B2|]. intros o Ho. destruct (B3 o Ho) as (s' & ak & -> & G1 & G2 & G3 & _).
  exists s', ak. split; [reflexivity|]. rewrite G1, G2, G3.
  destruct (H73 sph Hs Hg srt Hp el Hel types rc l owner K1 K3 [] fl L0p a sh pos (Forall_nil _) K6 He K4 Lpos HX HO K5 HR) as (m' & b0' & bh & b1' & p1' & a1 & D1 & D2 & D3 & D4 & D5 & D6 & D7).
  rewrite A3 in D1. injection D1 as <- <-. injection D2 as <-. rewrite B1 in D3. injection D3 as <- <- <-. split; [exact D5|]. split; [exact D6|exact D7].
Qed.

Section Dist.
Variable f : mace_file RNum.
Hypothesis EF : extract_mace_data rank inv spl t species points = Some f.
Variable sph : nat -> RNum -> RNum -> RNum -> list RNum * list RNum.
Hypothesis Hs : sph_ok (N:=RNum) sph.
Hypothesis Hg : sph_gradient sph.
Variable srt : list (list (list nat)) -> list (list (list nat)).
Hypothesis Hp : forall l, Permutation l (srt l).
Variable el : nat -> nat.
Hypothesis Hel : forall j, (j < List.length (f_atomic_numbers f))%nat -> (el j < List.length (t_atomic_numbers t))%nat /\ nth (el j) (t_atomic_numbers t) 0%nat = nth j (f_atomic_numbers f) 0%nat.
Variable types : list nat.
Variable rc : R.
Variable m : mace_model RNum.
Variable b0 : mace_bufs RNum.
Hypothesis EL : load_from_json srt f = Some (m, b0).

Lemma dist_torch needed P d sh pos tags A A' b1 p1 a1 : step_ok f rc types needed P d -> eflag_global (d_fl d) = true ->
  let L := d_L d in let total_at x := torch_total sph spl points t el (nd_input (N:=RNum) types rc (d_owner d) (at_x L x)) in
  List.length pos = (3 * nlocal L)%nat -> atom_x L = images (nlocal L + nghost L) (d_owner d) sh pos -> off_cutoff L rc -> regular spl points t el (nd_input (N:=RNum) types rc (d_owner d) L) ->
  compute_no_domain_decomposition (N:=RNum) sph m rc types (d_fl d) L b0 L0p (L0acc d) = Some (b1, p1, a1) -> same_added L tags A A' (L0acc d) a1 -> List.length tags = List.length A ->
  added_energy A A' = total_at (atom_x L) /\
  (forall i c, (i < nlocal L)%nat -> (c < 3)%nat ->
     derivable_pt_lim (fun u => total_at (images (nlocal L + nghost L) (d_owner d) sh (upd pos (3 * i + c) u))) (nth (3 * i + c) pos 0) (- added_force tags A A' (tag L i) c)) /\
  (vflag_global (d_fl d) = true -> forall e, (forall i c, e i c = e c i) -> let v := added_virial A A' in
     derivable_pt_lim (fun u => total_at (strain e u (atom_x L))) 0
       (- (v 0%nat * e 0%nat 0%nat + v 1%nat * e 1%nat 1%nat + v 2%nat * e 2%nat 2%nat + 2 * (v 3%nat * e 0%nat 1%nat) + 2 * (v 4%nat * e 0%nat 2%nat) + 2 * (v 5%nat * e 1%nat 2%nat)))).
Proof.
  intros [S1 S2 S3 S4 S5 S6 S7] He L total_at Lpos HX HO HR Ec SA LT.
  destruct (lemma_C73_serial rank inv spl t C HT Hspl Hinv Hrank Hrep species points HND HIS Hpts Hr) as (f' & EF' & H73). rewrite EF in EF'. injection EF' as <-.
  destruct (H73 sph Hs Hg srt Hp el Hel types rc L (d_owner d) S2 S3 [] (d_fl d) L0p (L0acc d) sh pos (Forall_nil _) S7 He (L0acc_ok d) Lpos HX HO S5 HR)
    as (m' & b0' & bh & b1' & p1' & a1' & D1 & D2 & D3 & D4 & D5 & D6 & D7).
  rewrite EL in D1. injection D1 as <- <-. injection D2 as <-. rewrite Ec in D3. injection D3 as <- <- <-.
  destruct (sums _ _ _ _ _ _ SA) as (X1 & X2 & X3). split; [rewrite X1, D5; unfold total_at; change (carrier RNum) with R; lra|]. split.
  - intros i c Hi Hc. rewrite (X3 LT i c Hi Hc). apply D6. lia.
  - intros Hv e Hsym. cbv zeta. rewrite !X2 by lia. exact (D7 Hv e Hsym).
Qed.
End Dist.

Lemma lemma_C93_mpi : exists f, extract_mace_data rank inv spl t species points = Some f /\
  forall sph, sph_ok (N:=RNum) sph -> sph_gradient sph -> forall junk srt, (forall l, Permutation l (srt l)) ->
  forall el, (forall j, (j < List.length (f_atomic_numbers f))%nat -> (el j < List.length (t_atomic_numbers t))%nat /\ nth (el j) (t_atomic_numbers t) 0%nat = nth j (f_atomic_numbers f) 0%nat) ->
  forall arg types, coeff_types (f_atomic_numbers f) arg = Some types -> (List.length types <= List.length (f_atomic_numbers f))%nat -> forall (rc : R) host,
  exists km mt, kk_load_from_json srt f = Some km /\ coeff_types_kk (f_atomic_numbers f) arg = Some mt /\
  forall d qs sh pos, kd_reach sph junk km f rc types mt host (map kd_st qs) -> kd_ok f rc types d qs -> eflag_global (d_fl d) = true ->
  let L := d_L d in let total_at x := torch_total sph spl points t el (nd_input (N:=RNum) types rc (d_owner d) (at_x L x)) in
  List.length pos = (3 * nlocal L)%nat -> atom_x L = images (nlocal L + nghost L) (d_owner d) sh pos -> off_cutoff L rc -> regular spl points t el (nd_input (N:=RNum) types rc (d_owner d) L) ->
  (exists o, kk_mpi_run sph junk km rc mt (d_fl d) (d_msgs d) host qs o) /\
  forall o, kk_mpi_run sph junk km rc mt (d_fl d) (d_msgs d) host qs o -> exists rs, o = Some rs /\ List.length rs = List.length qs /\
    added_energy (map kd_a qs) (map snd rs) = total_at (atom_x L) /\
    (forall i c, (i < nlocal L)%nat -> (c < 3)%nat ->
       derivable_pt_lim (fun u => total_at (images (nlocal L + nghost L) (d_owner d) sh (upd pos (3 * i + c) u))) (nth (3 * i + c) pos 0)
         (- added_force (map (fun q => atom_tag (kd_l q)) qs) (map kd_a qs) (map snd rs) (tag L i) c)) /\
    (vflag_global (d_fl d) = true -> forall e, (forall i c, e i c = e c i) -> let v := added_virial (map kd_a qs) (map snd rs) in
       derivable_pt_lim (fun u => total_at (strain e u (atom_x L))) 0
         (- (v 0%nat * e 0%nat 0%nat + v 1%nat * e 1%nat 1%nat + v 2%nat * e 2%nat 2%nat + 2 * (v 3%nat * e 0%nat 1%nat) + 2 * (v 4%nat * e 0%nat 2%nat) + 2 * (v 5%nat * e 1%nat 2%nat)))).
Proof.
  destruct (export_core rank inv spl t C HT Hspl Hinv Hrank species points HND HIS Hpts Hr) as (f & EF & FO & _ & HS & _). exists f. split; [exact EF|].
  intros sph Hs Hg junk srt Hp el Hel arg types CT LT rc host. pose proof (export_kk rank inv spl t C HT Hspl Hinv Hrank species points HND HIS Hpts Hr f EF) as FK.
  destruct (lemma_C62_serial sph Hs junk srt Hp f FO FK arg types (strict_nodup _ HS) CT LT rc host) as (km & mt & m & b0 & A1 & A2 & A3 & A4).
  exists km, mt. split; [exact A1|]. split; [exact A2|]. destruct (A4 [] (Forall_nil _)) as (c0 & A5 & A6). injection A5 as <-.
  intros d qs sh pos Hreach K He L total_at Lpos HX HO HR.
  destruct (A6 d qs Hreach K L0p (L0acc d) (L0acc_ok d)) as (b1 & p1 & a1 & B1 & B2 & B3). split; [exact B2|]. intros o Ho. destruct (B3 o Ho) as (rs & -> & B4 & _).
  exists rs. split; [reflexivity|]. split. { destruct B4 as [[B4 _] _ _ _]. rewrite !map_length in B4. exact B4. }
  refine (dist_torch f EF sph Hs Hg srt Hp el Hel types rc m b0 A3 needed_mpi (List.length qs) d sh pos _ _ _ b1 p1 a1 (mo_step _ _ _ _ _ (kd_step _ _ _ _ _ K)) He Lpos HX HO HR B1 B4 _).
  rewrite !map_length. reflexivity.
Qed.

Lemma lemma_C93_no_mpi : exists f, extract_mace_data rank inv spl t species points = Some f /\
  forall sph, sph_ok (N:=RNum) sph -> sph_gradient sph -> forall junk srt, (forall l, Permutation l (srt l)) ->
  forall el, (forall j, (j < List.length (f_atomic_numbers f))%nat -> (el j < List.length (t_atomic_numbers t))%nat /\ nth (el j) (t_atomic_numbers t) 0%nat = nth j (f_atomic_numbers f) 0%nat) ->
  forall arg types, coeff_types (f_atomic_numbers f) arg = Some types -> (List.length types <= List.length (f_atomic_numbers f))%nat -> forall rc : R,
  exists km mt, kk_load_from_json srt f = Some km /\ coeff_types_kk (f_atomic_numbers f) arg = Some mt /\
  forall d qs sh pos, kprocs_ok sph junk km f rc types mt d qs -> eflag_global (d_fl d) = true ->
  let L := d_L d in let total_at x := torch_total sph spl points t el (nd_input (N:=RNum) types rc (d_owner d) (at_x L x)) in
  List.length pos = (3 * nlocal L)%nat -> atom_x L = images (nlocal L + nghost L) (d_owner d) sh pos -> off_cutoff L rc -> regular spl points t el (nd_input (N:=RNum) types rc (d_owner d) L) ->
  (exists os, kk_no_run sph junk km rc mt (d_fl d) qs os) /\
  forall os, kk_no_run sph junk km rc mt (d_fl d) qs os -> exists rs, os = map Some rs /\ List.length rs = List.length qs /\
    added_energy (map kq_a qs) (map snd rs) = total_at (atom_x L) /\
    (forall i c, (i < nlocal L)%nat -> (c < 3)%nat ->
       derivable_pt_lim (fun u => total_at (images (nlocal L + nghost L) (d_owner d) sh (upd pos (3 * i + c) u))) (nth (3 * i + c) pos 0)
         (- added_force (map (fun q => atom_tag (kq_l q)) qs) (map kq_a qs) (map snd rs) (tag L i) c)) /\
    (vflag_global (d_fl d) = true -> forall e, (forall i c, e i c = e c i) -> let v := added_virial (map kq_a qs) (map snd rs) in
       derivable_pt_lim (fun u => total_at (strain e u (atom_x L))) 0
         (- (v 0%nat * e 0%nat 0%nat + v 1%nat * e 1%nat 1%nat + v 2%nat * e 2%nat 2%nat + 2 * (v 3%nat * e 0%nat 1%nat) + 2 * (v 4%nat * e 0%nat 2%nat) + 2 * (v 5%nat * e 1%nat 2%nat)))).
Proof.
  destruct (export_core rank inv spl t C HT Hspl Hinv Hrank species points HND HIS Hpts Hr) as (f & EF & FO & _ & HS & _). exists f. split; [exact EF|].
  intros sph Hs Hg junk srt Hp el Hel arg types CT LT rc. pose proof (export_kk rank inv spl t C HT Hspl Hinv Hrank species points HND HIS Hpts Hr f EF) as FK.
  destruct (lemma_C61_serial sph Hs junk srt Hp f FO FK arg types (strict_nodup _ HS) CT LT rc) as (km & mt & m & b0 & A1 & A2 & A3 & A4).
  exists km, mt. split; [exact A1|]. split; [exact A2|]. destruct (A4 [] (Forall_nil _)) as (c0 & A5 & A6). injection A5 as <-.
  intros d qs sh pos K He L total_at Lpos HX HO HR.
  destruct (A6 d qs K L0p (L0acc d) (L0acc_ok d)) as (b1 & p1 & a1 & B1 & B2 & B3). split; [exact B2|]. intros o Ho. destruct (B3 o Ho) as (rs & -> & B4 & _).
  exists rs. split; [reflexivity|]. split. { destruct B4 as [[B4 _] _ _ _]. rewrite !map_length in B4. exact B4. }
  refine (dist_torch f EF sph Hs Hg srt Hp el Hel types rc m b0 A3 (needed_no_mpi (N:=RNum) rc) (List.length qs) d sh pos _ _ _ b1 p1 a1 (kq_step _ _ _ _ _ _ _ _ _ K) He Lpos HX HO HR B1 B4 _).
  rewrite !map_length. reflexivity.
Qed.
End Main.
