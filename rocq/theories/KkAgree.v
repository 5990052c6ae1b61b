(** The ASE calculator and the Kokkos pair style agree: C89 combined with C59, C61, C62. *)
From Coq Require Import String List Arith ZArith Lia Bool Permutation Reals Lra.
From Verif Require Import Base BaseLemmas Instances RSums RList MpSpec MaceModel MaceSpec MaceSpec2 MaceGradSpec MacePipe MaceLoad MaceThms EnergySpec
  AseModel AseSpec PairModel PairMpiModel PairKokkosModel PairSpec PairCommSpec DistSpec DistThms DistGradSpec DistGradThms SymPairSpec AgreeSpec Agree2.
From Verif Require Import KkSem KkModel KkSpec KkPairModel KkPairSpec KkPairThms KkPairMpiModel KkPairMpiSpec KkNoThms KkPairMpi2Model KkPairMpi2Spec KkMpiThms KkAgreeSpec.
Import ListNotations.
Local Open Scope R_scope.

Section Main.
Variable sph : nat -> R -> R -> R -> list R * list R.
Hypothesis Hs : sph_ok (N:=RNum) sph.
Hypothesis Hg : sph_gradient sph.
Variable junk : mem RNum -> cell -> RNum.
Variable srt : list (list (list nat)) -> list (list (list nat)).
Hypothesis Hp : forall l, Permutation l (srt l).
Variable f : mace_file RNum.
Hypothesis F : file_ok f.
Hypothesis FK : kk_file_ok f.
Hypothesis S : smooth_ok f.
Hypothesis Mo : monomials_once f.
Variable arg : list string.
Variable ltypes : list nat.
Hypothesis ND : NoDup (f_atomic_numbers f).
Hypothesis CT : coeff_types (f_atomic_numbers f) arg = Some ltypes.
Hypothesis LT : (length ltypes <= length (f_atomic_numbers f))%nat.
Variables numbers types il jl : list nat.
Hypothesis SM : species_map (f_atomic_numbers f) numbers types.
Hypothesis NL : nl_ok (length numbers) il jl.
Hypothesis Hne : il <> [].
Hypothesis FU : Datatypes.S (list_max il) = length numbers.
Variable D : list R.
Hypothesis LD : length D = (3 * length il)%nat.
Notation x := (nl_input (N:=RNum) (Datatypes.S (list_max il)) types il jl [] []).
Hypothesis SA : smooth_at f x D.
Variable V : R.
Hypothesis HV : V <> 0.
Variable rc : R.
Variable sg : nat -> nat.
Variable hist : list (input RNum).
Hypothesis Hh : List.Forall (input_ok f) hist.

Lemma lemma_C91 owner maxeatom fl l a : nd_call_ok f ltypes rc owner maxeatom fl l a -> same_structure (f_atomic_numbers f) numbers il jl D ltypes rc owner l sg ->
  exists km mt m b0 bh b res, kk_load_from_json srt f = Some km /\ coeff_types_kk (f_atomic_numbers f) arg = Some mt /\
    load_from_json srt f = Some (m, b0) /\ calls sph m b0 hist = Some bh /\ calculate sph m bh numbers (Some V) il jl (lengths3 D) D = Some (b, res) /\
    forall s, kp_reach sph junk km f rc ltypes mt s -> (exists o, kk_no_domain sph junk km rc mt maxeatom fl l s a o) /\
    forall o, kk_no_domain sph junk km rc mt maxeatom fl l s a o -> exists s' ak, o = Some (s', ak) /\
      (eflag_global fl = true -> eng_vdwl ak = eng_vdwl a + res_energy res) /\
      (eflag_atom fl = true -> forall i, (i < nlocal l)%nat -> nth i (eatom ak) 0 = nth i (eatom_before maxeatom s) 0 + nth (sg i) (res_energies res) 0) /\
      (forall i c, (i < nlocal l)%nat -> (c < 3)%nat -> nth (3 * i + c) (force ak) 0 = nth (3 * i + c) (force a) 0 + nth (3 * sg i + c) (res_forces res) 0) /\
      (vflag_global fl = true -> forall r c, (r < 3)%nat -> (c < 3)%nat ->
         lammps_tensor (fun k => nth k (virial ak) 0 - nth k (virial a) 0) r c = - V * voigt_tensor (res_stress res) r c).
Proof.
  intros C SS. pose proof C as [C1 C2 C3 C4 C5 C6 C7].
  destruct (lemma_agree sph Hs Hg srt Hp f F S Mo numbers types il jl SM NL Hne FU D LD SA l rc ltypes C1 owner C3 sg SS hist [] V fl L0p a Hh (Forall_nil _) HV C6 C4)
    as (m & b0 & bh & b0' & b & res & b1 & p1 & a1 & E1 & E2 & E3 & E4 & E5 & E6 & E7 & E8 & E9). injection E3 as <-.
  destruct (lemma_C59 sph Hs junk srt Hp f F FK arg ltypes ND CT LT rc) as (km & mt & m' & b0' & A1 & A2 & A3 & A4). rewrite E1 in A3. injection A3 as <- <-.
  destruct (A4 [] (Forall_nil _)) as (c0 & A5 & A6). injection A5 as <-.
  exists km, mt, m, b0, bh, b, res. do 5 (split; [assumption|]). intros s Hr.
  destruct (A6 s Hr owner maxeatom fl l a C L0p) as (b1' & p1' & ac & B1 & B2 & B3). rewrite E5 in B1. injection B1 as <- <- <-. split; [exact B2|].
  intros o Ho. destruct (B3 o Ho) as (s' & ak & -> & G1 & G2 & G3 & G4). exists s', ak. split; [reflexivity|]. rewrite G1, G2, G3. split; [exact E6|]. split; [|split; [exact E8|exact E9]].
  intros Hf i Hi. rewrite <- E7 by exact Hi. rewrite C2. apply (G4 Hf). exact Hi.
Qed.

(** from the serial evaluation with the CPU to the processes *)
Lemma kk_dist P needed (t : dstep) bh b0 : step_ok f rc ltypes needed P t -> same_structure (f_atomic_numbers f) numbers il jl D ltypes rc (d_owner t) (d_L t) sg ->
  bufs_live (ldm f) (ldp0 srt f) (ldp1 srt f) (ldlive f) bh -> bufs_live (ldm f) (ldp0 srt f) (ldp1 srt f) (ldlive f) b0 ->
  exists b res b1 p1 a1, calculate sph (ldm f) bh numbers (Some V) il jl (lengths3 D) D = Some (b, res) /\
    compute_no_domain_decomposition (N:=RNum) sph (ldm f) rc ltypes (d_fl t) (d_L t) b0 L0p (L0acc t) = Some (b1, p1, a1) /\
    forall ranks acc acc' before (listed : lmp RNum -> Prop), List.length ranks = List.length acc -> same_added (d_L t) (map (fun l : lmp RNum => atom_tag l) ranks) acc acc' (L0acc t) a1 ->
      (eflag_atom (d_fl t) = true -> forall r l a' e i j, nth_error ranks r = Some l -> nth_error acc' r = Some a' -> nth_error before r = Some e -> listed l ->
         (i < nlocal l)%nat -> (j < nlocal (d_L t))%nat -> tag l i = tag (d_L t) j -> nth i (eatom a') 0 = nth i e 0 + nth (position j (ilist (d_L t))) (b_node_energies b1) 0) ->
      kk_agrees sg V res (d_fl t) (d_L t) listed ranks acc acc' before.
Proof.
  intros St SS Lb L0. pose proof St as [S1 S2 S3 S4 S5 S6 S7].
  destruct (agree_step sph Hs Hg srt Hp f F S Mo numbers types il jl SM NL Hne FU D LD SA (d_L t) rc ltypes S2 (d_owner t) S3 sg SS V (d_fl t) L0p (L0acc t) bh b0 HV S7 (L0acc_ok t) Lb L0)
    as (b & res & b1 & p1 & a1 & A1 & A2 & A3 & A4 & A5 & A6).
  exists b, res, b1, p1, a1. split; [exact A1|]. split; [exact A2|]. intros ranks acc acc' before listed TL C3 HE.
  destruct (sums _ _ _ _ _ _ C3) as (U1 & U2 & U3). constructor.
  - intros Hf. rewrite U1, (A3 Hf). ring.
  - intros Hf r l a' e i i' N1 N2 N3 Hl Hi Hi' T. rewrite (HE Hf r l a' e i i' N1 N2 N3 Hl Hi Hi' T), (A4 i' Hi'). reflexivity.
  - intros i c Hi Hc. rewrite U3; [|rewrite map_length; exact TL|exact Hi|exact Hc]. rewrite (A5 i c Hi Hc). ring.
  - intros Hf a c Ha Hc. rewrite <- (A6 Hf a c Ha Hc). unfold lammps_tensor. destruct (a =? c)%nat eqn:Q; apply U2; [lia|]. apply Nat.eqb_neq in Q. lia.
Qed.

Lemma nth_error_map_some {A B} (g : A -> B) l r y : nth_error (map g l) r = Some y -> exists z, nth_error l r = Some z /\ y = g z.
Proof. rewrite nth_error_map. destruct (nth_error l r) as [z|]; intros E; [injection E as <-; exists z; auto|discriminate]. Qed.

Lemma lemma_C91_no_mpi t : same_structure (f_atomic_numbers f) numbers il jl D ltypes rc (d_owner t) (d_L t) sg ->
  exists km mt m b0 bh, kk_load_from_json srt f = Some km /\ coeff_types_kk (f_atomic_numbers f) arg = Some mt /\
    load_from_json srt f = Some (m, b0) /\ calls sph m b0 hist = Some bh /\
    forall qs, kprocs_ok sph junk km f rc ltypes mt t qs ->
    exists b res, calculate sph m bh numbers (Some V) il jl (lengths3 D) D = Some (b, res) /\
    (exists os, kk_no_run sph junk km rc mt (d_fl t) qs os) /\
    forall os, kk_no_run sph junk km rc mt (d_fl t) qs os -> exists rs, os = map Some rs /\
      kk_agrees sg V res (d_fl t) (d_L t) (fun l => ilist l = seq 0 (nlocal l)) (map kq_l qs) (map kq_a qs) (map snd rs) (map (fun q => eatom_before_no (kq_max q) (kq_st q)) qs).
Proof.
  intros SS. destruct (lemma_C61_serial sph Hs junk srt Hp f F FK arg ltypes ND CT LT rc) as (km & mt & m & b0 & A1 & A2 & A3 & A4).
  destruct (load_ok srt Hp f F) as (b0' & E0 & L0). rewrite A3 in E0. injection E0 as -> <-. destruct (calls_ok sph Hs srt f F b0 hist L0 Hh) as (bh & E2 & Lh).
  destruct (A4 [] (Forall_nil _)) as (c0 & A5 & A6). injection A5 as <-.
  exists km, mt, (ldm f), b0, bh. do 4 (split; [assumption|]). intros qs Q. pose proof Q as [Q1 Q2 Q3 Q4 Q5].
  destruct (kk_dist _ _ t bh b0 Q1 SS Lh L0) as (b & res & b1 & p1 & a1 & B1 & B2 & B3).
  destruct (A6 t qs Q L0p (L0acc t) (L0acc_ok t)) as (b1' & p1' & a1' & G1 & G2 & G3). rewrite B2 in G1. injection G1 as <- <- <-.
  exists b, res. split; [exact B1|]. split; [exact G2|]. intros os Ho. destruct (G3 os Ho) as (rs & -> & H1 & H2). exists rs. split; [reflexivity|].
  apply B3; [rewrite !map_length; reflexivity|rewrite map_map; exact H1|].
  intros Hf r l a' e i j N1 N2 N3 Hl Hi Hj T. apply nth_error_map_some in N1, N2, N3. destruct N1 as (q & N1 & ->). destruct N2 as (y & N2 & ->). destruct N3 as (q' & N3 & ->).
  rewrite N1 in N3. injection N3 as <-. exact (H2 r q y N1 N2 Hf Hl i j Hi Hj T).
Qed.

Lemma lemma_C91_mpi host t : same_structure (f_atomic_numbers f) numbers il jl D ltypes rc (d_owner t) (d_L t) sg ->
  exists km mt m b0 bh, kk_load_from_json srt f = Some km /\ coeff_types_kk (f_atomic_numbers f) arg = Some mt /\
    load_from_json srt f = Some (m, b0) /\ calls sph m b0 hist = Some bh /\
    forall qs, kd_reach sph junk km f rc ltypes mt host (map kd_st qs) -> kd_ok f rc ltypes t qs ->
    exists b res, calculate sph m bh numbers (Some V) il jl (lengths3 D) D = Some (b, res) /\
    (exists o, kk_mpi_run sph junk km rc mt (d_fl t) (d_msgs t) host qs o) /\
    forall o, kk_mpi_run sph junk km rc mt (d_fl t) (d_msgs t) host qs o -> exists rs, o = Some rs /\
      kk_agrees sg V res (d_fl t) (d_L t) (fun _ => True) (map kd_l qs) (map kd_a qs) (map snd rs) (map (fun q => eatom_before_mpi (kd_max q) (kd_st q)) qs).
Proof.
  intros SS. destruct (lemma_C62_serial sph Hs junk srt Hp f F FK arg ltypes ND CT LT rc host) as (km & mt & m & b0 & A1 & A2 & A3 & A4).
  destruct (load_ok srt Hp f F) as (b0' & E0 & L0). rewrite A3 in E0. injection E0 as -> <-. destruct (calls_ok sph Hs srt f F b0 hist L0 Hh) as (bh & E2 & Lh).
  destruct (A4 [] (Forall_nil _)) as (c0 & A5 & A6). injection A5 as <-.
  exists km, mt, (ldm f), b0, bh. do 4 (split; [assumption|]). intros qs R Q. pose proof Q as [Q1 Q2 Q3 Q4].
  destruct (kk_dist _ _ t bh b0 (mo_step _ _ _ _ _ Q1) SS Lh L0) as (b & res & b1 & p1 & a1 & B1 & B2 & B3).
  destruct (A6 t qs R Q L0p (L0acc t) (L0acc_ok t)) as (b1' & p1' & a1' & G1 & G2 & G3). rewrite B2 in G1. injection G1 as <- <- <-.
  exists b, res. split; [exact B1|]. split; [exact G2|]. intros o Ho. destruct (G3 o Ho) as (rs & -> & H1 & H2). exists rs. split; [reflexivity|].
  apply B3; [rewrite !map_length; reflexivity|rewrite map_map; exact H1|].
  intros Hf r l a' e i j N1 N2 N3 Hl Hi Hj T. apply nth_error_map_some in N1, N2, N3. destruct N1 as (q & N1 & ->). destruct N2 as (y & N2 & ->). destruct N3 as (q' & N3 & ->).
  rewrite N1 in N3. injection N3 as <-. exact (H2 r q y N1 N2 Hf i j Hi Hj T).
Qed.
End Main.
