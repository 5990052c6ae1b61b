(** Rigid motions of the atoms in the Kokkos evaluator and the Kokkos pair style.  Used in proofs only. *)
From Coq Require Import String List Arith ZArith Lia Bool Permutation Reals Lra.
From Verif Require Import Base BaseLemmas Instances RSums RList MlpR MaceModel MaceSpec MaceSpec2 MaceGradSpec MaceFlat MacePipe MaceLoad MaceThms MaceForces ExportPolySpec EnergySpec EnergyProofs
  PairModel PairMpiModel PairKokkosModel PairSpec PairCommSpec PairGrad DistSpec DistThms DistGradSpec DistGradThms SymSpec SymProofs SymForces SymAse SymPairSpec SymPair KkSymSpec.
From Verif Require Import KkSem KkModel KkSpec KkLoad2 KkThms KkPairModel KkPairSpec KkPairThms KkPairMpiModel KkPairMpiSpec KkNoThms KkPairMpi2Model KkPairMpi2Spec KkMpiThms.
Import ListNotations.
Local Open Scope R_scope.

Section Sym.
Variable sph : nat -> RNum -> RNum -> RNum -> list RNum * list RNum.
Hypothesis Hs : sph_ok (N:=RNum) sph.
Hypothesis Hg : sph_gradient sph.
Variable junk : mem RNum -> KkSem.cell -> RNum.
Variable srt : list (list (list nat)) -> list (list (list nat)).
Hypothesis Hp : forall l, Permutation l (srt l).
Variable f : mace_file RNum.
Hypothesis F : file_ok f.
Hypothesis FK : kk_file_ok f.
Hypothesis SF : smooth_ok f.
Hypothesis Mo : monomials_once f.
Variable g : nat -> nat -> R.
Variable D : nat -> nat -> nat -> R.
Hypothesis O : orthogonal g.
Hypothesis EQ : equivariant sph f g D.

Lemma lemma_C94_eval : exists km, kk_load_from_json srt f = Some km /\
  forall hist hist' x xs, List.Forall (input_ok f) hist -> List.Forall (input_ok f) hist' -> smooth_at f x xs ->
  (exists mem, kk_calls sph junk km kk_fresh (hist ++ [with_xyz x xs]) (Some mem)) /\ (exists mem, kk_calls sph junk km kk_fresh (hist' ++ [with_xyz x (rotate g xs)]) (Some mem)) /\
  forall o o', kk_calls sph junk km kk_fresh (hist ++ [with_xyz x xs]) o -> kk_calls sph junk km kk_fresh (hist' ++ [with_xyz x (rotate g xs)]) o' ->
  exists mem mem', o = Some mem /\ o' = Some mem' /\
    firstn (i_num_nodes x) (kk_node_energies mem') = firstn (i_num_nodes x) (kk_node_energies mem) /\
    firstn (List.length xs) (kk_node_forces mem') = rotate g (firstn (List.length xs) (kk_node_forces mem)).
Proof.
  destruct (kk_load_ok srt Hp f F FK) as (km & EK & _). exists km. split; [exact EK|]. intros hist hist' x xs Hh Hh' SA.
  destruct (lemma_C75 sph Hs Hg srt Hp f F SF Mo g D O EQ [] x xs (Forall_nil _) SA) as (m & b0 & bh & b & b' & E1 & E2 & E3 & E4 & E5 & E6). injection E2 as <-.
  destruct (lemma_C54 sph Hs junk srt Hp f F FK hist _ Hh (sa_ok _ _ _ SA)) as (km1 & m1 & c0 & c1 & A1 & A2 & A3 & A4 & A5).
  destruct (lemma_C54 sph Hs junk srt Hp f F FK hist' _ Hh' (sa_ok _ _ _ (smooth_rot g O f x xs SA))) as (km2 & m2 & d0 & d1 & B1 & B2 & B3 & B4 & B5).
  rewrite EK in A1, B1. injection A1 as <-. injection B1 as <-. rewrite E1 in A2, B2. injection A2 as <- <-. injection B2 as <- <-. rewrite E3 in A3. injection A3 as <-. rewrite E4 in B3. injection B3 as <-.
  split; [exact A4|]. split; [exact B4|]. intros o o' Ho Ho'. destruct (A5 o Ho) as (mem & -> & A6 & A7). destruct (B5 o' Ho') as (mem' & -> & B6 & B7).
  exists mem, mem'. split; [reflexivity|]. split; [reflexivity|]. change (i_num_nodes (with_xyz x xs)) with (i_num_nodes x) in A6. change (i_num_nodes (with_xyz x (rotate g xs))) with (i_num_nodes x) in B6.
  change (i_xyz (with_xyz x xs)) with xs in A7. change (i_xyz (with_xyz x (rotate g xs))) with (rotate g xs) in B7.
  assert (LR : List.length (rotate g xs) = List.length xs) by (unfold rotate; rewrite map_length, seq_length; reflexivity).
  split; [rewrite A6, B6; exact E5|]. rewrite <- LR at 1. etransitivity; [exact B7|]. etransitivity; [exact E6|]. f_equal. symmetry. exact A7.
Qed.

Section Pair.
Variable arg : list string.
Variable types : list nat.
Hypothesis ND : NoDup (f_atomic_numbers f).
Hypothesis CT : coeff_types (f_atomic_numbers f) arg = Some types.
Hypothesis LT : (List.length types <= List.length (f_atomic_numbers f))%nat.
Variable d : nat -> R.

Lemma lemma_C94_serial (rc : R) : exists km mt, kk_load_from_json srt f = Some km /\ coeff_types_kk (f_atomic_numbers f) arg = Some mt /\
  forall s s' owner maxeatom maxeatom' fl l a, kp_reach sph junk km f rc types mt s -> kp_reach sph junk km f rc types mt s' -> nd_call_ok f types rc owner maxeatom fl l a -> (nlocal l <= maxeatom')%nat ->
  smooth_at f (nd_input (N:=RNum) types rc owner l) (i_xyz (nd_input (N:=RNum) types rc owner l)) ->
  (exists o, kk_no_domain sph junk km rc mt maxeatom fl l s a o) /\ (exists o, kk_no_domain sph junk km rc mt maxeatom' fl (carried g d l) s' a o) /\
  forall o o', kk_no_domain sph junk km rc mt maxeatom fl l s a o -> kk_no_domain sph junk km rc mt maxeatom' fl (carried g d l) s' a o' ->
  exists s1 a1 s2 a2, o = Some (s1, a1) /\ o' = Some (s2, a2) /\ eng_vdwl a2 = eng_vdwl a1 /\
    (forall i c, (i < nlocal l + nghost l)%nat -> (c < 3)%nat ->
       nth (3 * i + c) (force a2) 0 - nth (3 * i + c) (force a) 0 = sum 3 (fun c' => g c c' * (nth (3 * i + c') (force a1) 0 - nth (3 * i + c') (force a) 0))) /\
    (forall r c, (r < 3)%nat -> (c < 3)%nat -> lammps_tensor (fun k => nth k (virial a2) 0 - nth k (virial a) 0) r c =
       rotated_tensor g (lammps_tensor (fun k => nth k (virial a1) 0 - nth k (virial a) 0)) r c).
Proof.
  destruct (lemma_C59 sph Hs junk srt Hp f F FK arg types ND CT LT rc) as (km & mt & m & b0 & A1 & A2 & A3 & A4). exists km, mt. split; [exact A1|]. split; [exact A2|].
  destruct (A4 [] (Forall_nil _)) as (c0 & A5 & A6). injection A5 as <-. intros s s' owner maxe maxe' fl l a R1 R2 K Hm SA. pose proof K as [K1 K2 K3 K4 K5 K6 K7].
  assert (K' : nd_call_ok f types rc owner maxe' fl (carried g d l) a).
  { constructor; [|exact K2| | |exact (carried_input g d O f l rc types owner K1 SA)|exact K6|exact Hm].
    - apply lmp_ok_at; [exact K1|apply length_rigid].
    - destruct K3. constructor; assumption.
    - destruct K4. constructor; assumption. }
  destruct (lemma_C78 sph Hs Hg srt Hp f F SF Mo g D O EQ d [] l rc types owner fl L0p L0p a (Forall_nil _) K1 K3 K6 K4 SA) as (m' & b0' & bh & b1 & p1 & a1 & b2 & p2 & a2 & D1 & D2 & D3 & D4 & D5 & D6 & D7 & D8 & D9).
  rewrite A3 in D1. injection D1 as <- <-. injection D2 as <-.
  destruct (A6 s R1 owner maxe fl l a K L0p) as (e1 & q1 & ac & B1 & B2 & B3). rewrite D3 in B1. injection B1 as <- <- <-.
  destruct (A6 s' R2 owner maxe' fl (carried g d l) a K' L0p) as (e2 & q2 & ac & C1 & C2 & C3). rewrite D4 in C1. injection C1 as <- <- <-.
  split; [exact B2|]. split; [exact C2|]. intros o o' Ho Ho'. destruct (B3 o Ho) as (s1 & ak & -> & G1 & G2 & G3 & _). destruct (C3 o' Ho') as (s2 & ak' & -> & G1' & G2' & G3' & _).
  exists s1, ak, s2, ak'. split; [reflexivity|]. split; [reflexivity|]. rewrite G1, G2, G3, G1', G2', G3'. split; [exact D6|]. split; [exact D8|exact D9].
Qed.

(** two distributed evaluations that add what serial evaluations add *)
Lemma carried_added (rc : R) m b0 P needed (t : dstep) P' needed' (t' : dstep) tags tags' acc acc' res res' : load_from_json srt f = Some (m, b0) ->
  step_ok f rc types needed P t -> step_ok f rc types needed' P' t' -> d_L t' = carried g d (d_L t) -> d_fl t' = d_fl t ->
  smooth_at f (nd_input (N:=RNum) types rc (d_owner t) (d_L t)) (i_xyz (nd_input (N:=RNum) types rc (d_owner t) (d_L t))) ->
  List.length tags = List.length acc -> List.length tags' = List.length acc' ->
  (forall p a, acc_ok (d_L t) a -> exists b1 p1 a1, compute_no_domain_decomposition (N:=RNum) sph m rc types (d_fl t) (d_L t) b0 p a = Some (b1, p1, a1) /\ same_added (d_L t) tags acc res a a1) ->
  (forall p a, acc_ok (d_L t') a -> exists b1 p1 a1, compute_no_domain_decomposition (N:=RNum) sph m rc types (d_fl t') (d_L t') b0 p a = Some (b1, p1, a1) /\ same_added (d_L t') tags' acc' res' a a1) ->
  carried_sums g (d_L t) tags tags' acc acc' res res'.
Proof.
  intros E0 S S' EL EF SA TL TL' H H'. pose proof S as [S1 S2 S3 S4 S5 S6 S7].
  destruct (lemma_C78 sph Hs Hg srt Hp f F SF Mo g D O EQ d [] (d_L t) rc types (d_owner t) (d_fl t) L0p L0p (L0acc t) (Forall_nil _) S2 S3 S7 (L0acc_ok t) SA)
    as (m' & b0' & bh & b1 & p1 & a1 & b2 & p2 & a2 & D1 & D2 & R1 & R2 & R3 & R4 & R5 & R6 & R7).
  rewrite E0 in D1. injection D1 as <- <-. injection D2 as <-.
  destruct (H L0p (L0acc t) (L0acc_ok t)) as (c1 & q1 & e1 & C1 & C3). rewrite R1 in C1. injection C1 as <- <- <-.
  assert (Ha : acc_ok (d_L t') (L0acc t)) by (rewrite EL; destruct (L0acc_ok t); constructor; assumption).
  destruct (H' L0p (L0acc t) Ha) as (c1 & q1 & e1 & C1 & D3). rewrite EL, EF, R2 in C1. injection C1 as <- <- <-.
  destruct (sums _ _ _ _ _ _ C3) as (U1 & U2 & U3). destruct (sums _ _ _ _ _ _ D3) as (V1 & V2 & V3).
  constructor.
  - rewrite U1, V1, R4. reflexivity.
  - intros i c Hi Hc. assert (X : (i < nlocal (d_L t'))%nat) by (rewrite EL; exact Hi).
    pose proof (V3 TL' i c X Hc) as V4. rewrite EL in V4. change (tag (carried g d (d_L t)) i) with (tag (d_L t) i) in V4. rewrite V4. rewrite (R6 i c) by (auto; lia).
    rewrite !sum3. rewrite !(U3 TL i) by (auto; lia). reflexivity.
  - intros r c Hr Hc. transitivity (lammps_tensor (fun k => nth k (virial a2) 0 - nth k (virial (L0acc t)) 0) r c).
    { unfold lammps_tensor. destruct (r =? c)%nat eqn:Q; apply V2; [lia|]. apply Nat.eqb_neq in Q. lia. }
    rewrite (R7 r c Hr Hc). apply rt_ext. intros i j Hi Hj. unfold lammps_tensor. destruct (i =? j)%nat eqn:Q; symmetry; apply U2; [lia|]. apply Nat.eqb_neq in Q. lia.
Qed.

Lemma lemma_C94_mpi (rc : R) host : exists km mt, kk_load_from_json srt f = Some km /\ coeff_types_kk (f_atomic_numbers f) arg = Some mt /\
  forall t qs t' qs', kd_reach sph junk km f rc types mt host (map kd_st qs) -> kd_ok f rc types t qs -> kd_reach sph junk km f rc types mt host (map kd_st qs') -> kd_ok f rc types t' qs' ->
  d_L t' = carried g d (d_L t) -> d_fl t' = d_fl t ->
  smooth_at f (nd_input (N:=RNum) types rc (d_owner t) (d_L t)) (i_xyz (nd_input (N:=RNum) types rc (d_owner t) (d_L t))) ->
  (exists o, kk_mpi_run sph junk km rc mt (d_fl t) (d_msgs t) host qs o) /\ (exists o, kk_mpi_run sph junk km rc mt (d_fl t') (d_msgs t') host qs' o) /\
  forall o o', kk_mpi_run sph junk km rc mt (d_fl t) (d_msgs t) host qs o -> kk_mpi_run sph junk km rc mt (d_fl t') (d_msgs t') host qs' o' ->
  exists rs rs', o = Some rs /\ o' = Some rs' /\ List.length rs = List.length qs /\ List.length rs' = List.length qs' /\
    carried_sums g (d_L t) (map (fun q => atom_tag (kd_l q)) qs) (map (fun q => atom_tag (kd_l q)) qs') (map kd_a qs) (map kd_a qs') (map snd rs) (map snd rs').
Proof.
  destruct (lemma_C62_serial sph Hs junk srt Hp f F FK arg types ND CT LT rc host) as (km & mt & m & b0 & A1 & A2 & A3 & A4). exists km, mt. split; [exact A1|]. split; [exact A2|].
  destruct (A4 [] (Forall_nil _)) as (c0 & A5 & A6). injection A5 as <-. intros t qs t' qs' R1 K R2 K' EL EF SA.
  destruct (A6 t qs R1 K L0p (L0acc t) (L0acc_ok t)) as (_ & _ & _ & _ & X1 & _). destruct (A6 t' qs' R2 K' L0p (L0acc t') (L0acc_ok t')) as (_ & _ & _ & _ & X2 & _).
  split; [exact X1|]. split; [exact X2|]. intros o o' Ho Ho'.
  destruct (A6 t qs R1 K L0p (L0acc t) (L0acc_ok t)) as (? & ? & ? & _ & _ & B3). destruct (B3 o Ho) as (rs & -> & B4 & _).
  destruct (A6 t' qs' R2 K' L0p (L0acc t') (L0acc_ok t')) as (? & ? & ? & _ & _ & C3). destruct (C3 o' Ho') as (rs' & -> & C4 & _).
  exists rs, rs'. split; [reflexivity|]. split; [reflexivity|]. split. { destruct B4 as [[B4 _] _ _ _]. rewrite !map_length in B4. exact B4. }
  split. { destruct C4 as [[C4 _] _ _ _]. rewrite !map_length in C4. exact C4. }
  refine (carried_added rc m b0 _ needed_mpi t _ needed_mpi t' _ _ _ _ _ _ A3 (mo_step _ _ _ _ _ (kd_step _ _ _ _ _ K)) (mo_step _ _ _ _ _ (kd_step _ _ _ _ _ K')) EL EF SA _ _ _ _).
  - rewrite !map_length. reflexivity.
  - rewrite !map_length. reflexivity.
  - intros p a Ha. destruct (A6 t qs R1 K p a Ha) as (b1 & p1 & a1 & Y1 & _ & Y2). destruct (Y2 _ Ho) as (rs0 & Er & Y3 & _). injection Er as <-. exists b1, p1, a1. split; assumption.
  - intros p a Ha. destruct (A6 t' qs' R2 K' p a Ha) as (b1 & p1 & a1 & Y1 & _ & Y2). destruct (Y2 _ Ho') as (rs0 & Er & Y3 & _). injection Er as <-. exists b1, p1, a1. split; assumption.
Qed.

Lemma map_some_inj {A} (l l' : list A) : map Some l = map Some l' -> l = l'.
Proof. revert l'. induction l as [|a l IH]; intros [|b l'] H; try discriminate H; [reflexivity|]. cbn in H. injection H as -> H. f_equal. apply IH, H. Qed.
Lemma lemma_C94_no_mpi (rc : R) : exists km mt, kk_load_from_json srt f = Some km /\ coeff_types_kk (f_atomic_numbers f) arg = Some mt /\
  forall t qs t' qs', kprocs_ok sph junk km f rc types mt t qs -> kprocs_ok sph junk km f rc types mt t' qs' -> d_L t' = carried g d (d_L t) -> d_fl t' = d_fl t ->
  smooth_at f (nd_input (N:=RNum) types rc (d_owner t) (d_L t)) (i_xyz (nd_input (N:=RNum) types rc (d_owner t) (d_L t))) ->
  (exists os, kk_no_run sph junk km rc mt (d_fl t) qs os) /\ (exists os, kk_no_run sph junk km rc mt (d_fl t') qs' os) /\
  forall os os', kk_no_run sph junk km rc mt (d_fl t) qs os -> kk_no_run sph junk km rc mt (d_fl t') qs' os' ->
  exists rs rs', os = map Some rs /\ os' = map Some rs' /\ List.length rs = List.length qs /\ List.length rs' = List.length qs' /\
    carried_sums g (d_L t) (map (fun q => atom_tag (kq_l q)) qs) (map (fun q => atom_tag (kq_l q)) qs') (map kq_a qs) (map kq_a qs') (map snd rs) (map snd rs').
Proof.
  destruct (lemma_C61_serial sph Hs junk srt Hp f F FK arg types ND CT LT rc) as (km & mt & m & b0 & A1 & A2 & A3 & A4). exists km, mt. split; [exact A1|]. split; [exact A2|].
  destruct (A4 [] (Forall_nil _)) as (c0 & A5 & A6). injection A5 as <-. intros t qs t' qs' K K' EL EF SA.
  destruct (A6 t qs K L0p (L0acc t) (L0acc_ok t)) as (? & ? & ? & _ & X1 & B3). destruct (A6 t' qs' K' L0p (L0acc t') (L0acc_ok t')) as (? & ? & ? & _ & X2 & C3).
  split; [exact X1|]. split; [exact X2|]. intros o o' Ho Ho'. destruct (B3 o Ho) as (rs & -> & B4 & _). destruct (C3 o' Ho') as (rs' & -> & C4 & _).
  exists rs, rs'. split; [reflexivity|]. split; [reflexivity|]. split. { destruct B4 as [[B4 _] _ _ _]. rewrite !map_length in B4. exact B4. }
  split. { destruct C4 as [[C4 _] _ _ _]. rewrite !map_length in C4. exact C4. }
  refine (carried_added rc m b0 _ (needed_no_mpi (N:=RNum) rc) t _ (needed_no_mpi (N:=RNum) rc) t' _ _ _ _ _ _ A3 (kq_step _ _ _ _ _ _ _ _ _ K) (kq_step _ _ _ _ _ _ _ _ _ K') EL EF SA _ _ _ _).
  - rewrite !map_length. reflexivity.
  - rewrite !map_length. reflexivity.
  - intros p a Ha. destruct (A6 t qs K p a Ha) as (b1 & p1 & a1 & Y1 & _ & Y2). destruct (Y2 _ Ho) as (rs0 & Er & Y3 & _). apply map_some_inj in Er. subst rs0. exists b1, p1, a1. split; assumption.
  - intros p a Ha. destruct (A6 t' qs' K' p a Ha) as (b1 & p1 & a1 & Y1 & _ & Y2). destruct (Y2 _ Ho') as (rs0 & Er & Y3 & _). apply map_some_inj in Er. subst rs0. exists b1, p1, a1. split; assumption.
Qed.
End Pair.
End Sym.
