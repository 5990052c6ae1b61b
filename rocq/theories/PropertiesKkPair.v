(** Property theorems for the Kokkos pair style without domain decomposition: C59 (same results as the CPU pair style), C60 (forces and
    virial are derivatives of the energy).
    Model: KkPairModel.v.  Vocabulary: KkPairSpec.v, PairSpec.v, MaceSpec.v, KkSpec.v, MaceGradSpec.v.
    [kk_no_domain ... s a o]: [o] is one of the possible outcomes of compute, started with the views [s] and the accumulators [a]. *)
From Coq Require Import String List Arith ZArith Reals Permutation Lia Lra.
From Verif Require Import Base Instances MaceModel MaceSpec MaceSpec2 MaceGradSpec MaceExamples GradExamples AseSpec
  PairModel PairMpiModel PairKokkosModel PairSpec PairCommSpec PairExamples.
From Verif Require Import KkSem KkModel KkSpec KkExamples KkPairModel KkPairSpec KkPairThms KkPairExamples KkPairOrder.
Import ListNotations.
Local Open Scope R_scope.

(** ** C59, for a neighbour list in the order of the atoms: energy, virial and forces are those of the CPU pair style, whatever was computed
    before with either of them and whatever the scheduler does; atomic energies are added to what k_eatom contained *)
Theorem C59_pair_kokkos_partial : forall sph, sph_ok (N:=RNum) sph -> forall junk srt, (forall l, Permutation l (srt l)) ->
  forall f, file_ok f -> kk_file_ok f -> forall arg types, NoDup (f_atomic_numbers f) ->
  coeff_types (f_atomic_numbers f) arg = Some types -> (length types <= length (f_atomic_numbers f))%nat -> forall rc,
  exists km mt m b0, kk_load_from_json srt f = Some km /\ coeff_types_kk (f_atomic_numbers f) arg = Some mt /\
  load_from_json srt f = Some (m, b0) /\
  forall hist, Forall (input_ok f) hist -> exists bh, calls sph m b0 hist = Some bh /\
  forall s, kp_reach sph junk km f rc types mt s -> forall owner maxeatom fl l a, nd_call_ok f types rc owner maxeatom fl l a -> forall p,
  exists b1 p1 ac, compute_no_domain_decomposition sph m rc types fl l bh p a = Some (b1, p1, ac) /\
    (exists o, kk_no_domain sph junk km rc mt maxeatom fl l s a o) /\
    forall o, kk_no_domain sph junk km rc mt maxeatom fl l s a o -> exists s' ak, o = Some (s', ak) /\
      eng_vdwl ak = eng_vdwl ac /\ virial ak = virial ac /\ force ak = force ac /\
      (eflag_atom fl = true -> eatom_added (nlocal l) (seq 0 (nlocal l)) (b_node_energies b1) (eatom_before maxeatom s) (eatom ak)).
Proof. exact lemma_C59. Qed.
Print Assumptions C59_pair_kokkos_partial.

(** two calls one after the other *)
Example C59_example : forall p, exists km m b0 b1 p1 ac s1 a1 s2 a2,
  kk_load_from_json (fun l => l) ex_file = Some km /\ load_from_json (N:=RNum) (fun l => l) ex_file = Some (m, b0) /\
  compute_no_domain_decomposition ex_sph m px_rc px_types px_ev kp b0 p px_acc = Some (b1, p1, ac) /\
  kk_no_domain ex_sph (fun _ _ => 7) km px_rc [1; 0]%Z 4 px_ev kp kp_fresh px_acc (Some (s1, a1)) /\
  kk_no_domain ex_sph (fun _ _ => 7) km px_rc [1; 0]%Z 4 px_ev kp s1 px_acc (Some (s2, a2)) /\
  eng_vdwl a2 = eng_vdwl ac /\ virial a2 = virial ac /\ force a2 = force ac /\
  nth 2 (eatom a2) 0 = nth 2 (eatom_before 4 s1) 0 + nth 2 (b_node_energies b1) 0.
Proof.
  intros p.
  destruct (C59_pair_kokkos_partial ex_sph ex_sph_ok (fun _ _ => 7) (fun l => l) (fun l => Permutation_refl l) ex_file ex_file_ok
    ex_kk_file_ok kp_arg px_types kp_nodup kp_types (le_n _) px_rc) as (km & mt & m & b0 & E1 & E2 & E3 & H).
  destruct (H [] (Forall_nil _)) as (bh & E4 & G). injection E4 as <-.
  assert (mt = [1; 0]%Z) as -> by (vm_compute in E2; congruence).
  destruct (G _ (kr_new _ _ _ _ _ _ _) px_owner 4%nat px_ev kp px_acc kp_call p) as (b1 & p1 & ac & A1 & (o & A2) & A3).
  destruct (A3 o A2) as (s1 & a1 & -> & _).
  destruct (G s1 (kr_call _ _ _ _ _ _ _ _ px_owner 4%nat px_ev kp px_acc s1 a1 (kr_new _ _ _ _ _ _ _) kp_call A2) px_owner 4%nat px_ev kp px_acc kp_call p)
    as (b1' & p1' & ac' & B1 & (o' & B2) & B3).
  destruct (B3 o' B2) as (s2 & a2 & -> & B4 & B5 & B6 & B7). rewrite A1 in B1. injection B1 as <- <- <-.
  exists km, m, b0, b1, p1, ac, s1, a1, s2, a2. repeat (split; [assumption|]). exact (B7 eq_refl 2%nat ltac:(cbn; lia)).
Qed.

(** With another order of the list the Kokkos style computes something else: neigh_indices holds the indices of the atoms, and the evaluator
    takes them for positions in the list.  Two atoms at distance 1, listed in the order 1, 0. *)
Theorem C59_order_refuted : exists f arg types rc owner l a, file_ok f /\ kk_file_ok f /\ NoDup (f_atomic_numbers f) /\
  coeff_types (f_atomic_numbers f) arg = Some types /\ (length types <= length (f_atomic_numbers f))%nat /\
  lmp_ok (length types) (ilist l) l /\ owner_ok owner l /\ acc_ok l a /\ input_ok f (nd_input types rc owner l) /\
  forall junk p, exists km mt m b0, kk_load_from_json (fun l => l) f = Some km /\
  coeff_types_kk (f_atomic_numbers f) arg = Some mt /\ load_from_json (fun l => l) f = Some (m, b0) /\
  exists b1 p1 ac, compute_no_domain_decomposition ex_sph m rc types (mkEv true false false false) l b0 p a = Some (b1, p1, ac) /\
  (exists o, kk_no_domain ex_sph junk km rc mt (nlocal l) (mkEv true false false false) l kp_fresh a o) /\
  forall o, kk_no_domain ex_sph junk km rc mt (nlocal l) (mkEv true false false false) l kp_fresh a o ->
    exists s' ak, o = Some (s', ak) /\ eng_vdwl ak < eng_vdwl ac.
Proof. exact order_refuted. Qed.
Print Assumptions C59_order_refuted.

(** ** C60: what is added to the force on a local atom is minus the derivative of what is added to the energy with respect to the position
    of the atom, all its images moving along *)
Theorem C60_forces : forall sph, sph_ok (N:=RNum) sph -> sph_gradient sph -> forall junk srt, (forall l, Permutation l (srt l)) ->
  forall f, file_ok f -> kk_file_ok f -> smooth_ok f -> forall arg types, NoDup (f_atomic_numbers f) ->
  coeff_types (f_atomic_numbers f) arg = Some types -> (length types <= length (f_atomic_numbers f))%nat ->
  forall rc owner maxeatom fl l a sh pos, nd_call_ok f types rc owner maxeatom fl l a -> eflag_global fl = true ->
  length pos = (3 * nlocal l)%nat -> atom_x l = images (nlocal l + nghost l) owner sh pos -> off_cutoff l rc ->
  smooth_at f (nd_input types rc owner l) (i_xyz (nd_input types rc owner l)) ->
  exists km mt, kk_load_from_json srt f = Some km /\ coeff_types_kk (f_atomic_numbers f) arg = Some mt /\
  forall s, kp_reach sph junk km f rc types mt s -> (exists o, kk_no_domain sph junk km rc mt maxeatom fl l s a o) /\
  forall o, kk_no_domain sph junk km rc mt maxeatom fl l s a o -> exists s' a1, o = Some (s', a1) /\
    length (force a1) = length (force a) /\ (forall q, (3 * nlocal l <= q)%nat -> nth q (force a1) 0 = nth q (force a) 0) /\
    forall q, (q < 3 * nlocal l)%nat -> exists E del, 0 < del /\
      (forall u, Rabs (u - nth q pos 0) < del -> let lu := at_x l (images (nlocal l + nghost l) owner sh (upd pos q u)) in
         (exists o', kk_no_domain sph junk km rc mt maxeatom fl lu s a o') /\
         forall o', kk_no_domain sph junk km rc mt maxeatom fl lu s a o' -> exists s2 a2, o' = Some (s2, a2) /\ E u = eng_vdwl a2 - eng_vdwl a) /\
      derivable_pt_lim E (nth q pos 0) (- (nth q (force a1) 0 - nth q (force a) 0)).
Proof. exact lemma_C60_forces. Qed.
Print Assumptions C60_forces.

(** for every symmetric strain [e], the derivative of the energy is minus the contraction with the virial (order xx, yy, zz, xy, xz, yz) *)
Theorem C60_virial : forall sph, sph_ok (N:=RNum) sph -> sph_gradient sph -> forall junk srt, (forall l, Permutation l (srt l)) ->
  forall f, file_ok f -> kk_file_ok f -> smooth_ok f -> forall arg types, NoDup (f_atomic_numbers f) ->
  coeff_types (f_atomic_numbers f) arg = Some types -> (length types <= length (f_atomic_numbers f))%nat ->
  forall rc owner maxeatom fl l a e, nd_call_ok f types rc owner maxeatom fl l a -> eflag_global fl = true -> vflag_global fl = true ->
  (forall i c, e i c = e c i) -> off_cutoff l rc ->
  smooth_at f (nd_input types rc owner l) (i_xyz (nd_input types rc owner l)) ->
  exists km mt, kk_load_from_json srt f = Some km /\ coeff_types_kk (f_atomic_numbers f) arg = Some mt /\
  forall s, kp_reach sph junk km f rc types mt s -> (exists o, kk_no_domain sph junk km rc mt maxeatom fl l s a o) /\
  forall o, kk_no_domain sph junk km rc mt maxeatom fl l s a o -> exists s' a1 E del, o = Some (s', a1) /\ length (virial a1) = 6%nat /\ 0 < del /\
    (forall t, Rabs t < del -> let lt := at_x l (strain e t (atom_x l)) in
         (exists o', kk_no_domain sph junk km rc mt maxeatom fl lt s a o') /\
         forall o', kk_no_domain sph junk km rc mt maxeatom fl lt s a o' -> exists s2 a2, o' = Some (s2, a2) /\ E t = eng_vdwl a2 - eng_vdwl a) /\
    let v k := nth k (virial a1) 0 - nth k (virial a) 0 in
    derivable_pt_lim E 0 (- (v 0%nat * e 0%nat 0%nat + v 1%nat * e 1%nat 1%nat + v 2%nat * e 2%nat 2%nat
                               + 2 * (v 3%nat * e 0%nat 1%nat) + 2 * (v 4%nat * e 0%nat 2%nat) + 2 * (v 5%nat * e 1%nat 2%nat))).
Proof. exact lemma_C60_virial. Qed.
Print Assumptions C60_virial.

Example C60_forces_example : exists km s' a1, kk_load_from_json (fun l => l) ex_file = Some km /\
  kk_no_domain ex_sph (fun _ _ => 7) km px_rc [1; 0]%Z 4 px_ev kp kp_fresh px_acc (Some (s', a1)) /\
  exists E, derivable_pt_lim E (3/5) (- (nth 3 (force a1) 0 - 3)).
Proof.
  destruct (C60_forces ex_sph ex_sph_ok ex_sph_gradient (fun _ _ => 7) (fun l => l) (fun l => Permutation_refl l) ex_file ex_file_ok
    ex_kk_file_ok ex_smooth kp_arg px_types kp_nodup kp_types (le_n _) px_rc px_owner 4%nat px_ev kp px_acc px_sh px_pos kp_call eq_refl eq_refl eq_refl
    kp_off kp_smooth_at) as (km & mt & E1 & E2 & H).
  assert (mt = [1; 0]%Z) as -> by (vm_compute in E2; congruence).
  destruct (H _ (kr_new _ _ _ _ _ _ _)) as ((o & Ho) & G). destruct (G o Ho) as (s' & a1 & -> & _ & _ & D).
  exists km, s', a1. split; [exact E1|]. split; [exact Ho|]. destruct (D 3%nat ltac:(cbn; lia)) as (E & del & _ & _ & Q). exists E. exact Q.
Qed.
Example C60_virial_example : exists km s' a1, kk_load_from_json (fun l => l) ex_file = Some km /\
  kk_no_domain ex_sph (fun _ _ => 7) km px_rc [1; 0]%Z 4 px_ev kp kp_fresh px_acc (Some (s', a1)) /\
  exists E, derivable_pt_lim E 0 (- (2 * (nth 3 (virial a1) 0 - 2))).
Proof.
  destruct (C60_virial ex_sph ex_sph_ok ex_sph_gradient (fun _ _ => 7) (fun l => l) (fun l => Permutation_refl l) ex_file ex_file_ok
    ex_kk_file_ok ex_smooth kp_arg px_types kp_nodup kp_types (le_n _) px_rc px_owner 4%nat px_ev kp px_acc
    (fun i c => nth c (nth i [[0; 1; 0]; [1; 0; 0]; [0; 0; 0]] []) 0) kp_call eq_refl eq_refl) as (km & mt & E1 & E2 & H).
  - intros i c. destruct i as [|[|[|i]]], c as [|[|[|c]]]; cbn; try reflexivity; try (destruct i; reflexivity); try (destruct c; reflexivity). destruct i, c; reflexivity.
  - exact kp_off.
  - exact kp_smooth_at.
  - assert (mt = [1; 0]%Z) as -> by (vm_compute in E2; congruence).
    destruct (H _ (kr_new _ _ _ _ _ _ _)) as ((o & Ho) & G). destruct (G o Ho) as (s' & a1 & E & del & -> & _ & _ & _ & Q).
    exists km, s', a1. split; [exact E1|]. split; [exact Ho|]. exists E. eapply RSums.dlim_eq; [|exact Q]. cbn [nth virial px_acc repeat]. ring.
Qed.
