(** Property theorems for the Kokkos pair style in mode no_mpi_message_passing: C61 (same results as the CPU pair style; together the
    processes add what the serial evaluation adds).
    Model: KkPairMpiModel.v.  Vocabulary: KkPairMpiSpec.v, DistSpec.v, PairSpec.v, MaceSpec.v, KkSpec.v.
    [kk_no_mpi ... s a o]: [o] is one of the possible outcomes of compute, started with the views [s] and the accumulators [a]. *)
From Coq Require Import String List Arith ZArith Reals Permutation Lia Lra.
From Verif Require Import Base Instances MaceModel MaceSpec MaceExamples PairModel PairMpiModel PairKokkosModel PairSpec PairExamples DistSpec DistExamples.
From Verif Require Import KkSem KkModel KkSpec KkExamples KkPairModel KkPairSpec KkPairExamples KkPairMpiModel KkPairMpiSpec KkNoThms.
Import ListNotations.
Local Open Scope R_scope.

(** ** C61: one process.  Energy, virial and forces (also those on ghost atoms) are those of the CPU pair style, whatever was computed before
    with either of them, whatever the order of the neighbour list and whatever the scheduler does; the energy of atom [i] is added to entry
    [i] of k_eatom if the list is in the order of the atoms *)
Theorem C61_no_mpi_kokkos : forall sph, sph_ok (N:=RNum) sph -> forall junk srt, (forall l, Permutation l (srt l)) ->
  forall f, file_ok f -> kk_file_ok f -> forall arg types, NoDup (f_atomic_numbers f) ->
  coeff_types (f_atomic_numbers f) arg = Some types -> (length types <= length (f_atomic_numbers f))%nat -> forall rc,
  exists km mt m b0, kk_load_from_json srt f = Some km /\ coeff_types_kk (f_atomic_numbers f) arg = Some mt /\
  load_from_json srt f = Some (m, b0) /\
  forall b, cn_reach sph m b0 f rc types b -> forall s, kn_reach sph junk km f rc types mt s ->
  forall maxeatom fl l a, no_call_ok f types rc maxeatom fl l a -> forall p,
  exists b1 p1 ac, compute_no_mpi_message_passing (N:=RNum) sph m rc types fl l b p a = Some (b1, p1, ac) /\
    (exists o, kk_no_mpi sph junk km rc mt maxeatom fl l s a o) /\
    forall o, kk_no_mpi sph junk km rc mt maxeatom fl l s a o -> exists s' ak, o = Some (s', ak) /\
      eng_vdwl ak = eng_vdwl ac /\ virial ak = virial ac /\ force ak = force ac /\
      (eflag_atom fl = true -> ilist l = seq 0 (nlocal l) ->
       eatom_added (nlocal l) (ilist l) (b_node_energies b1) (eatom_before_no maxeatom s) (eatom ak)).
Proof. exact lemma_C61. Qed.
Print Assumptions C61_no_mpi_kokkos.

(** ** All processes: whatever the objects of the processes have computed before and however each of them is scheduled, energies, virials and
    forces (summed over the copies of each atom) add up to those of the serial evaluation with the CPU pair style on undivided atoms *)
Theorem C61_no_mpi_kokkos_serial : forall sph, sph_ok (N:=RNum) sph -> forall junk srt, (forall l, Permutation l (srt l)) ->
  forall f, file_ok f -> kk_file_ok f -> forall arg types, NoDup (f_atomic_numbers f) ->
  coeff_types (f_atomic_numbers f) arg = Some types -> (length types <= length (f_atomic_numbers f))%nat -> forall rc,
  exists km mt m b0, kk_load_from_json srt f = Some km /\ coeff_types_kk (f_atomic_numbers f) arg = Some mt /\
  load_from_json srt f = Some (m, b0) /\
  forall hist, Forall (input_ok f) hist -> exists bh, calls sph m b0 hist = Some bh /\
  forall t qs, kprocs_ok sph junk km f rc types mt t qs -> forall p a, acc_ok (d_L t) a ->
  exists b1 p1 a1, compute_no_domain_decomposition (N:=RNum) sph m rc types (d_fl t) (d_L t) bh p a = Some (b1, p1, a1) /\
    (exists os, kk_no_run sph junk km rc mt (d_fl t) qs os) /\
    forall os, kk_no_run sph junk km rc mt (d_fl t) qs os -> exists rs, os = map Some rs /\
      same_added (d_L t) (map (fun q => atom_tag (kq_l q)) qs) (map kq_a qs) (map snd rs) a a1 /\
      forall r q x, nth_error qs r = Some q -> nth_error rs r = Some x -> eflag_atom (d_fl t) = true -> ilist (kq_l q) = seq 0 (nlocal (kq_l q)) ->
        forall i j, (i < nlocal (kq_l q))%nat -> (j < nlocal (d_L t))%nat -> tag (kq_l q) i = tag (d_L t) j ->
        nth i (eatom (snd x)) 0 = nth i (eatom_before_no (kq_max q) (kq_st q)) 0 + nth (position j (ilist (d_L t))) (b_node_energies b1) 0.
Proof. exact lemma_C61_serial. Qed.
Print Assumptions C61_no_mpi_kokkos_serial.

(** three atoms on two processes, each of which has been called before; process 1 lists its atoms in the order 1, 0 in the second call *)
Example C61_example : forall p a, acc_ok (N:=RNum) px a -> exists km m b0 s0 a0 s1 a1 b1 p1 ac rs,
  kk_load_from_json (fun l => l) ex_file = Some km /\ load_from_json (N:=RNum) (fun l => l) ex_file = Some (m, b0) /\
  kk_no_mpi ex_sph (fun _ _ => 7) km px_rc [1; 0]%Z 4 px_ev (DistExamples.lift dx_0) kpm_fresh (dx_acc 12) (Some (s0, a0)) /\
  kk_no_mpi ex_sph (fun _ _ => 7) km px_rc [1; 0]%Z 2 px_ev (DistExamples.lift dx_1) kpm_fresh (dx_acc 9) (Some (s1, a1)) /\
  compute_no_domain_decomposition (N:=RNum) ex_sph m px_rc px_types px_ev px b0 p a = Some (b1, p1, ac) /\
  kk_no_run ex_sph (fun _ _ => 7) km px_rc [1; 0]%Z px_ev [mkKProc (DistExamples.lift dx_0) (dx_acc 12) 5 s0; mkKProc (DistExamples.lift dx_1r) (dx_acc 9) 3 s1] (map Some rs) /\
  same_added px [atom_tag dx_0; atom_tag dx_1r] [dx_acc 12; dx_acc 9] (map snd rs) a ac.
Proof.
  intros p a Ha.
  destruct (C61_no_mpi_kokkos_serial ex_sph ex_sph_ok (fun _ _ => 7) (fun l => l) (fun l => Permutation_refl l) ex_file ex_file_ok
    ex_kk_file_ok kp_arg px_types kp_nodup kp_types (le_n _) px_rc) as (km & mt & m & b0 & E1 & E2 & E3 & H).
  destruct (C61_no_mpi_kokkos ex_sph ex_sph_ok (fun _ _ => 7) (fun l => l) (fun l => Permutation_refl l) ex_file ex_file_ok
    ex_kk_file_ok kp_arg px_types kp_nodup kp_types (le_n _) px_rc) as (km' & mt' & m' & b0' & E1' & E2' & E3' & G).
  rewrite E1 in E1'. injection E1' as <-. rewrite E2 in E2'. injection E2' as <-. rewrite E3 in E3'. injection E3' as <- <-.
  destruct (H [] (Forall_nil _)) as (bh & E4 & HH). injection E4 as <-. clear H.
  assert (mt = [1; 0]%Z) as -> by (vm_compute in E2; congruence).
  pose proof (step_call ex_file px_types (le_n _) px_rc 2 dx_step 0 (DistExamples.lift dx_0) (dx_acc 12) 4 dx_no_step eq_refl eq_refl ltac:(cbn; lia)) as OK0.
  pose proof (step_call ex_file px_types (le_n _) px_rc 2 dx_step 1 (DistExamples.lift dx_1) (dx_acc 9) 2 dx_no_step eq_refl eq_refl ltac:(cbn; lia)) as OK1.
  destruct (G b0 (cn_new _ _ _ _ _ _) kpm_fresh (kn_new _ _ _ _ _ _ _) _ _ _ _ OK0 p) as (? & ? & ? & ? & (o0 & A2) & A3). destruct (A3 o0 A2) as (s0 & a0 & -> & _).
  destruct (G b0 (cn_new _ _ _ _ _ _) kpm_fresh (kn_new _ _ _ _ _ _ _) _ _ _ _ OK1 p) as (? & ? & ? & ? & (o1 & B2) & B3). destruct (B3 o1 B2) as (s1 & a1 & -> & _).
  destruct (HH dx_step_r [mkKProc (DistExamples.lift dx_0) (dx_acc 12) 5 s0; mkKProc (DistExamples.lift dx_1r) (dx_acc 9) 3 s1]) with (p := p) (a := a) as (b1 & p1 & ac & C1 & (os & C2) & C3); [|exact Ha|].
  { constructor; [exact dx_no_step_r|reflexivity|reflexivity| |].
    - intros q [<-|[<-|[]]]; cbn [kq_st]; [exact (kn_call _ _ _ _ _ _ _ _ _ _ _ _ s0 a0 (kn_new _ _ _ _ _ _ _) OK0 A2)|exact (kn_call _ _ _ _ _ _ _ _ _ _ _ _ s1 a1 (kn_new _ _ _ _ _ _ _) OK1 B2)].
    - intros q [<-|[<-|[]]]; cbn; lia. }
  destruct (C3 os C2) as (rs & -> & C4 & _). exists km, m, b0, s0, a0, s1, a1, b1, p1, ac, rs. repeat (split; [assumption|]). exact C4.
Qed.
