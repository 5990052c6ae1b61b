(** Property theorems for the Kokkos pair style in mode mpi_message_passing: C62 (same results as the CPU pair style; together the processes
    add what the serial evaluation adds).
    Model: KkPairMpi2Model.v.  Vocabulary: KkPairMpi2Spec.v, KkPairSpec.v, DistSpec.v, PairSpec.v, MaceSpec.v, KkSpec.v.
    [kk_mpi_run ... qs o]: [o] is one of the possible outcomes of compute, called on all processes [qs] with their objects and accumulators. *)
From Coq Require Import String List Arith ZArith Reals Permutation Lia Lra.
From Verif Require Import Base Instances MaceModel MaceSpec MaceExamples PairModel PairMpiModel PairKokkosModel PairSpec PairExamples DistSpec DistExamples.
From Verif Require Import KkSem KkModel KkSpec KkExamples KkPairModel KkPairSpec KkPairExamples KkPairMpi2Model KkPairMpi2Spec KkMpiThms.
Import ListNotations.
Local Open Scope R_scope.

(** ** C62: whatever the objects of the processes have computed before, however each of them is scheduled, and whether messages go through
    the host or stay on the device: every process gets the energy, virial and forces (also those on ghost atoms) of the CPU pair style, and
    the energy of atom [i] is added to entry [i] of k_eatom *)
Theorem C62_mpi_kokkos : forall sph, sph_ok (N:=RNum) sph -> forall junk srt, (forall l, Permutation l (srt l)) ->
  forall f, file_ok f -> kk_file_ok f -> forall arg types, NoDup (f_atomic_numbers f) ->
  coeff_types (f_atomic_numbers f) arg = Some types -> (length types <= length (f_atomic_numbers f))%nat -> forall rc host,
  exists km mt m b0, kk_load_from_json srt f = Some km /\ coeff_types_kk (f_atomic_numbers f) arg = Some mt /\
  load_from_json srt f = Some (m, b0) /\
  forall t qs, kd_reach sph junk km f rc types mt host (map kd_st qs) -> kd_ok f rc types t qs ->
  forall ts pbs, Forall (mpi_step_ok f rc types (length qs)) ts -> length pbs = length qs ->
  exists st cs, mpi_steps sph m rc types ts (map (fun pb => (b0, pb)) pbs) = Some st /\
    mpi_run (N:=RNum) sph m rc types (d_fl t) (d_msgs t) (procs t st) = Some cs /\ length cs = length qs /\
    (exists o, kk_mpi_run sph junk km rc mt (d_fl t) (d_msgs t) host qs o) /\
    forall o, kk_mpi_run sph junk km rc mt (d_fl t) (d_msgs t) host qs o -> exists rs, o = Some rs /\ length rs = length qs /\
      forall r q x c, nth_error qs r = Some q -> nth_error rs r = Some x -> nth_error cs r = Some c ->
        eng_vdwl (snd x) = eng_vdwl (pr_a c) /\ virial (snd x) = virial (pr_a c) /\ force (snd x) = force (pr_a c) /\
        (eflag_atom (d_fl t) = true -> eatom_added (nlocal (kd_l q)) (ilist (kd_l q)) (b_node_energies (pr_b c)) (eatom_before_mpi (kd_max q) (kd_st q)) (eatom (snd x))).
Proof. exact lemma_C62. Qed.
Print Assumptions C62_mpi_kokkos.

(** ** Together the processes add what the CPU pair style adds in the serial evaluation of the undivided system *)
Theorem C62_mpi_kokkos_serial : forall sph, sph_ok (N:=RNum) sph -> forall junk srt, (forall l, Permutation l (srt l)) ->
  forall f, file_ok f -> kk_file_ok f -> forall arg types, NoDup (f_atomic_numbers f) ->
  coeff_types (f_atomic_numbers f) arg = Some types -> (length types <= length (f_atomic_numbers f))%nat -> forall rc host,
  exists km mt m b0, kk_load_from_json srt f = Some km /\ coeff_types_kk (f_atomic_numbers f) arg = Some mt /\
  load_from_json srt f = Some (m, b0) /\
  forall hist, Forall (input_ok f) hist -> exists bh, calls sph m b0 hist = Some bh /\
  forall t qs, kd_reach sph junk km f rc types mt host (map kd_st qs) -> kd_ok f rc types t qs -> forall p a, acc_ok (d_L t) a ->
  exists b1 p1 a1, compute_no_domain_decomposition (N:=RNum) sph m rc types (d_fl t) (d_L t) bh p a = Some (b1, p1, a1) /\
    (exists o, kk_mpi_run sph junk km rc mt (d_fl t) (d_msgs t) host qs o) /\
    forall o, kk_mpi_run sph junk km rc mt (d_fl t) (d_msgs t) host qs o -> exists rs, o = Some rs /\
      same_added (d_L t) (map (fun q => atom_tag (kd_l q)) qs) (map kd_a qs) (map snd rs) a a1 /\
      forall r q x, nth_error qs r = Some q -> nth_error rs r = Some x -> eflag_atom (d_fl t) = true ->
        forall i j, (i < nlocal (kd_l q))%nat -> (j < nlocal (d_L t))%nat -> tag (kd_l q) i = tag (d_L t) j ->
        nth i (eatom (snd x)) 0 = nth i (eatom_before_mpi (kd_max q) (kd_st q)) 0 + nth (position j (ilist (d_L t))) (b_node_energies b1) 0.
Proof. exact lemma_C62_serial. Qed.
Print Assumptions C62_mpi_kokkos_serial.

(** three atoms on two processes; the second of two calls, with communication on the device.  In the first call H1 of the pair style and
    mace->H1 become the same storage *)
Example C62_example : forall p a, acc_ok (N:=RNum) px a -> exists km m b0 rs0 b1 p1 ac rs,
  kk_load_from_json (fun l => l) ex_file = Some km /\ load_from_json (N:=RNum) (fun l => l) ex_file = Some (m, b0) /\
  kk_mpi_run ex_sph (fun _ _ => 7) km px_rc [1; 0]%Z px_ev dx_msgs false
    [mkKD (DistExamples.lift dx_0) (dx_acc 12) 4 kpd_fresh; mkKD (DistExamples.lift dx_1) (dx_acc 9) 2 kpd_fresh] (Some rs0) /\
  length rs0 = 2%nat /\
  compute_no_domain_decomposition (N:=RNum) ex_sph m px_rc px_types px_ev px b0 p a = Some (b1, p1, ac) /\
  kk_mpi_run ex_sph (fun _ _ => 7) km px_rc [1; 0]%Z px_ev dx_msgs false
    (map (fun '(q, x) => mkKD (fst q) (snd q) 5 (fst x)) (combine [(DistExamples.lift dx_0, dx_acc 12); (DistExamples.lift dx_1, dx_acc 9)] rs0)) (Some rs) /\
  same_added px [atom_tag dx_0; atom_tag dx_1] [dx_acc 12; dx_acc 9] (map snd rs) a ac.
Proof.
  intros p a Ha.
  destruct (C62_mpi_kokkos_serial ex_sph ex_sph_ok (fun _ _ => 7) (fun l => l) (fun l => Permutation_refl l) ex_file ex_file_ok
    ex_kk_file_ok kp_arg px_types kp_nodup kp_types (le_n _) px_rc false) as (km & mt & m & b0 & E1 & E2 & E3 & H).
  destruct (C62_mpi_kokkos ex_sph ex_sph_ok (fun _ _ => 7) (fun l => l) (fun l => Permutation_refl l) ex_file ex_file_ok
    ex_kk_file_ok kp_arg px_types kp_nodup kp_types (le_n _) px_rc false) as (km' & mt' & m' & b0' & E1' & E2' & E3' & G).
  rewrite E1 in E1'. injection E1' as <-. rewrite E2 in E2'. injection E2' as <-. rewrite E3 in E3'. injection E3' as <- <-.
  destruct (H [] (Forall_nil _)) as (bh & E4 & HH). injection E4 as <-. clear H.
  assert (mt = [1; 0]%Z) as -> by (vm_compute in E2; congruence).
  set (qs0 := [mkKD (N:=RNum) (DistExamples.lift dx_0) (dx_acc 12) 4 kpd_fresh; mkKD (DistExamples.lift dx_1) (dx_acc 9) 2 kpd_fresh]).
  assert (OK0 : kd_ok ex_file px_rc px_types dx_step qs0).
  { constructor; [exact dx_mpi_step|reflexivity|reflexivity|]. intros q [<-|[<-|[]]]; cbn; lia. }
  assert (R0 : kd_reach ex_sph (fun _ _ => 7) km ex_file px_rc px_types [1; 0]%Z false (map kd_st qs0)) by exact (kd_new _ _ _ _ _ _ _ _ 2).
  destruct (G dx_step qs0 R0 OK0 [] [p; p] (Forall_nil _) eq_refl) as (st & cs & _ & _ & _ & (o0 & A2) & A3). destruct (A3 o0 A2) as (rs0 & -> & A4 & _).
  destruct rs0 as [|x0 [|x1 [|? ?]]]; try discriminate A4.
  set (qs1 := [mkKD (N:=RNum) (DistExamples.lift dx_0) (dx_acc 12) 5 (fst x0); mkKD (DistExamples.lift dx_1) (dx_acc 9) 5 (fst x1)]).
  assert (OK1 : kd_ok ex_file px_rc px_types dx_step qs1).
  { constructor; [exact dx_mpi_step|reflexivity|reflexivity|]. intros q [<-|[<-|[]]]; cbn; lia. }
  assert (R1 : kd_reach ex_sph (fun _ _ => 7) km ex_file px_rc px_types [1; 0]%Z false (map kd_st qs1)) by exact (kd_call _ _ _ _ _ _ _ _ dx_step qs0 [x0; x1] R0 OK0 A2).
  destruct (HH dx_step qs1 R1 OK1 p a Ha) as (b1 & p1 & ac & C1 & (o & C2) & C3). destruct (C3 o C2) as (rs & -> & C4 & _).
  exists km, m, b0, [x0; x1], b1, p1, ac, rs. split; [exact E1|]. split; [exact E3|]. split; [exact A2|]. split; [reflexivity|]. split; [exact C1|]. split; [exact C2|exact C4].
Qed.
