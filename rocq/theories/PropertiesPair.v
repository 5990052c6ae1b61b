(** Property theorems about the LAMMPS pair styles: C03 (forces), C37 (momentum), C38 (virial), C40 (pair_coeff),
    C41 (pair_style), C42 (communication), C43 (per-atom energies).
    Models: PairModel.v, PairMpiModel.v, PairKokkosModel.v.  Vocabulary: PairSpec.v, PairCommSpec.v, PairCoeffSpec.v,
    MaceSpec.v, MaceGradSpec.v. *)
From Coq Require Import String List Arith ZArith Reals Permutation Lia Lra.
From Verif Require Import Base BaseLemmas Instances MaceModel MaceSpec MaceSpec2 MaceGradSpec MaceExamples GradExamples AseSpec
  PairModel PairMpiModel PairKokkosModel PairSpec PairCommSpec PairCoeffSpec PairMomentum PairGrad PairComm PairKokkosComm
  PairCoeff PairEatom PairExamples.
Import ListNotations.
Local Open Scope R_scope.

(** ** C03: with no_domain_decomposition, what is added to the force on a local atom is minus the derivative of what is added
    to the energy with respect to the position of the atom, all its images moving along, for a fixed neighbour list *)
Theorem C03_pair_forces : forall sph, sph_ok (N:=RNum) sph -> sph_gradient sph -> forall srt, (forall l, Permutation l (srt l)) ->
  forall f, file_ok f -> smooth_ok f -> forall (l : lmp RNum) (rc : R) types, lmp_ok (length types) (ilist l) l ->
  forall owner, owner_ok owner l -> forall hist fl p a sh pos, Forall (input_ok f) hist ->
  vflag_atom fl = false -> eflag_global fl = true -> acc_ok l a -> length pos = (3 * nlocal l)%nat ->
  atom_x l = images (nlocal l + nghost l) owner sh pos -> off_cutoff l rc ->
  smooth_at f (nd_input types rc owner l) (i_xyz (nd_input types rc owner l)) ->
  exists m b0 bh b1 p1 a1, load_from_json srt f = Some (m, b0) /\ calls sph m b0 hist = Some bh /\
    compute_no_domain_decomposition sph m rc types fl l bh p a = Some (b1, p1, a1) /\
    length (force a1) = length (force a) /\
    (forall q, (3 * nlocal l <= q)%nat -> nth q (force a1) 0 = nth q (force a) 0) /\
    forall q, (q < 3 * nlocal l)%nat -> exists E del, 0 < del /\
      (forall u, Rabs (u - nth q pos 0) < del -> exists b p' a',
         compute_no_domain_decomposition sph m rc types fl (at_x l (images (nlocal l + nghost l) owner sh (upd pos q u))) bh p a = Some (b, p', a') /\
         E u = eng_vdwl a' - eng_vdwl a) /\
      derivable_pt_lim E (nth q pos 0) (- (nth q (force a1) 0 - nth q (force a) 0)).
Proof. exact nd_forces. Qed.
Print Assumptions C03_pair_forces.

Example C03_example : forall p, exists m b0 bh b1 p1 a1, load_from_json (fun l => l) ex_file = Some (m, b0) /\
    calls ex_sph m b0 [px_in] = Some bh /\
    compute_no_domain_decomposition ex_sph m px_rc px_types px_ev px bh p px_acc = Some (b1, p1, a1) /\
    length (force a1) = 18%nat /\ (forall q, (9 <= q)%nat -> nth q (force a1) 0 = nth q (force px_acc) 0) /\
    forall q, (q < 9)%nat -> exists E del, 0 < del /\
      (forall u, Rabs (u - nth q px_pos 0) < del -> exists b p' a',
         compute_no_domain_decomposition ex_sph m px_rc px_types px_ev (at_x px (images 6 px_owner px_sh (upd px_pos q u))) bh p px_acc = Some (b, p', a') /\
         E u = eng_vdwl a' - eng_vdwl px_acc) /\
      derivable_pt_lim E (nth q px_pos 0) (- (nth q (force a1) 0 - nth q (force px_acc) 0)).
Proof.
  intros p. exact (C03_pair_forces ex_sph ex_sph_ok ex_sph_gradient (fun l => l) (fun l => Permutation_refl l) ex_file ex_file_ok ex_smooth px px_rc px_types px_lok
    px_owner px_own [px_in] px_ev p px_acc px_sh px_pos (Forall_cons _ px_in_ok (Forall_nil _)) eq_refl eq_refl px_acc_ok eq_refl eq_refl px_off px_smooth_at).
Qed.

(** ** C37, LAMMPS: whatever the model, the neighbour list and the contents of the buffers, a call that returns leaves the
    sum of the forces on all atoms, local and ghost, unchanged; in all three modes *)
Theorem C37_pair_momentum : forall (a : accum RNum) n, length (force a) = (3 * n)%nat ->
  (forall sph m rc types fl l b p b' p' a', compute_no_domain_decomposition sph m rc types fl l b p a = Some (b', p', a') ->
     length (force a') = (3 * n)%nat /\ forall c, (c < 3)%nat -> force_sum n (force a') c = force_sum n (force a) c) /\
  (forall m fl k b p b' p' a', mpi_end m fl k b p a = Some (b', p', a') ->
     length (force a') = (3 * n)%nat /\ forall c, (c < 3)%nat -> force_sum n (force a') c = force_sum n (force a) c) /\
  (forall sph m rc types fl l b p b' p' a', compute_no_mpi_message_passing sph m rc types fl l b p a = Some (b', p', a') ->
     length (force a') = (3 * n)%nat /\ forall c, (c < 3)%nat -> force_sum n (force a') c = force_sum n (force a) c).
Proof. exact pair_momentum. Qed.
Print Assumptions C37_pair_momentum.

Example C37_pair_example : forall p, exists m b0 b1 p1 a1, load_from_json (fun l => l) ex_file = Some (m, b0) /\
    compute_no_domain_decomposition ex_sph m px_rc px_types px_ev px b0 p px_acc = Some (b1, p1, a1) /\
    0 + nth 0 (force a1) 0 + nth 3 (force a1) 0 + nth 6 (force a1) 0 + nth 9 (force a1) 0 + nth 12 (force a1) 0 + nth 15 (force a1) 0 = 18.
Proof.
  intros p. destruct (C03_pair_forces ex_sph ex_sph_ok ex_sph_gradient (fun l => l) (fun l => Permutation_refl l) ex_file ex_file_ok ex_smooth px px_rc px_types px_lok
    px_owner px_own [] px_ev p px_acc px_sh px_pos (Forall_nil _) eq_refl eq_refl px_acc_ok eq_refl eq_refl px_off px_smooth_at)
    as (m & b0 & bh & b1 & p1 & a1 & Q1 & Q2 & Q3 & _). injection Q2 as <-.
  exists m, b0, b1, p1, a1. split; [exact Q1|]. split; [exact Q3|].
  destruct (C37_pair_momentum px_acc 6 eq_refl) as [H _]. destruct (H _ _ _ _ _ _ _ _ _ _ _ Q3) as [_ H2].
  etransitivity; [exact (H2 0%nat ltac:(lia))|]. cbn [force_sum px_acc force Nat.mul Nat.add nth repeat]. ring.
Qed.

(** ** C38, LAMMPS: for every symmetric strain [e] of the positions, the derivative of what is added to the energy is minus the
    contraction of [e] with what is added to the virial (order xx, yy, zz, xy, xz, yz) *)
Theorem C38_pair_virial : forall sph, sph_ok (N:=RNum) sph -> sph_gradient sph -> forall srt, (forall l, Permutation l (srt l)) ->
  forall f, file_ok f -> smooth_ok f -> forall (l : lmp RNum) (rc : R) types, lmp_ok (length types) (ilist l) l ->
  forall owner, owner_ok owner l -> forall hist fl p a e, Forall (input_ok f) hist ->
  vflag_atom fl = false -> eflag_global fl = true -> vflag_global fl = true -> acc_ok l a ->
  (forall i c, e i c = e c i) -> off_cutoff l rc ->
  smooth_at f (nd_input types rc owner l) (i_xyz (nd_input types rc owner l)) ->
  exists m b0 bh b1 p1 a1 E del, load_from_json srt f = Some (m, b0) /\ calls sph m b0 hist = Some bh /\
    compute_no_domain_decomposition sph m rc types fl l bh p a = Some (b1, p1, a1) /\ length (virial a1) = 6%nat /\ 0 < del /\
    (forall t, Rabs t < del -> exists b p' a', compute_no_domain_decomposition sph m rc types fl (at_x l (strain e t (atom_x l))) bh p a = Some (b, p', a') /\
       E t = eng_vdwl a' - eng_vdwl a) /\
    let v k := nth k (virial a1) 0 - nth k (virial a) 0 in
    derivable_pt_lim E 0 (- (v 0%nat * e 0%nat 0%nat + v 1%nat * e 1%nat 1%nat + v 2%nat * e 2%nat 2%nat
                               + 2 * (v 3%nat * e 0%nat 1%nat) + 2 * (v 4%nat * e 0%nat 2%nat) + 2 * (v 5%nat * e 1%nat 2%nat))).
Proof. exact nd_strain. Qed.
Print Assumptions C38_pair_virial.

(** a shear in the plane xy *)
Example C38_pair_example : forall p, exists m b0 bh b1 p1 a1 E del, load_from_json (fun l => l) ex_file = Some (m, b0) /\
    calls ex_sph m b0 [px_in] = Some bh /\
    compute_no_domain_decomposition ex_sph m px_rc px_types px_ev px bh p px_acc = Some (b1, p1, a1) /\ length (virial a1) = 6%nat /\ 0 < del /\
    let e i c := nth c (nth i [[0; 1; 0]; [1; 0; 0]; [0; 0; 0]] []) 0 in
    (forall t, Rabs t < del -> exists b p' a', compute_no_domain_decomposition ex_sph m px_rc px_types px_ev (at_x px (strain e t (atom_x px))) bh p px_acc = Some (b, p', a') /\
       E t = eng_vdwl a' - eng_vdwl px_acc) /\
    derivable_pt_lim E 0 (- (2 * (nth 3 (virial a1) 0 - nth 3 (virial px_acc) 0))).
Proof.
  intros p. destruct (C38_pair_virial ex_sph ex_sph_ok ex_sph_gradient (fun l => l) (fun l => Permutation_refl l) ex_file ex_file_ok ex_smooth px px_rc px_types px_lok
    px_owner px_own [px_in] px_ev p px_acc (fun i c => nth c (nth i [[0; 1; 0]; [1; 0; 0]; [0; 0; 0]] []) 0) (Forall_cons _ px_in_ok (Forall_nil _)) eq_refl eq_refl eq_refl px_acc_ok)
    as (m & b0 & bh & b1 & p1 & a1 & E & del & Q1 & Q2 & Q3 & Q4 & Q5 & Q6 & Q7).
  - intros i c. destruct i as [|[|[|i]]], c as [|[|[|c]]]; cbn; try reflexivity; try (destruct i; reflexivity); try (destruct c; reflexivity). destruct i, c; reflexivity.
  - exact px_off.
  - exact px_smooth_at.
  - exists m, b0, bh, b1, p1, a1, E, del. split; [exact Q1|]. split; [exact Q2|]. split; [exact Q3|]. split; [exact Q4|]. split; [exact Q5|]. cbv zeta. split; [exact Q6|].
    cbv zeta in Q7. cbn [nth] in Q7. match type of Q7 with derivable_pt_lim _ _ ?v => match goal with |- derivable_pt_lim _ _ ?w => replace w with v; [exact Q7|] end end. ring.
Qed.

(** ** C40: pair_coeff.  The t-th symbol names an element of the model, and that element is the species of LAMMPS type t *)
Theorem C40_pair_coeff : forall Zs arg,
  (forall types, coeff_types Zs arg = Some types -> length types = (length arg - 3)%nat /\
     forall t k, nth_error types t = Some k -> exists s z, nth_error arg (3 + t) = Some s /\ element s z /\ nth_error Zs k = Some z) /\
  (coeff_types Zs arg = None <-> exists s, In s (skipn 3 arg) /\ ~ exists z, element s z /\ In z Zs).
Proof. intros Zs arg. split; [exact (coeff_ok Zs arg)|exact (coeff_reject Zs arg)]. Qed.
Print Assumptions C40_pair_coeff.

(** no symbol stands for two elements *)
Theorem C40_symbols : forall s z z', element s z -> element s z' -> z = z'.
Proof. exact element_fun. Qed.
Print Assumptions C40_symbols.

Example C40_example : coeff_types [1; 6; 8]%nat ["*"; "*"; "model.json"; "O"; "H"; "O"]%string = Some [2; 0; 2]%nat /\
  element "O"%string 8%nat /\ element "H"%string 1%nat /\ coeff_types [1; 6; 8]%nat ["*"; "*"; "model.json"; "O"; "Oo"]%string = None /\
  coeff_types [1; 6; 8]%nat ["*"; "*"; "model.json"; "O"; "N"]%string = None.
Proof. repeat split; try (vm_compute; reflexivity); apply numbered_elements; vm_compute; tauto. Qed.

(** the atoms are evaluated as these elements: the evaluator is called for the system [nd_input], whose species are [spec_of] *)
Theorem C40_types_used : forall (N : Num) Zs arg types (l : lmp N) owner, coeff_types Zs arg = Some types ->
  lmp_ok (length types) (ilist l) l -> owner_ok owner l ->
  (forall i, (i < nlocal l + nghost l)%nat -> exists s z, nth_error arg (2 + nth i (atom_type l) 0%nat) = Some s /\ element s z /\
     nth_error Zs (spec_of types l i) = Some z) /\
  (forall sph m rc fl b p a b1 p1 a1, compute_no_domain_decomposition sph m rc types fl l b p a = Some (b1, p1, a1) ->
     call sph m b (nd_input types rc owner l) = Some b1).
Proof. intros N Zs arg types l owner C L O. split; [intros i; exact (spec_element Zs arg types l i C L)|intros; eapply nd_used; eauto]. Qed.
Print Assumptions C40_types_used.

Example C40_used_example : coeff_types [1; 8]%nat ["*"; "*"; "model.json"; "O"; "H"]%string = Some px_types /\
  lmp_ok (length px_types) (ilist px) px /\ owner_ok px_owner px /\ map (spec_of px_types px) [0; 1; 4]%nat = [0; 1; 0]%nat.
Proof. split; [vm_compute; reflexivity|]. split; [exact px_lok|]. split; [exact px_own|reflexivity]. Qed.

(** The Kokkos style agrees when every symbol is an element of the model, no element appears twice in the model, and there are
    no more LAMMPS types than elements in the model *)
Theorem C40_kokkos_coeff_partial : forall Zs arg types, NoDup Zs -> coeff_types Zs arg = Some types -> (length types <= length Zs)%nat ->
  coeff_types_kk Zs arg = Some (map Z.of_nat types ++ repeat 0%Z (length Zs - length types)).
Proof. exact coeff_kk_ok. Qed.
Print Assumptions C40_kokkos_coeff_partial.

Example C40_kokkos_example : coeff_types_kk [1; 6; 8]%nat ["*"; "*"; "model.json"; "O"; "H"]%string = Some [2; 0; 0]%Z /\ NoDup [1; 6; 8]%nat.
Proof. split; [vm_compute; reflexivity|]. repeat constructor; cbn; lia. Qed.

(** The Kokkos style does not reject an element that is absent from the model: the species of the type becomes -1.  With more
    types than elements in the model it writes outside of the array *)
Theorem C40_kokkos_coeff_refuted : element "He"%string 2%nat /\ element "H"%string 1%nat /\
  coeff_types [1; 8]%nat ["*"; "*"; "model.json"; "He"]%string = None /\
  coeff_types_kk [1; 8]%nat ["*"; "*"; "model.json"; "He"]%string = Some [-1; 0]%Z /\
  coeff_types [1; 8]%nat ["*"; "*"; "model.json"; "H"; "O"; "H"]%string = Some [0; 1; 0]%nat /\
  coeff_types_kk [1; 8]%nat ["*"; "*"; "model.json"; "H"; "O"; "H"]%string = None.
Proof. repeat split; try (vm_compute; reflexivity); apply numbered_elements; vm_compute; tauto. Qed.
Print Assumptions C40_kokkos_coeff_refuted.

(** ** C41: pair_style, both styles *)
Theorem C41_pair_style : forall nprocs arg mode,
  (settings nprocs arg = Some mode <->
    (arg = [] /\ mode = (if (nprocs =? 1)%nat then "no_domain_decomposition"%string else "mpi_message_passing"%string)) \/
    (arg = [mode] /\ In mode ["no_domain_decomposition"; "mpi_message_passing"; "no_mpi_message_passing"]%string /\
     (mode = "no_domain_decomposition"%string -> nprocs = 1%nat))) /\
  (settings_kk nprocs arg = Some mode <->
    (arg = [] /\ mode = (if (nprocs =? 1)%nat then "no_domain_decomposition"%string else "mpi_message_passing"%string)) \/
    (arg = [mode] /\ In mode ["no_domain_decomposition"; "mpi_message_passing"; "no_mpi_message_passing"]%string /\
     (mode = "no_domain_decomposition"%string -> nprocs = 1%nat))).
Proof. intros. split; exact (settings_ok nprocs arg mode). Qed.
Print Assumptions C41_pair_style.

Example C41_example : settings 4%nat [] = Some "mpi_message_passing"%string /\ settings 1%nat [] = Some "no_domain_decomposition"%string /\
  settings 4%nat ["no_mpi_message_passing"%string] = Some "no_mpi_message_passing"%string /\
  settings 4%nat ["no_domain_decomposition"%string] = None /\ settings 4%nat ["mpi"%string] = None /\
  settings 1%nat ["mpi_message_passing"; "verbose"]%string = None.
Proof. repeat split; vm_compute; reflexivity. Qed.

(** ** C42: communication of ghosts.  Forward: every atom has the features of the local atom behind it, local atoms keep theirs *)
Theorem C42_forward : forall (N : Num) W (d : N) size own nloc gs hs, comm_ok nloc size own gs -> arrays_ok W size hs ->
  exists hs', forward_comm W gs hs = Some hs' /\ arrays_ok W size hs' /\
    (forall z k, In z (atoms size) -> (k < W)%nat -> at_slot W d hs' z k = at_slot W d hs (own z) k) /\
    (forall z k, In z (locals nloc) -> (k < W)%nat -> at_slot W d hs' z k = at_slot W d hs z k).
Proof. exact @forward_ok. Qed.
Print Assumptions C42_forward.

(** Reverse: the adjoint of a local atom becomes the sum over all atoms behind which it stands, itself included *)
Theorem C42_reverse : forall W size own nloc gs (hs : list (list R)), comm_ok nloc size own gs -> arrays_ok W size hs ->
  exists hs', reverse_comm (N:=RNum) W gs hs = Some hs' /\ arrays_ok W size hs' /\
    forall o k, In o (locals nloc) -> (k < W)%nat -> at_slot W 0 hs' o k = total (map (fun z => at_slot W 0 hs z k) (owned size own o)).
Proof. exact reverse_ok. Qed.
Print Assumptions C42_reverse.

(** Two processes with one atom each; process 1 also holds an image of its own atom, which process 0 passes on *)
Definition cx_gs : list msg := [mkMsg 0 [0]%nat 1 1; mkMsg 1 [0]%nat 0 1; mkMsg 0 [1]%nat 1 2].
Definition cx_own (z : nat * nat) : nat * nat :=
  match z with (0, 1) => (1, 0) | (1, 1) => (0, 0) | (1, 2) => (1, 0) | _ => z end%nat.
Lemma cx_ok : comm_ok [1; 1]%nat [2; 3]%nat cx_own cx_gs.
Proof.
  constructor; cbn -[cx_own].
  - reflexivity.
  - intros [|[|r]] H; cbn; lia.
  - intros z [<-|[<-|[]]]; reflexivity.
  - intros z [<-|[<-|[<-|[<-|[<-|[]]]]]]; cbn; auto.
  - assert (K : forall (P : nat -> nat -> Prop) a, P 0%nat a -> forall k i, nth_error [a] k = Some i -> P k i) by (intros P a Ha [|[|k]] i H; try discriminate H; injection H as <-; exact Ha).
    split; [lia|]. split; [lia|]. split; [apply K; cbn; intuition (try lia; congruence)|].
    split; [lia|]. split; [lia|]. split; [apply K; cbn; intuition (try lia; congruence)|].
    split; [lia|]. split; [lia|]. split; [apply K; cbn; intuition (try lia; congruence)|exact I].
  - intros z [<-|[<-|[<-|[<-|[<-|[]]]]]]; auto; right.
    + exists (mkMsg 1 [0]%nat 0 1). cbn. auto.
    + exists (mkMsg 0 [0]%nat 1 1). cbn. auto.
    + exists (mkMsg 0 [1]%nat 1 2). cbn. auto.
Qed.
Example C42_example : comm_ok [1; 1]%nat [2; 3]%nat cx_own cx_gs /\
  arrays_ok 2 [2; 3]%nat [[1; 2; 0; 0]; [3; 4; 0; 0; 0; 0]]%nat /\
  owned [2; 3]%nat cx_own (1, 0)%nat = [(0, 1); (1, 0); (1, 2)]%nat.
Proof.
  split; [exact cx_ok|]. split; [|reflexivity]. split; [reflexivity|]. intros [|[|r]] H; cbn in *; lia.
Qed.

(** The functions of the Kokkos style that run on the device do the same, in whatever order the iterations run *)
Theorem C42_kokkos_device : forall W size own nloc gs ords, comm_ok nloc size own gs -> ords_ok W gs ords ->
  (forall (N : Num) (d : N) hs, arrays_ok W size hs -> exists hs', forward_comm_kk ords W gs hs = Some hs' /\ arrays_ok W size hs' /\
    (forall z k, In z (atoms size) -> (k < W)%nat -> at_slot W d hs' z k = at_slot W d hs (own z) k) /\
    (forall z k, In z (locals nloc) -> (k < W)%nat -> at_slot W d hs' z k = at_slot W d hs z k)) /\
  (forall hs : list (list R), arrays_ok W size hs -> exists hs', reverse_comm_kk (N:=RNum) ords W gs hs = Some hs' /\ arrays_ok W size hs' /\
    forall o k, In o (locals nloc) -> (k < W)%nat -> at_slot W 0 hs' o k = total (map (fun z => at_slot W 0 hs z k) (owned size own o))).
Proof.
  intros W size own nloc gs ords C O. split.
  - intros N d hs A. rewrite forward_kk by exact O. exact (forward_ok W d size own nloc gs hs C A).
  - intros hs A. rewrite reverse_kk by exact O. exact (reverse_ok W size own nloc gs hs C A).
Qed.
Print Assumptions C42_kokkos_device.

Example C42_device_example : ords_ok 2 cx_gs (fun _ => ([(0, 1); (0, 0)]%nat, [(0, 0); (0, 1)]%nat)).
Proof. intros g [<-|[<-|[<-|[]]]]; cbn; split; solve [apply perm_swap|apply Permutation_refl]. Qed.

(** Through the host, when the host can access the views *)
Theorem C42_kokkos_host_partial : forall W size own nloc gs, comm_ok nloc size own gs ->
  (forall (N : Num) (d : N) hs, arrays_ok W size hs -> exists hs', forward_comm_host true W gs hs = Some hs' /\ arrays_ok W size hs' /\
    (forall z k, In z (atoms size) -> (k < W)%nat -> at_slot W d hs' z k = at_slot W d hs (own z) k) /\
    (forall z k, In z (locals nloc) -> (k < W)%nat -> at_slot W d hs' z k = at_slot W d hs z k)) /\
  (forall hs : list (list R), arrays_ok W size hs -> exists hs', reverse_comm_host (N:=RNum) true W gs hs = Some hs' /\ arrays_ok W size hs' /\
    forall o k, In o (locals nloc) -> (k < W)%nat -> at_slot W 0 hs' o k = total (map (fun z => at_slot W 0 hs z k) (owned size own o))).
Proof.
  intros W size own nloc gs C. split.
  - intros N d hs A. rewrite forward_host. exact (forward_ok W d size own nloc gs hs C A).
  - intros hs A. rewrite reverse_host. exact (reverse_ok W size own nloc gs hs C A).
Qed.
Print Assumptions C42_kokkos_host_partial.

(** When the views are in device memory, unpacking through the host replaces the features of the local atoms by zeros, and
    overwrites the adjoints of the local atoms instead of adding to them *)
Theorem C42_kokkos_host_refuted : exists size own nloc gs (hs : list (list R)), comm_ok nloc size own gs /\ arrays_ok 1 size hs /\
  (exists hs', forward_comm_host (N:=RNum) false 1 gs hs = Some hs' /\
     exists z, In z (locals nloc) /\ at_slot 1 0 hs' z 0 <> at_slot 1 0 hs z 0) /\
  (exists hs', reverse_comm_host (N:=RNum) false 1 gs hs = Some hs' /\
     exists o, In o (locals nloc) /\ at_slot 1 0 hs' o 0 <> total (map (fun z => at_slot 1 0 hs z 0) (owned size own o))).
Proof.
  exists [2; 3]%nat, cx_own, [1; 1]%nat, cx_gs, [[1; 2]; [3; 4; 5]]. split; [exact cx_ok|].
  split; [split; [reflexivity|intros [|[|r]] H; cbn in *; lia]|]. split.
  - eexists. split; [reflexivity|]. exists (1, 0)%nat. split; [cbn; auto|]. unfold at_slot. cbn. lra.
  - eexists. split; [reflexivity|]. exists (0, 0)%nat. split; [cbn; auto|]. unfold at_slot. cbn. lra.
Qed.
Print Assumptions C42_kokkos_host_refuted.

(** ** C43: when the list is in the order of the atoms and the per-atom energies start from zero, every local atom gets the
    energy of its node.  Missing: other orders of the list, for which the claim is false, see below *)
Theorem C43_eatom_partial :
  (forall sph (m : mace_model RNum) rc types l owner fl b p a b1 p1 a1, lmp_ok (length types) (ilist l) l -> owner_ok owner l -> eflag_atom fl = true ->
     ilist l = seq 0 (nlocal l) -> (forall i, (i < nlocal l)%nat -> nth i (eatom a) 0 = 0) ->
     compute_no_domain_decomposition sph m rc types fl l b p a = Some (b1, p1, a1) ->
     call sph m b (nd_input types rc owner l) = Some b1 /\ eatom_added (nlocal l) (ilist l) (b_node_energies b1) (eatom a) (eatom a1)) /\
  (forall (m : mace_model RNum) fl n b p a b1 p1 a1, eflag_atom fl = true -> (forall i, (i < n)%nat -> nth i (eatom a) 0 = 0) -> p_node_i p = seq 0 n ->
     mpi_end m fl n b p a = Some (b1, p1, a1) -> eatom_added n (p_node_i p) (b_node_energies b1) (eatom a) (eatom a1)).
Proof. split; [exact nd_eatom|exact mpi_eatom]. Qed.
Print Assumptions C43_eatom_partial.

(** the Kokkos style adds the energy of node [ii] to atom [ii] *)
Theorem C43_kokkos_eatom_partial : forall ord n (En ea : list R), Permutation ord (seq 0 n) -> (n <= length En)%nat -> (n <= length ea)%nat ->
  exists ea', extract_atomic_energies (N:=RNum) ord En ea = Some ea' /\ length ea' = length ea /\
    forall i, nth i ea' 0 = nth i ea 0 + (if (i <? n)%nat then nth i En 0 else 0).
Proof. exact extract_ok. Qed.
Print Assumptions C43_kokkos_eatom_partial.

(** two atoms of different species far from each other, listed in the order 1, 0: each gets the energy of the other *)
Theorem C43_eatom_refuted : lmp_ok 2 (ilist rx) rx /\ owner_ok (fun j => j) rx /\ exists (m : mace_model RNum) b b1 p1 a1,
  load_from_json (fun l => l) ex_file = Some (m, b) /\
  compute_no_domain_decomposition ex_sph m 8 [0; 1]%nat (mkEv true true true false) rx b rx_p rx_a = Some (b1, p1, a1) /\
  ~ eatom_added 2 (ilist rx) (b_node_energies b1) (eatom rx_a) (eatom a1).
Proof. split; [exact rx_ok|]. split; [exact rx_owner|exact rx_bad]. Qed.
Print Assumptions C43_eatom_refuted.

(** the same two atoms in the order 0, 1 *)
Example C43_example : lmp_ok 2 (ilist ry) ry /\ owner_ok (fun j => j) ry /\ ilist ry = seq 0 2 /\ exists (m : mace_model RNum) b b1 p1 a1,
  load_from_json (fun l => l) ex_file = Some (m, b) /\
  compute_no_domain_decomposition ex_sph m 8 [0; 1]%nat (mkEv true true true false) ry b rx_p rx_a = Some (b1, p1, a1) /\
  nth 1 (eatom a1) 0 = 0 + nth 1 (b_node_energies b1) 0.
Proof.
  split; [exact ry_ok|]. split; [exact ry_owner|]. split; [reflexivity|]. destruct ry_good as (m & b & b1 & p1 & a1 & H1 & H2).
  exists m, b, b1, p1, a1. split; [exact H1|]. split; [exact H2|].
  refine (proj2 (proj1 C43_eatom_partial ex_sph m 8 [0; 1]%nat ry (fun j => j) (mkEv true true true false) b rx_p rx_a b1 p1 a1 ry_ok ry_owner eq_refl eq_refl _ H2) 1%nat _).
  - intros [|[|i]] Hi; [reflexivity|reflexivity|cbn in Hi; lia].
  - cbn. lia.
Qed.
Example C43_kokkos_example : Permutation [1; 0]%nat (seq 0 2) /\
  extract_atomic_energies (N:=RNum) [1; 0]%nat [5; 7] [1; 2] = Some [1 + 5; 2 + 7].
Proof. split; [apply perm_swap|reflexivity]. Qed.
