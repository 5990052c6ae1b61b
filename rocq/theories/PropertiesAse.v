(** Property theorems about the ASE calculator: C02 (forces), C37 (momentum, ASE half), C38 (stress, ASE half),
    C44 (every atom is evaluated), C51 (structures without a cell).
    Model: AseModel.v.  Vocabulary: AseSpec.v, MaceSpec.v, MaceGradSpec.v. *)
From Coq Require Import List Arith ZArith QArith Reals Permutation Lia Lra.
From Verif Require Import Base BaseLemmas Instances MaceModel MaceSpec MaceSpec2 MaceGradSpec MaceExamples GradExamples
  AseModel AseSpec AseThms AseGrad AseExamples.
Import ListNotations.
Local Open Scope R_scope.

(** ** C02: component [p] of 'forces' is minus the derivative of 'energy' with respect to coordinate [p] of the atoms,
    for a fixed list of pairs and lattice translations *)
Theorem C02_ase_forces : forall sph, sph_ok (N:=RNum) sph -> sph_gradient sph -> forall srt, (forall l, Permutation l (srt l)) ->
  forall f, file_ok f -> smooth_ok f -> forall numbers types il jl, species_map (f_atomic_numbers f) numbers types ->
  nl_ok (length numbers) il jl -> il <> [] -> forall hist V pos sh, Forall (input_ok f) hist ->
  length pos = (3 * length numbers)%nat ->
  smooth_at f (nl_input (N:=RNum) (S (list_max il)) types il jl [] []) (nl_vectors il jl pos sh) ->
  exists m b0 bh b1 res, load_from_json srt f = Some (m, b0) /\ calls sph m b0 hist = Some bh /\
    calculate sph m bh numbers (Some V) il jl (lengths3 (nl_vectors il jl pos sh)) (nl_vectors il jl pos sh) = Some (b1, res) /\
    forall p, (p < length pos)%nat -> exists Fp E del, rd (res_forces res) p = Some Fp /\ 0 < del /\
      (forall u, Rabs (u - nth p pos 0) < del -> let D := nl_vectors il jl (upd pos p u) sh in
         exists b res', calculate sph m bh numbers (Some V) il jl (lengths3 D) D = Some (b, res') /\ E u = res_energy res') /\
      derivable_pt_lim E (nth p pos 0) (- Fp).
Proof. exact ase_forces. Qed.
Print Assumptions C02_ase_forces.

Example C02_example : exists m b0 bh b1 res, load_from_json (fun l => l) ex_file = Some (m, b0) /\
  calls ex_sph m b0 [with_xyz ex_xi ex_xs] = Some bh /\
    calculate ex_sph m bh ax_numbers (Some 2) ax_il ax_jl (lengths3 ax_D) ax_D = Some (b1, res) /\
    forall p, (p < 9)%nat -> exists Fp E del, rd (res_forces res) p = Some Fp /\ 0 < del /\
      (forall u, Rabs (u - nth p ax_pos 0) < del -> let D := nl_vectors ax_il ax_jl (upd ax_pos p u) ax_sh in
         exists b res', calculate ex_sph m bh ax_numbers (Some 2) ax_il ax_jl (lengths3 D) D = Some (b, res') /\ E u = res_energy res') /\
      derivable_pt_lim E (nth p ax_pos 0) (- Fp).
Proof.
  apply (C02_ase_forces ex_sph ex_sph_ok ex_sph_gradient (fun l => l) (fun l => Permutation_refl l) ex_file ex_file_ok ex_smooth
    ax_numbers ax_types ax_il ax_jl ax_species ax_nl ltac:(discriminate) [with_xyz ex_xi ex_xs] 2 ax_pos ax_sh).
  - apply Forall_cons; [exact ex_with_ok|apply Forall_nil].
  - reflexivity.
  - exact ax_smooth_at.
Qed.

(** ** C37, ASE: whatever the model, the state of the evaluator and the neighbour list, if the call returns at all
    then the forces add up to zero *)
Theorem C37_ase_momentum : forall sph (m : mace_model RNum) b numbers V il jl r xyz b' res,
  calculate sph m b numbers V il jl r xyz = Some (b', res) -> length (res_forces res) = (3 * length numbers)%nat /\
  forall c, (c < 3)%nat -> total (map (fun a => nth (3 * a + c) (res_forces res) 0) (seq 0 (length numbers))) = 0.
Proof. exact momentum. Qed.
Print Assumptions C37_ase_momentum.

Example C37_ase_example : exists m b0 b1 res, load_from_json (fun l => l) ex_file = Some (m, b0) /\
    calculate ex_sph m b0 ax_numbers (Some 2) ax_il ax_jl (lengths3 ax_D) ax_D = Some (b1, res) /\
    nth 0 (res_forces res) 0 + (nth 3 (res_forces res) 0 + (nth 6 (res_forces res) 0 + 0)) = 0.
Proof.
  destruct (C02_ase_forces ex_sph ex_sph_ok ex_sph_gradient (fun l => l) (fun l => Permutation_refl l) ex_file ex_file_ok ex_smooth
    ax_numbers ax_types ax_il ax_jl ax_species ax_nl ltac:(discriminate) [] 2 ax_pos ax_sh (Forall_nil _) eq_refl ax_smooth_at)
    as (m & b0 & bh & b1 & res & E1 & E2 & E3 & _). injection E2 as <-.
  exists m, b0, b1, res. split; [exact E1|]. split; [exact E3|]. apply (proj2 (C37_ase_momentum _ _ _ _ _ _ _ _ _ _ _ E3) 0%nat). lia.
Qed.

(** ** C38, ASE: for every symmetric strain [e], the derivative of 'energy' along [v -> v + t e v] at [t = 0] is the
    volume times the contraction of [e] with 'stress' (Voigt order xx, yy, zz, yz, xz, xy) *)
Theorem C38_ase_stress : forall sph, sph_ok (N:=RNum) sph -> sph_gradient sph -> forall srt, (forall l, Permutation l (srt l)) ->
  forall f, file_ok f -> smooth_ok f -> forall numbers types il jl, species_map (f_atomic_numbers f) numbers types ->
  nl_ok (length numbers) il jl -> il <> [] -> forall hist V (e : nat -> nat -> R) D0, Forall (input_ok f) hist ->
  V <> 0 -> (forall a c, e a c = e c a) -> length D0 = (3 * length il)%nat ->
  smooth_at f (nl_input (N:=RNum) (S (list_max il)) types il jl [] []) D0 ->
  exists m b0 bh b1 res E del, load_from_json srt f = Some (m, b0) /\ calls sph m b0 hist = Some bh /\
    calculate sph m bh numbers (Some V) il jl (lengths3 D0) D0 = Some (b1, res) /\ 0 < del /\
    (forall t, Rabs t < del -> let D := strain e t D0 in
       exists b res', calculate sph m bh numbers (Some V) il jl (lengths3 D) D = Some (b, res') /\ E t = res_energy res') /\
    exists xx yy zz yz xz xy, res_stress res = [xx; yy; zz; yz; xz; xy] /\
    derivable_pt_lim E 0 (V * (xx * e 0%nat 0%nat + yy * e 1%nat 1%nat + zz * e 2%nat 2%nat
                               + 2 * (yz * e 1%nat 2%nat) + 2 * (xz * e 0%nat 2%nat) + 2 * (xy * e 0%nat 1%nat))).
Proof. exact ase_strain. Qed.
Print Assumptions C38_ase_stress.

(** a pure shear in the plane of x and z *)
Example C38_ase_example : let e a c := if ((a =? 0) && (c =? 2) || (a =? 2) && (c =? 0))%nat%bool then 1 else 0 in
  exists m b0 bh b1 res E del, load_from_json (fun l => l) ex_file = Some (m, b0) /\ calls ex_sph m b0 [] = Some bh /\
    calculate ex_sph m bh ax_numbers (Some 2) ax_il ax_jl (lengths3 ax_D) ax_D = Some (b1, res) /\ 0 < del /\
    (forall t, Rabs t < del -> let D := strain e t ax_D in
       exists b res', calculate ex_sph m bh ax_numbers (Some 2) ax_il ax_jl (lengths3 D) D = Some (b, res') /\ E t = res_energy res') /\
    exists xz, nth_error (res_stress res) 4 = Some xz /\ derivable_pt_lim E 0 (4 * xz).
Proof.
  intros e.
  destruct (C38_ase_stress ex_sph ex_sph_ok ex_sph_gradient (fun l => l) (fun l => Permutation_refl l) ex_file ex_file_ok ex_smooth
    ax_numbers ax_types ax_il ax_jl ax_species ax_nl ltac:(discriminate) [] 2 e ax_D (Forall_nil _) ltac:(apply not_0_IZR; discriminate)) as
    (m & b0 & bh & b1 & res & E & del & A1 & A2 & A3 & A4 & A5 & xx & yy & zz & yz & xz & xy & A6 & A7).
  - intros a c. unfold e. destruct a as [|[|[|a]]], c as [|[|[|c]]]; reflexivity.
  - reflexivity.
  - exact ax_smooth_at.
  - exists m, b0, bh, b1, res, E, del. do 5 (split; [assumption|]). exists xz. split; [rewrite A6; reflexivity|].
    eapply RSums.dlim_eq; [|exact A7]. unfold e. cbn [Nat.eqb andb orb]. ring.
Qed.

(** ** C44.  The energy is the sum of 'energies', and if the last atom has a neighbour then 'energies' are the node
    energies of the whole structure, one for each atom.
    Missing from the full claim: structures whose last atoms are isolated, structures without pairs (see below) *)
Theorem C44_every_atom_partial : forall (N : Num) sph, sph_ok (N:=N) sph -> forall srt, (forall l, Permutation l (srt l)) ->
  forall f, file_ok f -> forall numbers types il jl, species_map (f_atomic_numbers f) numbers types ->
  nl_ok (length numbers) il jl -> il <> [] -> S (list_max il) = length numbers -> forall hist V r xyz, Forall (input_ok f) hist ->
  input_ok f (nl_input (length numbers) types il jl r xyz) ->
  exists m b0 bh b1 b2 res, load_from_json srt f = Some (m, b0) /\ calls sph m b0 hist = Some bh /\
    calculate sph m bh numbers (Some V) il jl r xyz = Some (b1, res) /\
    call sph m bh (nl_input (length numbers) types il jl r xyz) = Some b2 /\ res_energies res = b_node_energies b2 /\
    length (res_energies res) = length numbers /\ res_energy res = fold_left nadd (res_energies res) nzero.
Proof. intros N sph H1 srt H2 f H3 numbers types il jl H4 H5 H6 <-. exact (ase_energies sph H1 srt H2 f H3 numbers types il jl H4 H5 H6). Qed.
Print Assumptions C44_every_atom_partial.

(** isolated atoms at the end of the structure are left out: 'energies' is too short *)
Theorem C44_trailing_isolated_refuted : forall (N : Num) sph, sph_ok (N:=N) sph -> forall srt, (forall l, Permutation l (srt l)) ->
  forall f, file_ok f -> forall numbers types il jl, species_map (f_atomic_numbers f) numbers types ->
  nl_ok (length numbers) il jl -> il <> [] -> (S (list_max il) < length numbers)%nat -> forall hist V r xyz, Forall (input_ok f) hist ->
  input_ok f (nl_input (S (list_max il)) types il jl r xyz) ->
  exists m b0 bh b1 res, load_from_json srt f = Some (m, b0) /\ calls sph m b0 hist = Some bh /\
    calculate sph m bh numbers (Some V) il jl r xyz = Some (b1, res) /\ (length (res_energies res) < length numbers)%nat.
Proof.
  intros N sph H1 srt H2 f H3 numbers types il jl H4 H5 H6 H7 hist V r xyz H8 H9.
  destruct (ase_energies sph H1 srt H2 f H3 numbers types il jl H4 H5 H6 hist V r xyz H8 H9) as (m & b0 & bh & b1 & b2 & res & A1 & A2 & A3 & _ & _ & A4 & _).
  exists m, b0, bh, b1, res. rewrite A4. auto.
Qed.
Print Assumptions C44_trailing_isolated_refuted.

(** without any pair the call raises an exception *)
Theorem C44_no_pairs_refuted : forall (N : Num) sph (m : mace_model N) b numbers V jl r xyz,
  calculate sph m b numbers V [] jl r xyz = None.
Proof. reflexivity. Qed.
Print Assumptions C44_no_pairs_refuted.

(** the dimer of atoms 0 and 1 with and without a third, isolated atom; exact rational arithmetic *)
Definition ase_run (numbers il jl : list nat) (r xyz : list Q) : option (Q * list Q * list Q) :=
  ' (m, b) <- load_from_json (N:=QNum) (fun l => l) ex_file ;;
  ' (_, res) <- calculate (N:=QNum) ex_sph m b numbers (Some (2#1)%Q) il jl r xyz ;;
  Some (res_energy res, res_energies res, res_forces res).
Example C44_example_ok : exists e a b f, ase_run [1; 2]%nat [0; 1]%nat [1; 0]%nat [(1#2)%Q; (1#2)%Q] [(1#2)%Q; 0%Q; 0%Q; (-1#2)%Q; 0%Q; 0%Q] = Some (e, [a; b], f)
  /\ length f = 6%nat.
Proof. vm_compute. do 4 eexists. split; reflexivity. Qed.
Example C44_example_refuted : exists e a b f, ase_run [1; 2; 2]%nat [0; 1]%nat [1; 0]%nat [(1#2)%Q; (1#2)%Q] [(1#2)%Q; 0%Q; 0%Q; (-1#2)%Q; 0%Q; 0%Q] = Some (e, [a; b], f)
  /\ length f = 9%nat.
Proof. vm_compute. do 4 eexists. split; reflexivity. Qed.
(** the same structure with the isolated atom in the middle has three energies *)
Example C44_example_middle : exists e a b c f, ase_run [1; 2; 2]%nat [0; 2]%nat [2; 0]%nat [(1#2)%Q; (1#2)%Q] [(1#2)%Q; 0%Q; 0%Q; (-1#2)%Q; 0%Q; 0%Q] = Some (e, [a; b; c], f)
  /\ length f = 9%nat.
Proof. vm_compute. do 5 eexists. split; reflexivity. Qed.

(** ** C51.  The volume enters neither energies nor forces ... *)
Theorem C51_no_cell_partial : forall (N : Num) sph, sph_ok (N:=N) sph -> forall srt, (forall l, Permutation l (srt l)) ->
  forall f, file_ok f -> forall numbers types il jl, species_map (f_atomic_numbers f) numbers types ->
  nl_ok (length numbers) il jl -> il <> [] -> forall hist V V' r xyz, Forall (input_ok f) hist ->
  input_ok f (nl_input (S (list_max il)) types il jl r xyz) ->
  exists m b0 bh b1 res res', load_from_json srt f = Some (m, b0) /\ calls sph m b0 hist = Some bh /\
    calculate sph m bh numbers (Some V) il jl r xyz = Some (b1, res) /\
    calculate sph m bh numbers (Some V') il jl r xyz = Some (b1, res') /\
    res_energy res = res_energy res' /\ res_energies res = res_energies res' /\ res_forces res = res_forces res'.
Proof. exact @ase_volume. Qed.
Print Assumptions C51_no_cell_partial.

(** ... but without a volume the call raises an exception, for every structure *)
Theorem C51_no_cell_refuted : forall (N : Num) sph (m : mace_model N) b numbers il jl r xyz,
  calculate sph m b numbers None il jl r xyz = None.
Proof. exact no_volume. Qed.
Print Assumptions C51_no_cell_refuted.

Example C51_example : forall V V' : R, exists m b0 bh b1 res res', load_from_json (N:=RNum) (fun l => l) ex_file = Some (m, b0) /\
  calls ex_sph m b0 [] = Some bh /\
  calculate ex_sph m bh ax_numbers (Some V) ax_il ax_jl ax_r ax_D = Some (b1, res) /\
  calculate ex_sph m bh ax_numbers (Some V') ax_il ax_jl ax_r ax_D = Some (b1, res') /\
  res_energy res = res_energy res' /\ res_energies res = res_energies res' /\ res_forces res = res_forces res'.
Proof.
  intros V V'. apply (C51_no_cell_partial RNum ex_sph ex_sph_ok (fun l => l) (fun l => Permutation_refl l) ex_file ex_file_ok
    ax_numbers ax_types ax_il ax_jl ax_species ax_nl ltac:(discriminate) [] V V' ax_r ax_D (Forall_nil _)).
  pose proof ax_with_ok as H. rewrite ax_with in H. exact H.
Qed.
