(** Property theorems for the ASE calculator with the Kokkos evaluator, its default: C57 (same results as with the CPU evaluator),
    C58 (forces and stress are derivatives of the energy), C48 (ASE half: per-atom energies).
    Model: KkAseModel.v.  Vocabulary: KkAseSpec.v, AseSpec.v, MaceSpec.v, KkSpec.v, MaceGradSpec.v.
    [kk_session ... hist a o]: [o] is one of the possible outcomes of calculating [a] on a new calculator after the structures [hist]. *)
From Coq Require Import List Arith ZArith Reals Permutation Lia Lra.
From Verif Require Import Base Instances MaceModel MaceSpec MaceSpec2 MaceGradSpec MaceExamples GradExamples AseModel AseSpec AseExamples.
From Verif Require Import KkSem KkModel KkSpec KkExamples KkAseModel KkAseSpec KkAse KkAseGrad KkAseExamples.
Import ListNotations.
Local Open Scope R_scope.

(** ** C57: energy, forces and stress are those of the calculator with the CPU evaluator, whatever was calculated before with either of
    them and whatever the scheduler does; 'energies' are the same, followed by zeros if some earlier structure was larger *)
Theorem C57_ase_kokkos_is_cpu : forall sph, sph_ok (N:=RNum) sph -> forall junk srt, (forall l, Permutation l (srt l)) ->
  forall f, file_ok f -> kk_file_ok f -> forall hist a V hc, Forall (structure_ok f) hist -> structure_ok f a -> s_il a <> [] ->
  s_volume a = Some V -> Forall (input_ok f) hc ->
  exists km m b0 bc b1 res, kk_load_from_json srt f = Some km /\ load_from_json srt f = Some (m, b0) /\
    calls sph m b0 hc = Some bc /\
    calculate sph m bc (s_numbers a) (s_volume a) (s_il a) (s_jl a) (s_r a) (s_xyz a) = Some (b1, res) /\
    (exists o, kk_session sph junk km kk_fresh hist a o) /\
    forall o, kk_session sph junk km kk_fresh hist a o -> exists mem kres, o = Some (mem, Some kres) /\
      res_energy kres = res_energy res /\ res_forces kres = res_forces res /\ res_stress kres = res_stress res /\
      length (res_energies res) = atoms_seen a /\
      res_energies kres = res_energies res ++ repeat 0 (fold_left Nat.max (map atoms_seen hist) 0%nat - atoms_seen a).
Proof. exact lemma_C57. Qed.
Print Assumptions C57_ase_kokkos_is_cpu.

(** two atoms in a cell without volume (an exception after the evaluation), three atoms, one atom (an exception before the evaluation),
    then two atoms: two energies and a zero *)
Example C57_example : exists km m b0 b1 res mem kres, kk_load_from_json (fun l => l) ex_file = Some km /\
  load_from_json (N:=RNum) (fun l => l) ex_file = Some (m, b0) /\
  calculate ex_sph m b0 [1; 2]%nat (Some 5) [0; 1]%nat [1; 0]%nat [1/2; 1/2] [1/2; 0; 0; -1/2; 0; 0] = Some (b1, res) /\
  kk_session ex_sph (fun _ _ => 7) km kk_fresh kx_hist kx_two (Some (mem, Some kres)) /\
  res_energy kres = res_energy res /\ res_forces kres = res_forces res /\ res_energies kres = res_energies res ++ [0].
Proof.
  destruct (C57_ase_kokkos_is_cpu ex_sph ex_sph_ok (fun _ _ => 7) (fun l => l) (fun l => Permutation_refl l) ex_file ex_file_ok
    ex_kk_file_ok kx_hist kx_two 5 [] kx_hist_ok kx_two_ok ltac:(discriminate) eq_refl (Forall_nil _))
    as (km & m & b0 & bc & b1 & res & E1 & E2 & E3 & E4 & (o & Ho) & H).
  destruct (H o Ho) as (mem & kres & -> & A & B & _ & _ & C). injection E3 as <-.
  exists km, m, b0, b1, res, mem, kres. repeat (split; [assumption|]). exact C.
Qed.

(** 'energies' may have more entries than there are atoms *)
Theorem C48_ase_refuted : exists sph junk srt f hist a km mem res, sph_ok (N:=RNum) sph /\ (forall l, Permutation l (srt l)) /\
  file_ok f /\ kk_file_ok f /\ Forall (structure_ok f) hist /\ structure_ok f a /\ kk_load_from_json srt f = Some km /\
  kk_session sph junk km kk_fresh hist a (Some (mem, Some res)) /\ length (res_energies res) <> length (s_numbers a).
Proof. exact lemma_C48_ase_refuted. Qed.
Print Assumptions C48_ase_refuted.

(** ** C58: forces *)
Theorem C58_forces : forall sph, sph_ok (N:=RNum) sph -> sph_gradient sph -> forall junk srt, (forall l, Permutation l (srt l)) ->
  forall f, file_ok f -> kk_file_ok f -> smooth_ok f -> forall numbers types il jl, species_map (f_atomic_numbers f) numbers types ->
  nl_ok (length numbers) il jl -> il <> [] -> forall hist, Forall (structure_ok f) hist -> forall V pos sh,
  length pos = (3 * length numbers)%nat ->
  smooth_at f (nl_input (N:=RNum) (S (list_max il)) types il jl [] []) (nl_vectors il jl pos sh) ->
  let str D := mkStructure numbers (Some V) il jl (lengths3 D) D in
  exists km, kk_load_from_json srt f = Some km /\ (exists o, kk_session sph junk km kk_fresh hist (str (nl_vectors il jl pos sh)) o) /\
  forall o, kk_session sph junk km kk_fresh hist (str (nl_vectors il jl pos sh)) o -> exists mem res, o = Some (mem, Some res) /\
    forall p, (p < length pos)%nat -> exists Fp E del, rd (res_forces res) p = Some Fp /\ 0 < del /\
      (forall u, Rabs (u - nth p pos 0) < del -> let s := str (nl_vectors il jl (upd pos p u) sh) in
         (exists o', kk_session sph junk km kk_fresh hist s o') /\
         forall o', kk_session sph junk km kk_fresh hist s o' -> exists mem' res', o' = Some (mem', Some res') /\ E u = res_energy res') /\
      derivable_pt_lim E (nth p pos 0) (- Fp).
Proof. exact lemma_C58_forces. Qed.
Print Assumptions C58_forces.

(** stress, in Voigt order xx, yy, zz, yz, xz, xy *)
Theorem C58_stress : forall sph, sph_ok (N:=RNum) sph -> sph_gradient sph -> forall junk srt, (forall l, Permutation l (srt l)) ->
  forall f, file_ok f -> kk_file_ok f -> smooth_ok f -> forall numbers types il jl, species_map (f_atomic_numbers f) numbers types ->
  nl_ok (length numbers) il jl -> il <> [] -> forall hist, Forall (structure_ok f) hist -> forall V (e : nat -> nat -> R) D0,
  V <> 0 -> (forall a c, e a c = e c a) -> length D0 = (3 * length il)%nat ->
  smooth_at f (nl_input (N:=RNum) (S (list_max il)) types il jl [] []) D0 ->
  let str D := mkStructure numbers (Some V) il jl (lengths3 D) D in
  exists km, kk_load_from_json srt f = Some km /\ (exists o, kk_session sph junk km kk_fresh hist (str D0) o) /\
  forall o, kk_session sph junk km kk_fresh hist (str D0) o -> exists mem res E del, o = Some (mem, Some res) /\ 0 < del /\
    (forall t, Rabs t < del -> let s := str (strain e t D0) in
       (exists o', kk_session sph junk km kk_fresh hist s o') /\
       forall o', kk_session sph junk km kk_fresh hist s o' -> exists mem' res', o' = Some (mem', Some res') /\ E t = res_energy res') /\
    exists xx yy zz yz xz xy, res_stress res = [xx; yy; zz; yz; xz; xy] /\
    derivable_pt_lim E 0 (V * (xx * e 0%nat 0%nat + yy * e 1%nat 1%nat + zz * e 2%nat 2%nat
                               + 2 * (yz * e 1%nat 2%nat) + 2 * (xz * e 0%nat 2%nat) + 2 * (xy * e 0%nat 1%nat))).
Proof. exact lemma_C58_stress. Qed.
Print Assumptions C58_stress.

Example C58_forces_example : let str D := mkStructure ax_numbers (Some 2) ax_il ax_jl (lengths3 D) D in
  exists km mem res, kk_load_from_json (fun l => l) ex_file = Some km /\
  kk_session ex_sph (fun _ _ => 7) km kk_fresh kx_hist (str ax_D) (Some (mem, Some res)) /\
  exists Fp E, rd (res_forces res) 3 = Some Fp /\ derivable_pt_lim E (3/5) (- Fp).
Proof.
  intros str.
  destruct (C58_forces ex_sph ex_sph_ok ex_sph_gradient (fun _ _ => 7) (fun l => l) (fun l => Permutation_refl l) ex_file ex_file_ok
    ex_kk_file_ok ex_smooth ax_numbers ax_types ax_il ax_jl ax_species ax_nl ltac:(discriminate) kx_hist kx_hist_ok 2 ax_pos ax_sh
    eq_refl ax_smooth_at) as (km & E1 & (o & Ho) & H).
  destruct (H o Ho) as (mem & res & -> & G). destruct (G 3%nat ltac:(cbn; lia)) as (Fp & E & del & A & _ & _ & B).
  exists km, mem, res. split; [exact E1|]. split; [exact Ho|]. exists Fp, E. split; [exact A|exact B].
Qed.
Example C58_stress_example : let e a c := if ((a =? 0) && (c =? 2) || (a =? 2) && (c =? 0))%nat%bool then 1 else 0 in
  let str D := mkStructure ax_numbers (Some 2) ax_il ax_jl (lengths3 D) D in
  exists km mem res, kk_load_from_json (fun l => l) ex_file = Some km /\
  kk_session ex_sph (fun _ _ => 7) km kk_fresh kx_hist (str ax_D) (Some (mem, Some res)) /\
  exists xz E, nth_error (res_stress res) 4 = Some xz /\ derivable_pt_lim E 0 (4 * xz).
Proof.
  intros e str.
  destruct (C58_stress ex_sph ex_sph_ok ex_sph_gradient (fun _ _ => 7) (fun l => l) (fun l => Permutation_refl l) ex_file ex_file_ok
    ex_kk_file_ok ex_smooth ax_numbers ax_types ax_il ax_jl ax_species ax_nl ltac:(discriminate) kx_hist kx_hist_ok 2 e ax_D
    ltac:(apply not_0_IZR; discriminate) ltac:(intros a c; unfold e; destruct a as [|[|[|a]]], c as [|[|[|c]]]; reflexivity) eq_refl
    ax_smooth_at) as (km & E1 & (o & Ho) & H).
  destruct (H o Ho) as (mem & res & E & del & -> & _ & _ & xx & yy & zz & yz & xz & xy & A & B).
  exists km, mem, res. split; [exact E1|]. split; [exact Ho|]. exists xz, E. split; [rewrite A; reflexivity|].
  eapply RSums.dlim_eq; [|exact B]. unfold e. cbn [Nat.eqb andb orb]. ring.
Qed.
