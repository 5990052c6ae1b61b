(** With an exported file, the ASE calculator with the Kokkos evaluator.  Used in proofs only. *)
From Coq Require Import String List Arith ZArith Lia Bool Permutation Sorted Reals Lra.
From Verif Require Import Base BaseLemmas Instances MlpSpec MpSpec MaceModel MaceSpec MaceSpec2 MaceGradSpec ExportPolySpec EnergySpec ExportFullModel TorchSpec TorchGradSpec ExportForces ExportAse ExportKk2
  AseModel AseSpec KkAseModel KkAseSpec KkAse.
From Verif Require Import KkSem KkModel KkSpec KkLoad2.
Import ListNotations.
Local Open Scope R_scope.

Lemma lemma_C95 : forall rank inv spl t C, torch_ok t C -> spl_ok spl -> inv_ok rank inv -> (t_num_channels t <= rank (t_num_channels t) (fused t))%nat -> repulsion_smooth t ->
  forall species points, NoDup species -> incl species (t_atomic_numbers t) -> (2 <= points)%nat -> 1 / 10 ^ 12 < t_r_cut t ->
  exists f, extract_mace_data rank inv spl t species points = Some f /\
    forall sph, sph_ok (N:=RNum) sph -> sph_gradient sph -> forall junk srt, (forall l, Permutation l (srt l)) -> exists km, kk_load_from_json srt f = Some km /\
    forall numbers types il jl, incl numbers (match species with [] => t_atomic_numbers t | _ => species end) -> species_map (t_atomic_numbers t) numbers types ->
    nl_ok (List.length numbers) il jl -> il <> [] -> S (list_max il) = List.length numbers ->
    forall hist V pos sh, List.Forall (structure_ok f) hist -> List.length pos = (3 * List.length numbers)%nat ->
    let vectors ps := nl_vectors il jl ps sh in
    let structure_at xs := mkStructure numbers (Some V) il jl (lengths3 xs) xs in
    let at_vectors xs := nl_input (N:=RNum) (List.length numbers) types il jl (lengths3 xs) xs in
    let energy xs := torch_total sph spl points t (fun z => z) (at_vectors xs) in
    structure_ok f (structure_at (vectors pos)) -> regular spl points t (fun z => z) (at_vectors (vectors pos)) ->
    (exists o, kk_session sph junk km kk_fresh hist (structure_at (vectors pos)) o) /\
    forall o, kk_session sph junk km kk_fresh hist (structure_at (vectors pos)) o -> exists mem res, o = Some (mem, Some res) /\
      firstn (List.length numbers) (res_energies res) = map (torch_energy sph spl points t (fun z => z) (at_vectors (vectors pos))) (seq 0 (List.length numbers)) /\
      res_energy res = energy (vectors pos) /\ List.length (res_forces res) = List.length pos /\
      (forall p, (p < List.length pos)%nat -> derivable_pt_lim (fun u => energy (vectors (upd pos p u))) (nth p pos 0) (- nth p (res_forces res) 0)) /\
      (V <> 0 -> forall e, (forall a c, e a c = e c a) -> exists xx yy zz yz xz xy, res_stress res = [xx; yy; zz; yz; xz; xy] /\
       derivable_pt_lim (fun s => energy (strain e s (vectors pos))) 0
         (V * (xx * e 0%nat 0%nat + yy * e 1%nat 1%nat + zz * e 2%nat 2%nat + 2 * (yz * e 1%nat 2%nat) + 2 * (xz * e 0%nat 2%nat) + 2 * (xy * e 0%nat 1%nat)))).
Proof.
  intros rank inv spl t C HT Hspl Hinv Hrank HR species points HND HIS Hpts Hr.
  destruct (export_core rank inv spl t C HT Hspl Hinv Hrank species points HND HIS Hpts Hr) as (f & EF & FO & _). exists f. split; [exact EF|].
  pose proof (export_kk rank inv spl t C HT Hspl Hinv Hrank species points HND HIS Hpts Hr f EF) as FK.
  destruct (lemma_C72 rank inv spl t C HT Hspl Hinv Hrank HR species points HND HIS Hpts Hr) as (f' & EF' & H72). rewrite EF in EF'. injection EF' as <-.
  intros sph Hs Hg junk srt Hp. destruct (kk_load_ok srt Hp f FO FK) as (km & EK & _). exists km. split; [exact EK|].
  intros numbers types il jl Hnum SM NL Hne Hlast hist V pos sh Hh Hpos vectors structure_at at_vectors energy OK RG.
  destruct (H72 sph Hs Hg srt Hp numbers types il jl Hnum SM NL Hne Hlast [] V pos sh (Forall_nil _) Hpos RG) as (m & b0 & bh & b1 & res & A1 & A2 & A3 & A4 & A5 & (A6 & A7) & A8). injection A2 as <-.
  destruct (lemma_C57 sph Hs junk srt Hp f FO FK hist (structure_at (vectors pos)) V [] Hh OK Hne eq_refl (Forall_nil _)) as (km' & m' & b0' & bc & b1' & res' & B1 & B2 & B3 & B4 & B5 & B6).
  rewrite EK in B1. injection B1 as <-. rewrite A1 in B2. injection B2 as <- <-. injection B3 as <-. cbn [structure_at s_numbers s_volume s_il s_jl s_r s_xyz] in B4. fold (vectors pos) in A3. rewrite A3 in B4. injection B4 as <- <-.
  split; [exact B5|]. intros o Ho. destruct (B6 o Ho) as (mem & kres & -> & G1 & G2 & G3 & G4 & G5). exists mem, kres. split; [reflexivity|]. rewrite G1, G2, G3, G5. split.
  - rewrite firstn_app. assert (L : List.length (res_energies res) = List.length numbers) by (rewrite A4, map_length, seq_length; reflexivity).
    rewrite L, Nat.sub_diag, firstn_O, app_nil_r, firstn_all2 by lia. exact A4.
  - split; [exact A5|]. split; [exact A6|]. split; [exact A7|exact A8].
Qed.
