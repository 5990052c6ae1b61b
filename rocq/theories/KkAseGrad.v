(** Forces and stress of the ASE calculator with the Kokkos evaluator as derivatives of its energy.  Used in proofs only. *)
From Coq Require Import List Arith ZArith Bool Lia Reals Permutation Lra.
From Verif Require Import Base BaseLemmas Instances RSums MaceModel MaceSpec MaceSpec2 MaceGradSpec MaceForces MlpR AseModel AseSpec AseThms AseGrad.
From Verif Require Import KkSem KkModel KkSpec KkThms KkAseModel KkAseSpec KkAse.
Import ListNotations.
Local Open Scope R_scope.

Section L.
Variable sph : nat -> RNum -> RNum -> RNum -> list RNum * list RNum.
Hypothesis Hsph : sph_ok sph.
Hypothesis Hgr : sph_gradient sph.
Variable junk : mem RNum -> KkSem.cell -> RNum.
Variable srt : list (list (list nat)) -> list (list (list nat)).
Hypothesis Hsrt : forall l, Permutation l (srt l).
Variable f : mace_file RNum.
Hypothesis F : file_ok f.
Hypothesis KF : kk_file_ok f.
Hypothesis SF : smooth_ok f.
Variables numbers types il jl : list nat.
Hypothesis SM : species_map (f_atomic_numbers f) numbers types.
Hypothesis NL : nl_ok (length numbers) il jl.
Hypothesis Hne : il <> [].
Variable hist : list structure.
Hypothesis Hh : Forall (structure_ok f) hist.
Notation n := (S (list_max il)).
Notation x := (nl_input (N:=RNum) n types il jl [] []).
Notation str V D := (mkStructure numbers (Some V) il jl (lengths3 D) D).

Lemma near_ok V (X : R -> list R) X' t0 :
  (forall t, length (X t) = (3 * length il)%nat) -> length X' = (3 * length il)%nat ->
  (forall p, (p < 3 * length il)%nat -> derivable_pt_lim (fun t => nth p (X t) 0) t0 (nth p X' 0)) ->
  smooth_at f x (X t0) -> exists del, 0 < del /\ forall t, Rabs (t - t0) < del -> structure_ok f (str V (X t)).
Proof.
  intros HL HL' HD SA. assert (SN' : list_sum (i_num_neigh x) = length il) by exact (sum_nn numbers il jl NL).
  destruct (local_ok f SF x X X' t0) as (del2 & Hd2 & Ho); auto.
  { intros t. rewrite SN'. apply HL. } { rewrite SN'. exact HL'. } { rewrite SN'. exact HD. }
  exists del2. split; [exact Hd2|]. intros t Ht. exists types. split; [exact SM|]. split; [exact NL|]. intros _. cbn [s_il s_jl s_r s_xyz].
  rewrite <- (with_nl numbers types il jl NL) by apply HL. apply Ho. exact Ht.
Qed.

(** the outcome for one structure is that of the CPU calculator *)
Lemma same_as_cpu km m b0 V D b res : kk_load_from_json srt f = Some km -> load_from_json srt f = Some (m, b0) -> structure_ok f (str V D) ->
  calculate sph m b0 numbers (Some V) il jl (lengths3 D) D = Some (b, res) ->
  (exists o, kk_session sph junk km kk_fresh hist (str V D) o) /\
  forall o, kk_session sph junk km kk_fresh hist (str V D) o -> exists mem kres, o = Some (mem, Some kres) /\
    res_energy kres = res_energy res /\ res_forces kres = res_forces res /\ res_stress kres = res_stress res.
Proof.
  intros EK EC OK EQ.
  destruct (lemma_C57 sph Hsph junk srt Hsrt f F KF hist (str V D) V [] Hh OK Hne eq_refl (Forall_nil _))
    as (km' & m' & b0' & bc & b1 & res' & A1 & A2 & A3 & A4 & A5 & A6).
  rewrite EK in A1. injection A1 as <-. rewrite EC in A2. injection A2 as <- <-. injection A3 as <-.
  cbn [s_numbers s_volume s_il s_jl s_r s_xyz] in A4. rewrite EQ in A4. injection A4 as <- <-.
  split; [exact A5|]. intros o Ho. destruct (A6 o Ho) as (mem & kres & B1 & B2 & B3 & B4 & _). exists mem, kres. auto.
Qed.

Lemma lemma_C58_forces V pos sh : length pos = (3 * length numbers)%nat -> smooth_at f x (nl_vectors il jl pos sh) ->
  exists km, kk_load_from_json srt f = Some km /\ (exists o, kk_session sph junk km kk_fresh hist (str V (nl_vectors il jl pos sh)) o) /\
  forall o, kk_session sph junk km kk_fresh hist (str V (nl_vectors il jl pos sh)) o -> exists mem res, o = Some (mem, Some res) /\
    forall p, (p < length pos)%nat -> exists Fp E del, rd (res_forces res) p = Some Fp /\ 0 < del /\
      (forall u, Rabs (u - nth p pos 0) < del -> let s := str V (nl_vectors il jl (upd pos p u) sh) in
         (exists o', kk_session sph junk km kk_fresh hist s o') /\
         forall o', kk_session sph junk km kk_fresh hist s o' -> exists mem' res', o' = Some (mem', Some res') /\ E u = res_energy res') /\
      derivable_pt_lim E (nth p pos 0) (- Fp).
Proof.
  intros Hpos SA. set (D0 := nl_vectors il jl pos sh) in *.
  destruct (lemma_C56 srt Hsrt f F KF) as (km & m & b0 & EK & EC). exists km. split; [exact EK|].
  destruct (ase_forces sph Hsph Hgr srt Hsrt f F SF numbers types il jl SM NL Hne [] V pos sh (Forall_nil _) Hpos SA)
    as (m' & b0' & bh & b1 & res & A1 & A2 & A3 & A4). fold D0 in A3.
  rewrite EC in A1. injection A1 as <- <-. injection A2 as <-.
  assert (OK : structure_ok f (str V D0)).
  { destruct (near_ok V (fun _ => D0) (tab (3 * length il) (fun _ => 0)) 0) as (del & Hd & Ho).
    - intros; apply length_vectors. - apply length_tab. - intros p Hp. rewrite nth_tab by exact Hp. apply dlim_const. - exact SA.
    - apply (Ho 0). rewrite Rminus_0_r, Rabs_R0. exact Hd. }
  destruct (same_as_cpu km m b0 V D0 b1 res EK EC OK A3) as [X Y]. split; [exact X|].
  intros o Ho. destruct (Y o Ho) as (mem & kres & B1 & _ & B3 & _). exists mem, kres. split; [exact B1|]. rewrite B3.
  intros p Hp. destruct (A4 p Hp) as (Fp & E & del & C1 & C2 & C3 & C4).
  set (a := (p / 3)%nat). set (c := (p mod 3)%nat). assert (Ep : p = (3 * a + c)%nat) by (apply Nat.div_mod; lia).
  destruct (near_ok V (fun u => nl_vectors il jl (upd pos p u) sh)
    (tab (3 * length il) (fun k => ind (3 * nth (k / 3) jl 0%nat + k mod 3) (3 * a + c) - ind (3 * nth (k / 3) il 0%nat + k mod 3) (3 * a + c))) (nth p pos 0))
    as (del2 & Hd2 & Ho2).
  { intros; apply length_vectors. } { apply length_tab. }
  { intros k Hk. rewrite nth_tab by exact Hk. rewrite <- Ep. apply vectors_d; [exact Hk|lia]. } { rewrite upd_same. exact SA. }
  exists Fp, E, (Rmin del del2). split; [exact C1|]. split; [apply Rmin_case; auto|]. split; [|exact C4].
  intros u Hu. cbv zeta. assert (H1 : Rabs (u - nth p pos 0) < del) by (eapply Rlt_le_trans; [exact Hu|apply Rmin_l]).
  assert (H2 : Rabs (u - nth p pos 0) < del2) by (eapply Rlt_le_trans; [exact Hu|apply Rmin_r]).
  destruct (C3 u H1) as (b & res' & D1 & D2). destruct (same_as_cpu km m b0 V _ b res' EK EC (Ho2 u H2) D1) as [X' Y'].
  split; [exact X'|]. intros o' Ho'. destruct (Y' o' Ho') as (mem' & kres' & Z1 & Z2 & _). exists mem', kres'. split; [exact Z1|]. rewrite Z2. exact D2.
Qed.

Lemma lemma_C58_stress V (e : nat -> nat -> R) D0 : V <> 0 -> (forall a c, e a c = e c a) -> length D0 = (3 * length il)%nat -> smooth_at f x D0 ->
  exists km, kk_load_from_json srt f = Some km /\ (exists o, kk_session sph junk km kk_fresh hist (str V D0) o) /\
  forall o, kk_session sph junk km kk_fresh hist (str V D0) o -> exists mem res E del, o = Some (mem, Some res) /\ 0 < del /\
    (forall t, Rabs t < del -> let s := str V (strain e t D0) in
       (exists o', kk_session sph junk km kk_fresh hist s o') /\
       forall o', kk_session sph junk km kk_fresh hist s o' -> exists mem' res', o' = Some (mem', Some res') /\ E t = res_energy res') /\
    exists xx yy zz yz xz xy, res_stress res = [xx; yy; zz; yz; xz; xy] /\
    derivable_pt_lim E 0 (V * (xx * e 0%nat 0%nat + yy * e 1%nat 1%nat + zz * e 2%nat 2%nat
                               + 2 * (yz * e 1%nat 2%nat) + 2 * (xz * e 0%nat 2%nat) + 2 * (xy * e 0%nat 1%nat))).
Proof.
  intros HV He L0 SA.
  destruct (lemma_C56 srt Hsrt f F KF) as (km & m & b0 & EK & EC). exists km. split; [exact EK|].
  destruct (ase_strain sph Hsph Hgr srt Hsrt f F SF numbers types il jl SM NL Hne [] V e D0 (Forall_nil _) HV He L0 SA)
    as (m' & b0' & bh & b1 & res & E & del & A1 & A2 & A3 & A4 & A5 & xx & yy & zz & yz & xz & xy & A6 & A7).
  rewrite EC in A1. injection A1 as <- <-. injection A2 as <-.
  assert (S0 : strain e 0 D0 = D0).
  { apply (list_eq_nth _ _ 0); [unfold strain; rewrite map_length, seq_length; reflexivity|]. intros k Hk.
    unfold strain in *. rewrite map_length, seq_length in Hk. etransitivity; [apply (nth_tab (length D0)); exact Hk|]. ring. }
  destruct (near_ok V (fun t => strain e t D0) (tab (3 * length il) (fun k => rsum 3 (fun c => e (k mod 3)%nat c * nth (3 * (k / 3) + c) D0 0))) 0)
    as (del2 & Hd2 & Ho2).
  { intros t. unfold strain. rewrite map_length, seq_length. exact L0. } { apply length_tab. }
  { intros k Hk. rewrite nth_tab by exact Hk.
    apply dlim_ext with (f := fun t => nth k D0 0 + t * rsum 3 (fun c => e (k mod 3)%nat c * nth (3 * (k / 3) + c) D0 0)).
    - intros t. symmetry. unfold strain. etransitivity; [apply (nth_tab (length D0)); lia|]. cbn [rsum]. rewrite Nat.add_0_r. ring.
    - eapply dlim_eq; [|apply dlim_plus; [apply dlim_const|apply dlim_mult; [apply dlim_id|apply dlim_const]]]. cbv beta. ring. }
  { rewrite S0. exact SA. }
  assert (OK : structure_ok f (str V D0)) by (rewrite <- S0 at 1 2; apply (Ho2 0); rewrite Rminus_0_r, Rabs_R0; exact Hd2).
  destruct (same_as_cpu km m b0 V D0 b1 res EK EC OK A3) as [X Y]. split; [exact X|].
  intros o Ho. destruct (Y o Ho) as (mem & kres & B1 & _ & _ & B3). exists mem, kres, E, (Rmin del del2). split; [exact B1|].
  split; [apply Rmin_case; auto|]. split.
  - intros t Ht. cbv zeta. assert (H1 : Rabs t < del) by (eapply Rlt_le_trans; [exact Ht|apply Rmin_l]).
    assert (H2 : Rabs (t - 0) < del2) by (rewrite Rminus_0_r; eapply Rlt_le_trans; [exact Ht|apply Rmin_r]).
    destruct (A5 t H1) as (b & res' & D1 & D2). destruct (same_as_cpu km m b0 V _ b res' EK EC (Ho2 t H2) D1) as [X' Y'].
    split; [exact X'|]. intros o' Ho'. destruct (Y' o' Ho') as (mem' & kres' & Z1 & Z2 & _). exists mem', kres'. split; [exact Z1|]. rewrite Z2. exact D2.
  - exists xx, yy, zz, yz, xz, xy. rewrite B3. split; [exact A6|exact A7].
Qed.
End L.
