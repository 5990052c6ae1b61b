(** Files exported from models with equivariant tensors are equivariant. *)
From Coq Require Import List Arith ZArith Lia Bool Permutation Sorted Reals Lra.
From Verif Require Import Base BaseLemmas Instances RSums RList MlpSpec MpSpec MaceModel MaceSpec MaceSpec2 MaceGradSpec ExportModel ExportSpec ExportProofs ExportPolySpec EnergySpec EnergyProofs ExportFullModel TorchSpec ExportFullPre ExportFullCoupling ExportFullEnergy ExportFullThms
  ExportSubset TorchGradSpec ExportForces SymSpec SymProofs SymForces TorchSymSpec.
Import ListNotations.
Local Open Scope R_scope.

Lemma at_ (t : torch_model RNum) an j : incl an (t_atomic_numbers t) -> (j < length an)%nat -> exists z, (z < length (t_atomic_numbers t))%nat /\ nth z (t_atomic_numbers t) 0%nat = nth j an 0%nat.
Proof. intros HI Hj. destruct (In_nth (t_atomic_numbers t) (nth j an 0%nat) 0%nat) as (z & Hz & E); [apply HI, nth_In, Hj|]. exists z; auto. Qed.
Lemma export_equivariant inv spl points t C an b0 b1 f sph g D : torch_ok t C -> incl an (t_atomic_numbers t) -> is_export inv spl points t C an b0 b1 f ->
  torch_equivariant sph t C g D -> equivariant sph f g D.
Proof.
  intros HT HI IE TE. pose proof (ie_K _ _ _ _ _ _ _ _ _ IE) as EK. pose proof (ie_l _ _ _ _ _ _ _ _ _ IE) as El. pose proof (ie_L _ _ _ _ _ _ _ _ _ IE) as EL. pose proof (ie_an _ _ _ _ _ _ _ _ _ IE) as Ea.
  assert (AL : forall a, all_lm f a = by_degree (t_l_max t) a) by (intros a; unfold all_lm, by_degree; rewrite El; reflexivity).
  constructor.
  - apply (te_scalar _ _ _ _ _ TE).
  - rewrite El. apply (te_sph _ _ _ _ _ TE).
  - rewrite EL, EK, Ea. intros j L M k a Hj HL HM Hk. destruct (at_ t an j HI Hj) as (z & Hz & Ez).
    rewrite !AL. rewrite (proj2 (proj2 (proj2 (proj2 (ie_M0 _ _ _ _ _ _ _ _ _ IE j z L M k Hj Hz Ez HL HM Hk))))).
    rewrite (te_U0 _ _ _ _ _ TE) by assumption. apply turn_eq. intros M' HM'. symmetry.
    apply (proj2 (proj2 (proj2 (proj2 (ie_M0 _ _ _ _ _ _ _ _ _ IE j z L M' k Hj Hz Ez HL HM' Hk))))).
  - rewrite El. intros v l m e Hl Hm He. rewrite (npaths_eq t f (ie_pl _ _ _ _ _ _ _ _ _ IE)) in He.
    assert (CS : forall w m, (m < 2 * l + 1)%nat -> let le := nth e (paths_of t l) 0%nat in
      coupled f w l m e = sum (2 * pl1 t le + 1) (fun m1 => sum (2 * pl2 t le + 1) (fun m2 => C le m m1 m2 * w le m1 m2))).
    { intros w m' Hm' le. pose proof (coupling_sum t C HT f (ie_pl _ _ _ _ _ _ _ _ _ IE) (ie_p1 _ _ _ _ _ _ _ _ _ IE) (ie_p2 _ _ _ _ _ _ _ _ _ IE)
        (ie_lme _ _ _ _ _ _ _ _ _ IE) (ie_cg _ _ _ _ _ _ _ _ _ IE) (ie_lel _ _ _ _ _ _ _ _ _ IE) l m' e (fun c => let '(le, m1, m2) := c in w le m1 m2) Hl Hm' He) as Q.
      cbv zeta in Q. unfold coupled. etransitivity; [exact Q|]. fold le. rewrite sum_rsum. apply rsum_ext. intros. rewrite sum_rsum. reflexivity. }
    destruct (path_at t C HT l e He) as (HP & Hd & _). set (le := nth e (paths_of t l) 0%nat) in *.
    rewrite (turn_eq D (fun l m => coupled f v l m e) (fun l' m' => sum (2 * pl1 t le + 1) (fun m1 => sum (2 * pl2 t le + 1) (fun m2 => C le m' m1 m2 * v le m1 m2)))) by (intros; apply CS; assumption).
    rewrite (CS (turn2 f D v) m Hm). fold le. unfold turn.
    assert (E1 : nth le (f_Phi1_l1 f) 0%nat = pl1 t le) by (rewrite (ie_p1 _ _ _ _ _ _ _ _ _ IE); apply nth_L1).
    assert (E2 : nth le (f_Phi1_l2 f) 0%nat = pl2 t le) by (rewrite (ie_p2 _ _ _ _ _ _ _ _ _ IE); apply nth_L2).
    unfold turn2. rewrite E1, E2. set (l1 := pl1 t le) in *. set (l2 := pl2 t le) in *.
    assert (EP : nth le (t_paths t) (0, 0, 0)%nat = (l, l1, l2)).
    { rewrite <- Hd. unfold l1, l2, degree, pl1, pl2. destruct (nth le (t_paths t) (0, 0, 0)%nat) as [[a b] c]. reflexivity. }
    pose proof (te_C _ _ _ _ _ TE le l l1 l2 HP EP m) as TC.
    transitivity (sum (2 * l1 + 1) (fun m1' => sum (2 * l2 + 1) (fun m2' => sum (2 * l1 + 1) (fun m1 => sum (2 * l2 + 1) (fun m2 => C le m m1 m2 * D l1 m1 m1' * D l2 m2 m2')) * v le m1' m2'))).
    { transitivity (sum (2 * l1 + 1) (fun m1 => sum (2 * l2 + 1) (fun m2 => sum (2 * l1 + 1) (fun m1' => sum (2 * l2 + 1) (fun m2' => C le m m1 m2 * D l1 m1 m1' * D l2 m2 m2' * v le m1' m2'))))).
      { apply sum_eq. intros m1 _. apply sum_eq. intros m2 _. rewrite <- sum_scal. apply sum_eq. intros m1' _. rewrite <- sum_scal. apply sum_eq. intros m2' _. ring. }
      transitivity (sum (2 * l1 + 1) (fun m1 => sum (2 * l1 + 1) (fun m1' => sum (2 * l2 + 1) (fun m2' => sum (2 * l2 + 1) (fun m2 => C le m m1 m2 * D l1 m1 m1' * D l2 m2 m2' * v le m1' m2'))))).
      { apply sum_eq. intros m1 _. rewrite sum_swap. apply sum_eq. intros m1' _. apply sum_swap. }
      rewrite sum_swap. apply sum_eq. intros m1' _. rewrite sum_swap. apply sum_eq. intros m2' _. rewrite <- sum_scal_r. apply sum_eq. intros m1 _. apply sum_scal_r. }
    rewrite (sum_eq _ _ (fun m1' => sum (2 * l2 + 1) (fun m2' => sum (2 * l + 1) (fun m' => D l m m' * C le m' m1' m2') * v le m1' m2'))).
    2:{ intros m1' H1. apply sum_eq. intros m2' H2. rewrite TC by assumption. reflexivity. }
    symmetry. transitivity (sum (2 * l + 1) (fun m' => sum (2 * l1 + 1) (fun m1' => sum (2 * l2 + 1) (fun m2' => D l m m' * C le m' m1' m2' * v le m1' m2')))).
    { apply sum_eq. intros m' _. rewrite <- sum_scal. apply sum_eq. intros m1' _. rewrite <- sum_scal. apply sum_eq. intros m2' _. ring. }
    rewrite sum_swap. apply sum_eq. intros m1' _. rewrite sum_swap. apply sum_eq. intros m2' _. apply sum_scal_r.
  - rewrite EK, Ea. intros j k a Hj Hk. destruct (at_ t an j HI Hj) as (z & Hz & Ez). rewrite !AL.
    rewrite !(proj2 (proj2 (proj2 (proj2 (ie_M1 _ _ _ _ _ _ _ _ _ IE j z k Hj Hz Ez Hk))))). apply (te_U1 _ _ _ _ _ TE).
Qed.

Lemma lemma_C76 : forall rank inv spl t C, torch_ok t C -> spl_ok spl -> inv_ok rank inv -> (t_num_channels t <= rank (t_num_channels t) (fused t))%nat -> repulsion_smooth t ->
  forall species points, NoDup species -> incl species (t_atomic_numbers t) -> (2 <= points)%nat -> 1 / 10 ^ 12 < t_r_cut t ->
  exists f, extract_mace_data rank inv spl t species points = Some f /\
    forall sph, sph_ok (N:=RNum) sph -> sph_gradient sph -> forall g D, orthogonal g -> torch_equivariant sph t C g D -> forall srt, (forall l, Permutation l (srt l)) ->
    forall el, (forall j, (j < length (f_atomic_numbers f))%nat -> (el j < length (t_atomic_numbers t))%nat /\ nth (el j) (t_atomic_numbers t) 0%nat = nth j (f_atomic_numbers f) 0%nat) ->
    forall hist x xs, List.Forall (input_ok f) hist -> input_ok f (with_xyz x xs) -> regular spl points t el (with_xyz x xs) ->
    exists m b0 bh b b', load_from_json srt f = Some (m, b0) /\ calls sph m b0 hist = Some bh /\
      call sph m bh (with_xyz x xs) = Some b /\ call sph m bh (with_xyz x (rotate g xs)) = Some b' /\
      b_node_energies b' = b_node_energies b /\ b_node_forces b' = rotate g (b_node_forces b).
Proof.
  intros rank inv spl t C HT Hspl Hinv Hrank HR species points HND HIS Hpts Hr.
  destruct (export_core rank inv spl t C HT Hspl Hinv Hrank species points HND HIS Hpts Hr) as (f & EF & FO & _ & _ & _ & SO & CO). exists f. split; [exact EF|].
  destruct (numbers_ok t C species HT HND HIS) as (HS & HI & Hne & _).
  destruct (export_file rank inv spl t C HT Hspl Hrank species points HI) as (c0 & c1 & f' & EB & EF' & IE). rewrite EF in EF'. injection EF' as <-.
  intros sph Hs Hg g D O TE srt Hp el Hel hist x xs HH HX RG.
  assert (HL : (length (export_numbers t species) * (length (export_numbers t species) + 1) / 2 <= length (export_pairs (export_numbers t species)))%nat)
    by (rewrite (export_pairs_eq _ HS), map_length, upairs_length; lia).
  assert (MO : monomials_once f) by (apply (export_once rank inv spl t C HT Hrank species points HI Hne HL ltac:(lia) c0 c1 f IE)).
  apply (lemma_C75 sph Hs Hg srt Hp f FO (SO HR) MO g D O); auto.
  - apply (export_equivariant inv spl points t C _ c0 c1 f sph g D HT HI IE TE).
  - apply (proj2 (CO el Hel) x xs HX RG).
Qed.
