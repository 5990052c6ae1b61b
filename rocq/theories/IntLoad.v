(** C90 for the object made from a file, and the file of the counterexample. *)
From Coq Require Import List Arith ZArith Lia Bool Permutation.
From Verif Require Import Base BaseLemmas SplineModel SplineProofs MpSpec MaceModel MaceSpec MaceLoad IntModel IntSpec IntProofs.
Import ListNotations.

Section Load.
Context {N : Num}.
Variable srt : list (list (list nat)) -> list (list (list nat)).
Hypothesis Hsrt : forall l, Permutation l (srt l).

Lemma first_set (f : mace_file N) T vals ders c : radial_ok T c vals ders -> 1 <= T -> exists s, rd (ld_set f vals ders) 0 = Some s /\ css_num s = c.
Proof.
  intros (H1 & H2 & H3) HT. assert (L : 0 < length vals). { assert (H : 2 / 2 <= T * (T + 1) / 2) by (apply Nat.div_le_mono; nia). change (2 / 2) with 1 in H. lia. }
  eexists. split; [apply (rd_some _ 0 (splset (f_radial_spline_h f) [] [] 0)); rewrite length_set; exact L|].
  rewrite nth_set by exact L. destruct (H3 0 L) as (kn & _ & E & _). exact E.
Qed.

Lemma lemma_C90 (f : mace_file N) (x : input N) m b : file_ok f -> input_ok f x -> 1 <= i_num_nodes x ->
  Forall indexable (array_sizes f (i_num_nodes x) (list_sum (i_num_neigh x))) ->
  load_from_json srt f = Some (m, b) ->
  (i_compute m x = Some tt <->
   indexable (Z.of_nat (i_num_nodes x) * Z.of_nat (f_num_channels f) * ((Z.of_nat (f_l_max f) + 1) * (Z.of_nat (f_l_max f) + 1)) * Z.of_nat (f_num_channels f))).
Proof.
  intros F X Hn HB HL. destruct (load_eq srt Hsrt f F) as (r & _ & E). rewrite E in HL. injection HL as Em _. subst m.
  unfold array_sizes in HB. cbv zeta in HB. unfold indexable in HB. repeat (apply Forall_cons_iff in HB; destruct HB as [?B HB]).
  destruct (first_set f _ _ _ _ (fo_R0 _ F) (fo_T _ F)) as (s0 & E0 & C0). destruct (first_set f _ _ _ _ (fo_R1 _ F) (fo_T _ F)) as (s1 & E1 & C1).
  assert (Hlm : Z.of_nat (num_lm (ldm f)) = ((Z.of_nat (f_l_max f) + 1) * (Z.of_nat (f_l_max f) + 1))%Z) by (unfold num_lm; cbn [ldm m_l_max]; lia).
  assert (HLM : Z.of_nat (num_LM (ldm f)) = ((Z.of_nat (f_L_max f) + 1) * (Z.of_nat (f_L_max f) + 1))%Z) by (unfold num_LM; cbn [ldm m_L_max]; lia).
  assert (W1 : m_num_lme (ldm f) = list_sum (map (fun l => 2 * l + 1) (f_Phi1_l f))) by apply (f_equal lsum (map_seq_nth (fun l => 2 * l + 1) (f_Phi1_l f) 0)).
  assert (W2 : m_num_lelm1lm2 (ldm f) = list_sum (widths (ldm f))) by reflexivity.
  unfold indexable. rewrite <- Hlm. apply (compute_iff (ldm f) x) with (s0 := s0) (s1 := s1); cbn [ldm m_num_channels m_l_max m_L_max m_atomic_numbers m_Phi1_l m_Phi1_l1 m_Phi1_l2 m_Phi1_lme m_Phi1_clebsch_gordan m_Phi1_lelm1lm2 m_spl_set_0 m_spl_set_1];
    fold (@ldm N f); rewrite ?Hlm, ?HLM, ?W1; try assumption; try reflexivity; try exact (fo_K _ F); try apply X; try apply F.
Qed.

(** [K] channels, l_max = 3, L_max = 1, one species, all tables and weights zero *)
Definition zero_file (K : nat) : mace_file N :=
  let z n := repeat (@nzero N) n in
  mkFile K 3 1 [6] (z 1) false nzero nzero [] [] 0%Z none [repeat (z 2) (4 * K)] [repeat (z 2) (4 * K)] [repeat (z 2) (4 * K)] [repeat (z 2) (4 * K)]
    (z K) [repeat (z (K * K)) 4] false none [] [] (fun _ _ _ => []) (fun _ => []) (z (2 * K * K))
    [0; 1; 2; 3] [0; 1; 2; 3] [0; 0; 0; 0] [] [] [] (repeat (z (K * K)) 4) false none [] [] (fun _ _ => []) []
    [z (K * K)] (z (K * K)) (z K) (z (K * 16)) (z 16) none.
Lemma nth_repeat_lt {A} (a : A) n i d : i < n -> nth i (repeat a n) d = a.
Proof. intros H. rewrite nth_indep with (d' := a) by (rewrite repeat_length; exact H). apply nth_repeat. Qed.
Lemma zero_radial K : radial_ok (N:=N) 1 (4 * K) [repeat (repeat nzero 2) (4 * K)] [repeat (repeat nzero 2) (4 * K)].
Proof.
  split; [cbn; lia|]. split; [reflexivity|]. intros q Hq. cbn [length] in Hq. assert (q = 0) as -> by lia. exists 2. cbn [nth]. rewrite repeat_length.
  repeat split; auto; intros row Hr; apply repeat_spec in Hr; subst row; apply repeat_length.
Qed.
Lemma zero_file_ok K : 1 <= K -> file_ok (zero_file K).
Proof.
  intros HK. assert (M : monos_ok 16 []) by constructor.
  constructor; unfold zero_file; cbv zeta; cbn [f_num_channels f_l_max f_L_max f_atomic_numbers f_atomic_energies f_has_zbl f_radial_spline_values_0 f_radial_spline_derivs_0 f_radial_spline_values_1 f_radial_spline_derivs_1 f_H0_weights f_A0_weights f_A0_scaled f_M0_weights f_M0_monomials f_H1_weights f_Phi1_l f_Phi1_l1 f_Phi1_l2 f_Phi1_lme f_Phi1_clebsch_gordan f_Phi1_lelm1lm2 f_A1_weights f_A1_scaled f_M1_weights f_M1_monomials f_H2_weights_for_H1 f_H2_weights_for_M1 f_readout_1_weights f_readout_2_weights_1 f_readout_2_weights_2];
    change (length [6]) with 1; change (length [0; 1; 2; 3]) with 4; try rewrite repeat_length; try discriminate; try (cbn [length]; lia).
  - exact (zero_radial K).
  - exact (zero_radial K).
  - split; [cbn; lia|]. intros t Ht. assert (t = 0) as -> by lia. cbn [nth]. rewrite repeat_length. split; [lia|]. intros l Hl. rewrite nth_repeat_lt by lia. rewrite repeat_length. lia.
  - intros a lm k _ _ _. split; [exact M|reflexivity].
  - intros l Hl. cbn in Hl. lia.
  - intros l Hl. cbn. lia.
  - intros q Hq. destruct q as [|[|[|[|]]]]; cbn; lia.
  - intros q Hq. destruct q as [|[|[|[|]]]]; cbn; lia.
  - split; [cbn; lia|]. intros l Hl. rewrite nth_repeat_lt by lia. rewrite repeat_length. destruct l as [|[|[|[|]]]]; cbn; lia.
  - intros a k _ _. split; [exact M|reflexivity].
  - split; [cbn; lia|]. intros t Ht. assert (t = 0) as -> by lia. cbn [nth]. rewrite repeat_length. lia.
Qed.
(** [n] atoms of the same species, too far apart to be neighbours *)
Definition lone_atoms (n : nat) : input N := mkInput n (repeat 0 n) (repeat 0 n) [] [] [] [].
Lemma sum_zeros n : list_sum (repeat 0 n) = 0.
Proof. induction n; cbn; auto. Qed.
Lemma lone_ok K n : input_ok (zero_file K) (lone_atoms n).
Proof.
  constructor; unfold lone_atoms; cbn [i_num_nodes i_node_types i_num_neigh i_neigh_indices i_neigh_types i_xyz i_r]; rewrite ?repeat_length, ?sum_zeros; try reflexivity; try (intros ? []).
  intros t Ht. apply repeat_spec in Ht. subst t. cbn. lia.
Qed.
Lemma witness_C90 : exists (f : mace_file N) (x : input N) m b,
  file_ok f /\ input_ok f x /\ Forall indexable (array_sizes f (i_num_nodes x) (list_sum (i_num_neigh x))) /\
  f_num_channels f = 128 /\ f_l_max f = 3 /\ i_num_nodes x = 64 * 128 /\
  Forall (fun z => (z <= 67108864)%Z) (array_sizes f (i_num_nodes x) (list_sum (i_num_neigh x))) /\
  load_from_json srt f = Some (m, b) /\ i_compute m x = None.
Proof.
  exists (zero_file 128), (lone_atoms (64 * 128)). pose proof (zero_file_ok 128 ltac:(lia)) as F. pose proof (lone_ok 128 (64 * 128)) as X.
  destruct (load_eq srt Hsrt _ F) as (r & _ & E). do 2 eexists.
  assert (A : Forall (fun z => (z <= 67108864)%Z) (array_sizes (zero_file 128) (i_num_nodes (lone_atoms (64 * 128))) (list_sum (i_num_neigh (lone_atoms (64 * 128)))))).
  { unfold array_sizes. cbv zeta. unfold lone_atoms. cbn [i_num_nodes i_num_neigh]. rewrite sum_zeros. rewrite Nat2Z.inj_mul.
    unfold zero_file. cbv zeta. cbn [f_num_channels f_l_max f_L_max f_atomic_numbers f_Phi1_l f_Phi1_l1 f_Phi1_l2].
    repeat (apply Forall_cons; [cbn; lia|]). apply Forall_nil. }
  assert (B : Forall indexable (array_sizes (zero_file 128) (i_num_nodes (lone_atoms (64 * 128))) (list_sum (i_num_neigh (lone_atoms (64 * 128)))))) by (eapply Forall_impl; [|exact A]; intros z Hz; unfold indexable; cbv beta in Hz; lia).
  split; [exact F|]. split; [exact X|]. split; [exact B|]. split; [reflexivity|]. split; [reflexivity|]. split; [reflexivity|]. split; [exact A|]. split; [exact E|].
  pose proof (lemma_C90 _ _ _ _ F X ltac:(cbn [lone_atoms i_num_nodes]; lia) B E) as [H _].
  destruct (i_compute (ldm (zero_file 128)) (lone_atoms (64 * 128))) as [[]|]; [|reflexivity]. specialize (H eq_refl). exfalso. revert H. unfold indexable, lone_atoms, zero_file. cbv zeta. cbn [i_num_nodes f_num_channels f_l_max]. rewrite Nat2Z.inj_mul. cbn. lia.
Qed.
End Load.
