(** Which table an edge uses, when the tables of the file are listed by unordered species pair. *)
From Coq Require Import List Arith ZArith Lia Bool Permutation.
From Verif Require Import Base BaseLemmas Segs SplineModel SplineProofs MpModel MpSpec MpProofs MlpModel ZblModel MaceModel Sys SysLoops
  MaceGrid MacePure MaceStages1 MaceStages4 MacePipe MaceSpec MaceSpec2 MaceLoad MaceFlat MaceFlat2 MaceThms MaceTab ExportSpec ExportProofs.
Import ListNotations.

Section C10.
Context {N : Num}.
Variable srt : list (list (list nat)) -> list (list (list nat)).
Hypothesis Hsrt : forall l, Permutation l (srt l).
Variable f : mace_file N.
Hypothesis F : file_ok f.
Notation T := (length (f_atomic_numbers f)).

Lemma nth_upairs_map {A} (V : nat -> nat -> A) t u d : t < T -> u < T ->
  nth (tyij (ldm f) t u) (map (fun p => V (fst p) (snd p)) (upairs T)) d = V (Nat.min t u) (Nat.max t u).
Proof.
  intros Ht Hu. apply nth_error_nth. rewrite nth_error_map.
  pose proof (tyij_upairs (ldm f) t u Ht Hu) as E. cbn [ldm m_atomic_numbers] in E. rewrite E. reflexivity.
Qed.

Lemma nth_of_rd {A} (l : list A) i x d : rd l i = Some x -> nth i l d = x.
Proof. apply nth_error_nth. Qed.

Lemma radial_seg c vals ders (V D : nat -> nat -> list (list N)) t u (r : N) :
  radial_ok T c vals ders -> 1 <= c ->
  vals = map (fun p => V (fst p) (snd p)) (upairs T) -> ders = map (fun p => D (fst p) (snd p)) (upairs T) ->
  t < T -> u < T -> in_set (nth (tyij (ldm f) t u) (ld_set f vals ders) dset) r ->
  exists S, make_spline_set (f_radial_spline_h f) (V (Nat.min t u) (Nat.max t u)) (D (Nat.min t u) (Nat.max t u)) = Some S /\
    css_evaluate_derivs S r (repeat nzero c) 0 (repeat nzero c) 0 =
    Some (tab c (setv (nth (tyij (ldm f) t u) (ld_set f vals ders) dset) r),
          tab c (setd (nth (tyij (ldm f) t u) (ld_set f vals ders) dset) r)).
Proof.
  intros (H1 & H2 & H3) Hc Ev Ed Ht Hu Hin. set (q := tyij (ldm f) t u) in *.
  assert (Hq : q < length vals).
  { pose proof (tyij_lt (ldm f) t u Ht Hu) as L. cbn [ldm m_atomic_numbers] in L. fold q in L. lia. }
  rewrite nth_set in * by auto. destruct (H3 q Hq) as (kn & Hkn & L1 & L2 & R1 & R2).
  assert (E1 : nth q vals [] = V (Nat.min t u) (Nat.max t u)) by (rewrite Ev; apply nth_upairs_map; auto).
  assert (E2 : nth q ders [] = D (Nat.min t u) (Nat.max t u)) by (rewrite Ed; apply nth_upairs_map; auto).
  set (vs := nth q vals []) in *. set (ds := nth q ders []) in *.
  assert (E0 : length (nth 0 vs []) = kn) by (apply R1; apply nth_In; lia). rewrite E0 in *.
  exists (splset (f_radial_spline_h f) vs ds kn). split.
  - rewrite <- E1, <- E2. apply make_spline_set_spec; auto; lia.
  - pose proof (css_derivs_ok (splset (f_radial_spline_h f) vs ds kn) r [] (repeat nzero c) [] [] (repeat nzero c) [] 0 0 eq_refl eq_refl Hin) as Q.
    cbn [css_num splset app] in Q. rewrite !app_nil_r, L1 in Q. apply Q.
    + cbn [css_c css_nodes splset]. rewrite (length_flat_map_const _ _ (4 * length vs)), seq_length; [|intros; rewrite hset_tab, length_tab; reflexivity].
      rewrite L1. lia.
    + apply repeat_length.
    + apply repeat_length.
Qed.

Lemma edge_at x q i : input_ok f x -> nth_error (owners (i_num_neigh x)) q = Some i ->
  exists e, nth_error (epairs (sys_of x)) q = Some (i, e) /\ i < length (sys_of x) /\ In e (es (sys_of x) i) /\
    rd (i_neigh_types x) q = Some (e_type e) /\ rd (i_r x) q = Some (e_r e) /\ rd (i_node_types x) i = Some (ty (sys_of x) i).
Proof.
  intros Hx Ho. pose proof (flat_sys_of f x Hx) as Ex. set (s := sys_of x) in *.
  assert (Enn : i_num_neigh x = f_num_neigh s) by (rewrite <- Ex; reflexivity).
  rewrite Enn, <- map_fst_epairs_owners, nth_error_map in Ho.
  destruct (nth_error (epairs s) q) as [[i' e]|] eqn:Eq; [|discriminate]. cbn in Ho. injection Ho as ->.
  assert (Hie : In (i, e) (epairs s)) by (eapply nth_error_In; eauto). apply in_epairs in Hie.
  exists e. repeat split; try tauto.
  - rewrite <- Ex. apply (rd_nty _ _ _ _ Eq).
  - rewrite <- Ex. apply (rd_rij _ _ _ _ Eq).
  - rewrite <- Ex at 1. apply rd_ty. tauto.
Qed.

(** first radial functions *)
Lemma lemma_C10_R0 (V D : nat -> nat -> list (list N)) x q i t u r old oldd :
  f_radial_spline_values_0 f = map (fun p => V (fst p) (snd p)) (upairs T) ->
  f_radial_spline_derivs_0 f = map (fun p => D (fst p) (snd p)) (upairs T) ->
  input_ok f x -> nth_error (owners (i_num_neigh x)) q = Some i ->
  rd (i_node_types x) i = Some t -> rd (i_neigh_types x) q = Some u -> rd (i_r x) q = Some r ->
  let c := (f_l_max f + 1) * f_num_channels f in
  exists m b0 R0 R0d S Vq Dq, load_from_json srt f = Some (m, b0) /\
    compute_R0 m (i_num_nodes x) (i_node_types x) (i_num_neigh x) (i_neigh_types x) (i_r x) old oldd = Some (R0, R0d) /\
    make_spline_set (f_radial_spline_h f) (V (Nat.min t u) (Nat.max t u)) (D (Nat.min t u) (Nat.max t u)) = Some S /\
    css_evaluate_derivs S r (repeat nzero c) 0 (repeat nzero c) 0 = Some (Vq, Dq) /\
    forall p, p < c -> exists v d, rd R0 (q * c + p) = Some v /\ rd Vq p = Some v /\ rd R0d (q * c + p) = Some d /\ rd Dq p = Some d.
Proof.
  intros Ev Ed Hx Ho Ht Hu Hr c. destruct (load_ok srt Hsrt f F) as (b0 & E & L).
  pose proof (flat_sys_of f x Hx) as Ex. destruct (edge_at x q i Hx Ho) as (e & Eq & Hi & He & E1 & E2 & E3). set (s := sys_of x) in *.
  rewrite Hu in E1. rewrite Hr in E2. rewrite Ht in E3. injection E1 as ->. injection E2 as ->. injection E3 as ->.
  assert (Hx' : input_ok f (flat s)) by (rewrite Ex; exact Hx). pose proof (ld_sys_wf f F s Hx') as W1.
  pose proof (fo_K _ F) as HK.
  destruct (radial_seg c _ _ V D (ty s i) (e_type e) (e_r e) (fo_R0 _ F)) as (S & ES & EC); auto.
  { unfold c. nia. }
  { apply (sw_ty _ _ _ W1 i Hi). }
  { apply (sw_ety _ _ _ W1 i e Hi He). }
  { apply (sw_s0 _ _ _ W1 i e Hi He). }
  pose proof (compute_R0_ok (ldm f) s (ld_wf f F) (length s) W1 old oldd) as C. rewrite <- Ex.
  exists (ldm f), b0, (eb s c (R0v (ldm f) s)), (eb s c (R0d (ldm f) s)), S, (tab c (setv (set0 (ldm f) (ty s i) (e_type e)) (e_r e))),
    (tab c (setd (set0 (ldm f) (ty s i) (e_type e)) (e_r e))).
  split; [exact E|]. split; [exact C|]. split; [exact ES|]. split; [exact EC|].
  intros p Hp. exists (setv (set0 (ldm f) (ty s i) (e_type e)) (e_r e) p), (setd (set0 (ldm f) (ty s i) (e_type e)) (e_r e) p).
  rewrite !(rd_eb s q i e Eq c) with (p := p) by auto. rewrite !rd_tab by auto. auto.
Qed.

(** second radial functions *)
Lemma lemma_C10_R1 (V D : nat -> nat -> list (list N)) x q i t u r old oldd :
  f_radial_spline_values_1 f = map (fun p => V (fst p) (snd p)) (upairs T) ->
  f_radial_spline_derivs_1 f = map (fun p => D (fst p) (snd p)) (upairs T) ->
  input_ok f x -> nth_error (owners (i_num_neigh x)) q = Some i ->
  rd (i_node_types x) i = Some t -> rd (i_neigh_types x) q = Some u -> rd (i_r x) q = Some r ->
  let c := length (f_Phi1_l f) * f_num_channels f in
  exists m b0 R1 R1d S Vq Dq, load_from_json srt f = Some (m, b0) /\
    compute_R1 m (i_num_nodes x) (i_node_types x) (i_num_neigh x) (i_neigh_types x) (i_r x) old oldd = Some (R1, R1d) /\
    make_spline_set (f_radial_spline_h f) (V (Nat.min t u) (Nat.max t u)) (D (Nat.min t u) (Nat.max t u)) = Some S /\
    css_evaluate_derivs S r (repeat nzero c) 0 (repeat nzero c) 0 = Some (Vq, Dq) /\
    forall p, p < c -> exists v d, rd R1 (q * c + p) = Some v /\ rd Vq p = Some v /\ rd R1d (q * c + p) = Some d /\ rd Dq p = Some d.
Proof.
  intros Ev Ed Hx Ho Ht Hu Hr c. destruct (load_ok srt Hsrt f F) as (b0 & E & L).
  pose proof (flat_sys_of f x Hx) as Ex. destruct (edge_at x q i Hx Ho) as (e & Eq & Hi & He & E1 & E2 & E3). set (s := sys_of x) in *.
  rewrite Hu in E1. rewrite Hr in E2. rewrite Ht in E3. injection E1 as ->. injection E2 as ->. injection E3 as ->.
  assert (Hx' : input_ok f (flat s)) by (rewrite Ex; exact Hx). pose proof (ld_sys_wf f F s Hx') as W1.
  pose proof (fo_K _ F) as HK.
  assert (Hn : 1 <= length (f_Phi1_l f)).
  { pose proof (fo_l_all _ F 0 ltac:(lia)) as H0. destruct (f_Phi1_l f); [destruct H0|simpl; lia]. }
  destruct (radial_seg c _ _ V D (ty s i) (e_type e) (e_r e) (fo_R1 _ F)) as (S & ES & EC); auto.
  { unfold c. nia. }
  { apply (sw_ty _ _ _ W1 i Hi). }
  { apply (sw_ety _ _ _ W1 i e Hi He). }
  { apply (sw_s1 _ _ _ W1 i e Hi He). }
  pose proof (compute_R1_ok (ldm f) s (ld_wf f F) (length s) W1 old oldd) as C. rewrite <- Ex.
  exists (ldm f), b0, (eb s c (R1v (ldm f) s)), (eb s c (R1d (ldm f) s)), S, (tab c (setv (set1 (ldm f) (ty s i) (e_type e)) (e_r e))),
    (tab c (setd (set1 (ldm f) (ty s i) (e_type e)) (e_r e))).
  split; [exact E|]. split; [exact C|]. split; [exact ES|]. split; [exact EC|].
  intros p Hp. exists (setv (set1 (ldm f) (ty s i) (e_type e)) (e_r e) p), (setd (set1 (ldm f) (ty s i) (e_type e)) (e_r e) p).
  rewrite !(rd_eb s q i e Eq c) with (p := p) by auto. rewrite !rd_tab by auto. auto.
Qed.

Lemma edge_pos_eo (s : sys N) i : i < length s -> edge_pos (f_num_neigh s) i 0 = eo s i.
Proof.
  intros Hi. unfold edge_pos, eo, offs. rewrite Nat.add_0_r. unfold f_num_neigh. rewrite firstn_map.
  fold (f_num_neigh (firstn i s)). rewrite f_nn_sum. reflexivity.
Qed.

Lemma cs_eval_csv (c : cubic_spline) (r : N) : in_spl c r -> cs_evaluate c r = Ret (csv c r).
Proof.
  intros (y & d & E). pose proof (@SplineR.lemma_C13_gen N c r) as H. unfold csv. rewrite E in *. apply H.
Qed.

Lemma dens_sum (spls : list (@cubic_spline N)) h vals ders V D s x :
  flat s = x -> sys_wf (ldm f) s (length s) -> density_ok T vals ders ->
  (forall t u, t < T -> u < T -> nth (tyij (ldm f) t u) vals [] = V (Nat.min t u) (Nat.max t u)) ->
  (forall t u, t < T -> u < T -> nth (tyij (ldm f) t u) ders [] = D (Nat.min t u) (Nat.max t u)) ->
  spls = ld_spl h vals ders ->
  (forall i e, i < length s -> In e (es s i) -> in_spl (nth (tyij (ldm f) (ty s i) (e_type e)) spls dspl) (e_r e)) ->
  forall i, i < length s ->
  density_sum h V D x i = Some (nfold (es s i) (fun e => csv (nth (tyij (ldm f) (ty s i) (e_type e)) spls dspl) (e_r e)) none).
Proof.
  intros Ex W1 (H1 & H2 & H3) Ev Ed Es Hin i Hi. subst spls. unfold density_sum. rewrite <- Ex.
  cbn [flat i_num_nodes i_node_types i_num_neigh i_neigh_indices i_neigh_types i_xyz i_r].
  rewrite (rd_nn s i Hi), (rd_ty s i Hi), edge_pos_eo by auto. cbn [bind].
  unfold nfold. generalize (none : N) as a.
  assert (G : forall k a, k <= length (es s i) ->
    fold_left (fun acc q => a <- acc ;; u <- rd (f_neigh_types s) q ;; r <- rd (f_r s) q ;; d <- dens h V D (ty s i) u r ;; Some (nadd a d))
      (seq (eo s i) k) (Some a) =
    Some (fold_left (fun a e => nadd a (csv (nth (tyij (ldm f) (ty s i) (e_type e)) (ld_spl h vals ders) dspl) (e_r e))) (firstn k (es s i)) a)).
  { induction k as [|k IH]; intros a Hk; [reflexivity|].
    destruct (nth_error (es s i) k) as [e|] eqn:Ee; [|apply nth_error_None in Ee; lia].
    rewrite (firstn_S_nth _ _ _ Ee), seq_S, !fold_left_app, IH by lia. cbn [fold_left bind].
    pose proof (nth_epairs s i k e Hi Ee) as Eq. assert (He : In e (es s i)) by (eapply nth_error_In; eauto).
    rewrite (rd_nty s _ _ _ Eq), (rd_rij s _ _ _ Eq). cbn [bind].
    pose proof (sw_ty _ _ _ W1 i Hi) as Ht. pose proof (sw_ety _ _ _ W1 i e Hi He) as Hu. cbn [ldm m_atomic_numbers] in Ht, Hu.
    pose proof (tyij_lt (ldm f) _ _ Ht Hu) as Lq. cbn [ldm m_atomic_numbers] in Lq.
    specialize (Hin i e Hi He). set (q := tyij (ldm f) (ty s i) (e_type e)) in *.
    destruct (H3 q ltac:(lia)) as [K1 K2]. rewrite nth_spls in * by lia.
    assert (E1 : nth q vals [] = V (Nat.min (ty s i) (e_type e)) (Nat.max (ty s i) (e_type e))) by (apply Ev; auto).
    assert (E2 : nth q ders [] = D (Nat.min (ty s i) (e_type e)) (Nat.max (ty s i) (e_type e))) by (apply Ed; auto).
    unfold dens. rewrite <- E1, <- E2, make_spline_spec by auto. cbn [bind]. rewrite (cs_eval_csv _ _ Hin). reflexivity. }
  intros a. rewrite G by lia. rewrite firstn_all. reflexivity.
Qed.

(** density normalisation of A0: every entry of node [i] is divided by its density sum *)
Lemma lemma_C10_A0 (V D : nat -> nat -> list N) x A i p :
  f_A0_scaled f = true ->
  f_A0_spline_values f = map (fun p => V (fst p) (snd p)) (upairs T) ->
  f_A0_spline_derivs f = map (fun p => D (fst p) (snd p)) (upairs T) ->
  input_ok f x ->
  let c := (f_l_max f + 1) * (f_l_max f + 1) * f_num_channels f in
  length A = i_num_nodes x * c -> i < i_num_nodes x -> p < c ->
  exists m b0 B a rho, load_from_json srt f = Some (m, b0) /\
    compute_A0_scaled m (i_num_nodes x) (i_node_types x) (i_num_neigh x) (i_neigh_types x) (i_r x) A = Some B /\
    density_sum (f_A0_spline_h f) V D x i = Some rho /\
    rd A (i * c + p) = Some a /\ rd B (i * c + p) = Some (ndiv a rho).
Proof.
  intros Hs Ev Ed Hx c HA Hi Hp. destruct (load_ok srt Hsrt f F) as (b0 & E & L).
  pose proof (flat_sys_of f x Hx) as Ex. set (s := sys_of x) in *.
  assert (Hx' : input_ok f (flat s)) by (rewrite Ex; exact Hx). pose proof (ld_sys_wf f F s Hx') as W1.
  assert (Hls : i_num_nodes x = length s) by (rewrite <- Ex; reflexivity).
  rewrite (cube_of_list A (length s) ((f_l_max f + 1) * (f_l_max f + 1)) (f_num_channels f) nzero) by (rewrite HA, Hls; reflexivity).
  pose proof (compute_A0_scaled_ok (ldm f) s (ld_wf f F) (length s) W1 
    (fun i b j => nth (i * ((f_l_max f + 1) * (f_l_max f + 1) * f_num_channels f) + (b * f_num_channels f + j)) A nzero)) as C.
  assert (DS : density_sum (f_A0_spline_h f) V D (flat s) i = Some (sc0 (ldm f) s i)).
  { unfold sc0. apply (dens_sum _ (f_A0_spline_h f) (f_A0_spline_values f) (f_A0_spline_derivs f) V D s (flat s) eq_refl W1 (fo_A0s _ F Hs)); auto.
    - intros. rewrite Ev. apply nth_upairs_map; auto.
    - intros. rewrite Ed. apply nth_upairs_map; auto.
    - cbn [ldm m_A0_splines]. rewrite Hs. reflexivity.
    - intros k e Hk He. apply (sw_A0 _ _ _ W1 Hs k e Hk He).
    - lia. }
  rewrite <- Ex in *. exists (ldm f), b0. do 3 eexists. split; [exact E|]. split; [exact C|]. split; [exact DS|].
  pose proof (fo_K _ F) as HK. cbn [ldm m_A0_scaled m_num_channels m_l_max num_lm]. rewrite Hs. unfold num_lm. cbn [ldm m_l_max].
  pose proof (Nat.div_mod p (f_num_channels f) ltac:(lia)) as Hdm.
  pose proof (Nat.mod_upper_bound p (f_num_channels f) ltac:(lia)) as Hmod.
  assert (Hdiv : p / f_num_channels f < (f_l_max f + 1) * (f_l_max f + 1)) by (apply Nat.div_lt_upper_bound; unfold c in Hp; nia).
  set (b := p / f_num_channels f) in *. set (j := p mod f_num_channels f) in *.
  assert (Ep : p = b * f_num_channels f + j) by lia.
  assert (Hi' : i < length s) by lia.
  split; rewrite (rd_cube _ _ _ _ i b j) by (auto; unfold c; rewrite Ep; lia); reflexivity.
Qed.

Lemma lemma_C10_A1 (V D : nat -> nat -> list N) x A i p :
  f_A1_scaled f = true ->
  f_A1_spline_values f = map (fun p => V (fst p) (snd p)) (upairs T) ->
  f_A1_spline_derivs f = map (fun p => D (fst p) (snd p)) (upairs T) ->
  input_ok f x ->
  let c := (f_l_max f + 1) * (f_l_max f + 1) * f_num_channels f in
  length A = i_num_nodes x * c -> i < i_num_nodes x -> p < c ->
  exists m b0 B a rho, load_from_json srt f = Some (m, b0) /\
    compute_A1_scaled m (i_num_nodes x) (i_node_types x) (i_num_neigh x) (i_neigh_types x) (i_r x) A = Some B /\
    density_sum (f_A1_spline_h f) V D x i = Some rho /\
    rd A (i * c + p) = Some a /\ rd B (i * c + p) = Some (ndiv a rho).
Proof.
  intros Hs Ev Ed Hx c HA Hi Hp. destruct (load_ok srt Hsrt f F) as (b0 & E & L).
  pose proof (flat_sys_of f x Hx) as Ex. set (s := sys_of x) in *.
  assert (Hx' : input_ok f (flat s)) by (rewrite Ex; exact Hx). pose proof (ld_sys_wf f F s Hx') as W1.
  assert (Hls : i_num_nodes x = length s) by (rewrite <- Ex; reflexivity).
  rewrite (cube_of_list A (length s) ((f_l_max f + 1) * (f_l_max f + 1)) (f_num_channels f) nzero) by (rewrite HA, Hls; reflexivity).
  pose proof (compute_A1_scaled_ok (ldm f) s (ld_wf f F) (length s) W1 
    (fun i b j => nth (i * ((f_l_max f + 1) * (f_l_max f + 1) * f_num_channels f) + (b * f_num_channels f + j)) A nzero)) as C.
  assert (DS : density_sum (f_A1_spline_h f) V D (flat s) i = Some (sc1 (ldm f) s i)).
  { unfold sc1. apply (dens_sum _ (f_A1_spline_h f) (f_A1_spline_values f) (f_A1_spline_derivs f) V D s (flat s) eq_refl W1 (fo_A1s _ F Hs)); auto.
    - intros. rewrite Ev. apply nth_upairs_map; auto.
    - intros. rewrite Ed. apply nth_upairs_map; auto.
    - cbn [ldm m_A1_splines]. rewrite Hs. reflexivity.
    - intros k e Hk He. apply (sw_A1 _ _ _ W1 Hs k e Hk He).
    - lia. }
  rewrite <- Ex in *. exists (ldm f), b0. do 3 eexists. split; [exact E|]. split; [exact C|]. split; [exact DS|].
  pose proof (fo_K _ F) as HK. cbn [ldm m_A1_scaled m_num_channels m_l_max num_lm]. rewrite Hs. unfold num_lm. cbn [ldm m_l_max].
  pose proof (Nat.div_mod p (f_num_channels f) ltac:(lia)) as Hdm.
  pose proof (Nat.mod_upper_bound p (f_num_channels f) ltac:(lia)) as Hmod.
  assert (Hdiv : p / f_num_channels f < (f_l_max f + 1) * (f_l_max f + 1)) by (apply Nat.div_lt_upper_bound; unfold c in Hp; nia).
  set (b := p / f_num_channels f) in *. set (j := p mod f_num_channels f) in *.
  assert (Ep : p = b * f_num_channels f + j) by lia.
  assert (Hi' : i < length s) by lia.
  split; rewrite (rd_cube _ _ _ _ i b j) by (auto; unfold c; rewrite Ep; lia); reflexivity.
Qed.
End C10.
