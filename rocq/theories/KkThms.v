(** Whole evaluations and histories of evaluations with the Kokkos object, against those of the CPU object.  Used in proofs
    only. *)
From Coq Require Import List Arith ZArith Bool Lia Reals Permutation.
From Verif Require Import Base BaseLemmas Segs Instances RSums MpModel MlpModel MaceModel MaceSpec Sys SysLoops
  MaceGrid MacePure MaceStages1 MacePipe MaceLoad MaceFlat MaceThms.
From Verif Require Import KkSem KkWp KkModel KkChain KkHost KkEq KkStage1 KkStage6 KkSpec KkLoad1 KkLoad2 KkLoad3 KkLoad4 KkTerm.
Import ListNotations.
Local Open Scope nat_scope.

Lemma good_fresh (km : kmace RNum) : good km kk_fresh.
Proof. constructor; try reflexivity. intros b. destruct b; cbn; auto. Qed.

Lemma view_has1 m b A g : has1 m b A g -> firstn A (kk_view m b) = tab A g.
Proof.
  intros [H1 H2]. unfold kk_view, tab.
  replace (extent m b 0) with (A + (extent m b 0 - A)) by lia.
  rewrite seq_app, map_app, firstn_app, map_length, seq_length, Nat.sub_diag, firstn_O, app_nil_r.
  rewrite firstn_all2 by (rewrite map_length, seq_length; lia).
  apply map_ext_in. intros i Hi. apply in_seq in Hi. apply H2. lia.
Qed.

Lemma view_all m A g : has1 m bE A g -> tz A m -> kk_view m bE = tab A g ++ repeat 0%R (extent m bE 0 - A).
Proof.
  intros H Z. rewrite <- (view_has1 m bE A g H). rewrite <- (firstn_skipn A (kk_view m bE)) at 1. f_equal.
  destruct H as [H _]. unfold kk_view. set (e := extent m bE 0) in *. clearbody e.
  replace e with (A + (e - A)) at 1 by lia. rewrite seq_app, map_app, skipn_app, map_length, seq_length, Nat.sub_diag.
  rewrite skipn_all2 by (rewrite map_length, seq_length; lia). cbn [app skipn].
  cbn [Nat.add]. generalize (e - A) as k. intros k. rewrite <- (seq_length k A) at 2.
  assert (Z' : forall i, In i (seq A k) -> val m (bE, [i]) = 0%R) by (intros i Hi; apply Z; apply in_seq in Hi; lia).
  revert Z'. generalize (seq A k) as l. intros l. induction l as [|i l IH]; intros Z'; [reflexivity|]. cbn [map length repeat].
  f_equal; [apply Z'; left; reflexivity|apply IH; intros; apply Z'; right; auto].
Qed.

Lemma eb_tab (s : sys RNum) c g : eb s c g = tab (length (epairs s) * c) (eflat s c g).
Proof.
  apply (list_eq_nth _ _ 0%R).
  - rewrite length_tab. apply length_eb.
  - intros k Hk. assert (Hk' : k < length (epairs s) * c) by (rewrite <- (length_eb s c g); exact Hk). clear Hk. rename Hk' into Hk. destruct (Nat.eq_dec c 0) as [->|Hc]; [lia|].
    rewrite nth_tab by exact Hk.
    assert (E : k = k / c * c + k mod c) by (rewrite Nat.mul_comm; apply Nat.div_mod; auto).
    pose proof (Nat.mod_upper_bound k c Hc) as B.
    assert (Q : k / c < length (epairs s)) by (apply Nat.div_lt_upper_bound; lia).
    apply nth_error_nth. exact (rd_eb s (k / c) (ow s (k / c)) (eg s (k / c)) (ep_split s _ Q) c g (k mod c) k B E).
Qed.

Lemma flat_dom (f : mace_file RNum) (s : sys RNum) : input_ok f (flat s) -> forall q, q < length (epairs s) -> in_domain f (e_r (eg s q)).
Proof.
  intros Hx q H. apply (io_dom _ _ Hx). cbn. unfold f_r. apply in_map. unfold all_edges. apply in_flat_map.
  exists (nd_ s (ow s q)). split; [apply nth_In, ow_lt; auto|apply eg_in; auto].
Qed.

Section T.
Variable sph : nat -> RNum -> RNum -> RNum -> list RNum * list RNum.
Variable junk : mem RNum -> KkSem.cell -> RNum.
Variable srt : list (list (list nat)) -> list (list (list nat)).
Hypothesis Hsrt : forall l, Permutation l (srt l).
Variable f : mace_file RNum.
Hypothesis F : file_ok f.
Hypothesis KF : kk_file_ok f.
Variable km : kmace RNum.
Hypothesis D : kld srt f km.

Notation RE x := (tab (i_num_nodes x) (resE sph srt f (sys_of x))).
Notation RF x := (eb (sys_of x) 3 (resF sph srt f (sys_of x))).

(** one evaluation: the one outcome *)
Notation kmids' x m' := (kmids sph km (ldm f) (ldp0 srt f) (ldp1 srt f) (ldfg f) (sys_of x) m').
Definition one (m : mem RNum) (x : input RNum) (m' : mem RNum) : Prop :=
  good km m' /\ kk_node_energies m' = RE x ++ repeat 0%R (extent m' bE 0 - i_num_nodes x) /\ firstn (length (i_xyz x)) (kk_node_forces m') = RF x /\
  extent m' bE 0 = Nat.max (extent m bE 0) (i_num_nodes x) /\ kmids' x m'.

Lemma kcall_ls m x : good km m -> input_ok f x ->
  exists m', (forall o, kk_call sph junk km m x o <-> o = Some m') /\ one m x m' /\ lsame m m'.
Proof.
  intros G Hx. pose proof (flat_sys_of f x Hx) as E. unfold one. set (s := sys_of x) in *. clearbody s.
  subst x. destruct (kin_ok srt Hsrt f F KF km D s _ (ld_sys_wf f F s Hx) (flat_dom f s Hx)) as (V0 & V1 & KI).
  destruct (hok_exec _ _ _ (st_full sph junk km _ _ _ _ _ _ _ _ V0 V1 s KI (ld_wf f F) m G)) as (m' & H1 & G' & HE & HF & HM & HT & HD & LS).
  exists m'. split; [exact H1|]. split; [|exact LS]. split; [exact G'|].
  assert (EL : length (i_xyz (flat s)) = length (epairs s) * 3).
  { cbn [flat i_xyz]. unfold f_xyz. rewrite length_flat_map_const with (c := 3) by reflexivity. rewrite <- map_snd_epairs, map_length. reflexivity. }
  split; [|split; [|split; [|exact HM]]].
  - unfold kk_node_energies. apply view_all; [exact HE|exact HT].
  - unfold kk_node_forces. rewrite EL, eb_tab. apply view_has1. rewrite Nat.mul_comm. exact HF.
  - unfold extent in *. rewrite HD. cbn [flat i_num_nodes]. destruct (Nat.ltb_spec (nth 0 (dims m bE) 0) (length s)); cbn [nth]; lia.
Qed.
Lemma kcall_ok m x : good km m -> input_ok f x ->
  exists m', (forall o, kk_call sph junk km m x o <-> o = Some m') /\ one m x m'.
Proof. intros G Hx. destruct (kcall_ls m x G Hx) as (m' & A & B & _). eauto. Qed.

Definition sizes (xs : list (input RNum)) : nat := fold_left Nat.max (map i_num_nodes xs) 0.
Lemma fold_max l a : fold_left Nat.max l a = Nat.max a (fold_left Nat.max l 0).
Proof.
  revert a. induction l as [|b l IH]; intros a; cbn [fold_left]; [lia|]. rewrite IH, (IH (Nat.max 0 b)). lia.
Qed.
Lemma kcalls_ok m xs : good km m -> Forall (input_ok f) xs ->
  exists m', (forall o, kk_calls sph junk km m xs o <-> o = Some m') /\ good km m' /\
    extent m' bE 0 = Nat.max (extent m bE 0) (sizes xs).
Proof.
  intros G H. revert m G. induction H as [|x xs Hx Hxs IH]; intros m G.
  - exists m. split; [|split; [exact G|cbn; lia]]. intros o. split; [intros Q; inversion Q; reflexivity|intros ->; constructor].
  - destruct (kcall_ok m x G Hx) as (m1 & E1 & G1 & _ & _ & X1 & _). destruct (IH m1 G1) as (m2 & E2 & G2 & X2).
    exists m2. split; [|split; [exact G2|]].
    + intros o. split.
      * intros Q. inversion Q as [|? ? ? U|? ? ? m' ? U V]; subst.
        -- apply E1 in U. discriminate.
        -- apply E1 in U. injection U as ->. apply E2. exact V.
      * intros ->. apply kc_cons with (m' := m1); [apply E1; reflexivity|apply E2; reflexivity].
    + rewrite X2, X1. unfold sizes. cbn [map fold_left]. rewrite (fold_max _ (Nat.max 0 _)). lia.
Qed.
Lemma kcalls_app m xs ys o : kk_calls sph junk km m (xs ++ ys) o <->
  (kk_calls sph junk km m xs None /\ o = None) \/ exists m', kk_calls sph junk km m xs (Some m') /\ kk_calls sph junk km m' ys o.
Proof.
  split.
  - revert m. induction xs as [|x xs IH]; intros m H; cbn [app] in H.
    + right. exists m. split; [constructor|exact H].
    + inversion H as [|? ? ? U|? ? ? m' ? U V]; subst.
      * left. split; [apply kc_ub; auto|reflexivity].
      * destruct (IH m' V) as [[A B]|(m2 & A & B)]; [left; split; auto; eapply kc_cons; eauto|].
        right. exists m2. split; [eapply kc_cons; eauto|exact B].
  - revert m. induction xs as [|x xs IH]; intros m H; cbn [app].
    + destruct H as [[A _]|(m' & A & B)]; inversion A; subst; auto.
    + destruct H as [[A ->]|(m' & A & B)].
      * inversion A as [|? ? ? U|? ? ? m1 ? U V]; subst; [apply kc_ub; auto|]. eapply kc_cons; [exact U|]. apply IH. left. auto.
      * inversion A as [|? ? ? U|? ? ? m1 ? U V]; subst. eapply kc_cons; [exact U|]. apply IH. right. eauto.
Qed.
Lemma khist_ok xs x : Forall (input_ok f) xs -> input_ok f x ->
  exists m', (forall o, kk_calls sph junk km kk_fresh (xs ++ [x]) o <-> o = Some m') /\
    kk_node_energies m' = RE x ++ repeat 0%R (sizes (xs ++ [x]) - i_num_nodes x) /\ firstn (length (i_xyz x)) (kk_node_forces m') = RF x /\
    length (kk_node_energies m') = sizes (xs ++ [x]) /\ kmids' x m'.
Proof.
  intros Hs Hx. destruct (kcalls_ok kk_fresh xs (good_fresh km) Hs) as (m1 & E1 & G1 & X1).
  destruct (kcall_ok m1 x G1 Hx) as (m2 & E2 & G2 & HE & HF & X2 & HM). exists m2.
  assert (XS : extent m2 bE 0 = sizes (xs ++ [x])).
  { rewrite X2, X1. unfold sizes. rewrite map_app, fold_left_app. cbn [map fold_left]. change (extent kk_fresh bE 0) with 0. lia. }
  rewrite <- XS. split; [|split; [exact HE|split; [exact HF|split; [|exact HM]]]].
  - intros o. rewrite kcalls_app. split.
    + intros [[A _]|(m' & A & B)]; [apply E1 in A; discriminate|]. apply E1 in A. injection A as ->.
      inversion B as [|? ? ? U|? ? ? m3 ? U V]; subst; [apply E2 in U; discriminate|]. apply E2 in U. injection U as ->. inversion V; reflexivity.
    + intros ->. right. exists m1. split; [apply E1; reflexivity|]. eapply kc_cons; [apply E2; reflexivity|constructor].
  - unfold kk_node_energies, kk_view. rewrite map_length, seq_length. reflexivity.
Qed.
End T.

(** the CPU evaluation with the features it leaves behind *)
Lemma call_full (sph : nat -> RNum -> RNum -> RNum -> list RNum * list RNum) (Hsph : sph_ok sph) srt (f : mace_file RNum) (F : file_ok f) b x :
  bufs_live (ldm f) (ldp0 srt f) (ldp1 srt f) (ldlive f) b -> input_ok f x ->
  exists b', call sph (ldm f) b x = Some b' /\
    b_node_energies b' = tab (i_num_nodes x) (resE sph srt f (sys_of x)) /\ b_node_forces b' = eb (sys_of x) 3 (resF sph srt f (sys_of x)) /\
    mids sph (ldm f) (ldp0 srt f) (ldp1 srt f) (ldfg f) (sys_of x) b'.
Proof.
  intros Hb Hx. pose proof (flat_sys_of f x Hx) as E. set (s := sys_of x) in *. clearbody s. subst x.
  destruct (pipeline_full sph Hsph (ldm f) (ldp0 srt f) (ldp1 srt f) (ldlive f) (ldfe f) (ldfg f) s
    (ld_wf f F) (ld_zbl f F) (ld_sys_wf f F s Hx) (ld_ro f F) b Hb) as (b' & A & B & C).
  exists b'. split; [exact A|]. exact C.
Qed.

Lemma has3_same m b n A K g : has3 m b n A K g -> same3 m b n A K (cube n A K g).
Proof.
  intros [_ H] i j k Hi Hj Hk. replace ((i * A + j) * K + k) with (i * (A * K) + (j * K + k)) by ring.
  refine (eq_trans (rd_cube n A K g i j k _ eq_refl Hi Hj Hk) (f_equal Some _)). symmetry. apply H; auto.
Qed.
Lemma has2_same m b n K g : has2 m b n K g -> same2 m b n K (grid n K g).
Proof. intros [_ H] i k Hi Hk. refine (eq_trans (rd_grid n K g i k _ eq_refl Hi Hk) (f_equal Some _)). symmetry. apply H; auto. Qed.

Lemma mids_same sph srt f km (D : kld srt f km) x (Hx : input_ok f x) mem b2 :
  kmids sph km (ldm f) (ldp0 srt f) (ldp1 srt f) (ldfg f) (sys_of x) mem ->
  mids sph (ldm f) (ldp0 srt f) (ldp1 srt f) (ldfg f) (sys_of x) b2 ->
  let n := i_num_nodes x in let K := f_num_channels f in
  let lm := (f_l_max f + 1) * (f_l_max f + 1) in let LM := (f_L_max f + 1) * (f_L_max f + 1) in
  (same3 mem bA0 n lm K (b_A0 b2) /\ same3 mem bM0 n LM K (b_M0 b2) /\ same3 mem bH1 n LM K (b_H1 b2)) /\
  (same3 mem bA1 n lm K (b_A1 b2) /\ same2 mem bM1 n K (b_M1 b2) /\ same2 mem bH2 n K (b_H2 b2)) /\
  (same2 mem bM1a n K (b_M1_adj b2) /\ same3 mem bA1a n lm K (b_A1_adj b2) /\
   same3 mem bM0a n LM K (b_M0_adj b2) /\ same3 mem bA0a n lm K (b_A0_adj b2)).
Proof.
  intros M M2. cbv zeta.
  assert (EK : k_num_channels km = f_num_channels f) by apply D.
  assert (El : k_num_lm km = (f_l_max f + 1) * (f_l_max f + 1)) by (unfold k_num_lm; rewrite (l_l _ _ _ D); reflexivity).
  assert (EL' : k_num_LM km = (f_L_max f + 1) * (f_L_max f + 1)) by (unfold k_num_LM; rewrite (l_L _ _ _ D); reflexivity).
  assert (En : length (sys_of x) = i_num_nodes x) by (rewrite <- (flat_sys_of f x Hx) at 2; reflexivity).
  unfold kmids in M. rewrite EK, El, EL', En in M. unfold mids in M2. rewrite En in M2. cbn [ldm m_num_channels] in M2.
  destruct M as ((M1a & M1b & M1c) & (M2a & M2b & M2c) & (M3a & M3b & M3c & M3d)).
  destruct M2 as ((N1a & N1b & N1c) & (N2a & N2b & N2c) & (N3a & N3b & N3c & N3d)).
  rewrite N1a, N1b, N1c, N2a, N2b, N2c, N3a, N3b, N3c, N3d.
  repeat split; (apply has3_same || apply has2_same); assumption.
Qed.

(** ** The property lemmas *)
Section L.
Variable sph : nat -> RNum -> RNum -> RNum -> list RNum * list RNum.
Hypothesis Hsph : sph_ok sph.
Variable junk : mem RNum -> KkSem.cell -> RNum.
Variable srt : list (list (list nat)) -> list (list (list nat)).
Hypothesis Hsrt : forall l, Permutation l (srt l).
Variable f : mace_file RNum.
Hypothesis F : file_ok f.
Hypothesis KF : kk_file_ok f.
Variables (hist : list (input RNum)) (x : input RNum).
Hypothesis Hh : Forall (input_ok f) hist.
Hypothesis Hx : input_ok f x.

Lemma lemma_C54 : exists km m b0 b1, kk_load_from_json srt f = Some km /\ load_from_json srt f = Some (m, b0) /\
  call sph m b0 x = Some b1 /\ (exists mem, kk_calls sph junk km kk_fresh (hist ++ [x]) (Some mem)) /\
  forall o, kk_calls sph junk km kk_fresh (hist ++ [x]) o -> exists mem, o = Some mem /\
    firstn (i_num_nodes x) (kk_node_energies mem) = b_node_energies b1 /\
    firstn (length (i_xyz x)) (kk_node_forces mem) = b_node_forces b1.
Proof.
  destruct (kk_load_ok srt Hsrt f F KF) as (km & EL & D). destruct (load_ok srt Hsrt f F) as (b0 & EC & LV).
  destruct (call_full sph Hsph srt f F b0 x LV Hx) as (b2 & C2 & E2 & F2 & _).
  destruct (khist_ok sph junk srt Hsrt f F KF km D hist x Hh Hx) as (mem & A & B & C & _).
  exists km, (ldm f), b0, b2. rewrite E2, F2. do 3 (split; [auto|]). split; [exists mem; apply A; reflexivity|].
  intros o Ho. apply A in Ho. exists mem. split; [exact Ho|]. split; [|exact C]. rewrite B.
  rewrite firstn_app, length_tab, Nat.sub_diag, firstn_O, app_nil_r. apply firstn_all2. rewrite length_tab. lia.
Qed.

Lemma lemma_mid : exists km m b0 b1, kk_load_from_json srt f = Some km /\ load_from_json srt f = Some (m, b0) /\
  call sph m b0 x = Some b1 /\ (exists mem, kk_calls sph junk km kk_fresh (hist ++ [x]) (Some mem)) /\
  forall o, kk_calls sph junk km kk_fresh (hist ++ [x]) o -> exists mem, o = Some mem /\
    let n := i_num_nodes x in let K := f_num_channels f in
    let lm := (f_l_max f + 1) * (f_l_max f + 1) in let LM := (f_L_max f + 1) * (f_L_max f + 1) in
    (same3 mem bA0 n lm K (b_A0 b1) /\ same3 mem bM0 n LM K (b_M0 b1) /\ same3 mem bH1 n LM K (b_H1 b1)) /\
    (same3 mem bA1 n lm K (b_A1 b1) /\ same2 mem bM1 n K (b_M1 b1) /\ same2 mem bH2 n K (b_H2 b1)) /\
    (same2 mem bM1a n K (b_M1_adj b1) /\ same3 mem bA1a n lm K (b_A1_adj b1) /\
     same3 mem bM0a n LM K (b_M0_adj b1) /\ same3 mem bA0a n lm K (b_A0_adj b1)).
Proof.
  destruct (kk_load_ok srt Hsrt f F KF) as (km & EL & D). destruct (load_ok srt Hsrt f F) as (b0 & EC & LV).
  destruct (call_full sph Hsph srt f F b0 x LV Hx) as (b2 & C2 & E2 & F2 & M2).
  destruct (khist_ok sph junk srt Hsrt f F KF km D hist x Hh Hx) as (mem & A & B & C & X & M).
  exists km, (ldm f), b0, b2.
  do 3 (split; [auto|]). split; [exists mem; apply A; reflexivity|]. intros o Ho. apply A in Ho. exists mem. split; [exact Ho|]. cbv zeta.
  apply (mids_same sph srt f km D x Hx mem b2 M M2).
Qed.

Lemma lemma_C46 : exists km m b0 b1, kk_load_from_json srt f = Some km /\ load_from_json srt f = Some (m, b0) /\
  call sph m b0 x = Some b1 /\ (exists mem, kk_calls sph junk km kk_fresh (hist ++ [x]) (Some mem)) /\
  forall o, kk_calls sph junk km kk_fresh (hist ++ [x]) o -> exists mem, o = Some mem /\
    same3 mem bA0 (i_num_nodes x) ((f_l_max f + 1) * (f_l_max f + 1)) (f_num_channels f) (b_A0 b1).
Proof.
  destruct lemma_mid as (km & m & b0 & b1 & E1 & E2 & E3 & E4 & H). exists km, m, b0, b1. do 4 (split; [assumption|]).
  intros o Ho. destruct (H o Ho) as (mem & Em & (A & _) & _). eauto.
Qed.
Lemma lemma_C47 : exists km m b0 b1, kk_load_from_json srt f = Some km /\ load_from_json srt f = Some (m, b0) /\
  call sph m b0 x = Some b1 /\ (exists mem, kk_calls sph junk km kk_fresh (hist ++ [x]) (Some mem)) /\
  forall o, kk_calls sph junk km kk_fresh (hist ++ [x]) o -> exists mem, o = Some mem /\
    let n := i_num_nodes x in let K := f_num_channels f in
    let lm := (f_l_max f + 1) * (f_l_max f + 1) in let LM := (f_L_max f + 1) * (f_L_max f + 1) in
    same3 mem bM0 n LM K (b_M0 b1) /\ same3 mem bA0a n lm K (b_A0_adj b1) /\
    same2 mem bM1 n K (b_M1 b1) /\ same3 mem bA1a n lm K (b_A1_adj b1).
Proof.
  destruct lemma_mid as (km & m & b0 & b1 & E1 & E2 & E3 & E4 & H). exists km, m, b0, b1. do 4 (split; [assumption|]).
  intros o Ho. destruct (H o Ho) as (mem & Em & (_ & B & _) & (_ & C & _) & (_ & D & _ & E)). exists mem. auto 6.
Qed.

Lemma lemma_C48 : exists km, kk_load_from_json srt f = Some km /\
  (exists mem, kk_calls sph junk km kk_fresh (hist ++ [x]) (Some mem)) /\
  forall mem, kk_calls sph junk km kk_fresh (hist ++ [x]) (Some mem) ->
    length (kk_node_energies mem) = fold_left Nat.max (map i_num_nodes (hist ++ [x])) 0 /\
    skipn (i_num_nodes x) (kk_node_energies mem) = repeat 0%R (length (kk_node_energies mem) - i_num_nodes x).
Proof.
  destruct (kk_load_ok srt Hsrt f F KF) as (km & EL & D).
  destruct (khist_ok sph junk srt Hsrt f F KF km D hist x Hh Hx) as (mem & A & B & C & X & M).
  exists km. split; [exact EL|]. split; [exists mem; apply A; reflexivity|]. intros mem' H. apply A in H. injection H as ->.
  split; [exact X|]. rewrite X. rewrite B, skipn_app, length_tab, Nat.sub_diag. rewrite skipn_all2 by (rewrite length_tab; lia). reflexivity.
Qed.

Lemma lemma_C55 : exists km, kk_load_from_json srt f = Some km /\
  forall mem, kk_calls sph junk km kk_fresh hist (Some mem) ->
  let start := (kk_compute_node_energies_forces sph junk km (i_num_nodes x) (i_node_types x) (i_num_neigh x) (i_neigh_indices x)
    (i_neigh_types x) (i_xyz x) (i_r x), mem) in
  (forall s, s 0 = start -> ~ forall i, hstep (s i) (s (S i))) /\
  exists mem', forall c, hreach start c -> c = ([], mem') \/ exists c', hstep c c'.
Proof.
  destruct (kk_load_ok srt Hsrt f F KF) as (km & EL & D). exists km. split; [exact EL|]. intros mem H.
  destruct (kcalls_ok sph junk srt Hsrt f F KF km D kk_fresh hist (good_fresh km) Hh) as (m1 & A & G & _).
  apply A in H. injection H as ->. destruct (kcall_ok sph junk srt Hsrt f F KF km D m1 x G Hx) as (m2 & B & _).
  destruct (all_end _ _ _ B) as [X Y]. split; [exact X|]. exists m2. exact Y.
Qed.
End L.

Lemma lemma_C56 srt : (forall l, Permutation l (srt l)) -> forall f : mace_file RNum, file_ok f -> kk_file_ok f ->
  exists km m b, kk_load_from_json srt f = Some km /\ load_from_json srt f = Some (m, b).
Proof.
  intros Hsrt f F KF. destruct (kk_load_ok srt Hsrt f F KF) as (km & EL & D). destruct (load_ok srt Hsrt f F) as (b0 & EC & LV). eauto.
Qed.
