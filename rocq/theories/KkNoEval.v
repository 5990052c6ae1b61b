(** Splines and scaled features of the second layer when the edges go on beyond the nodes it works on: RadialFunctionSetKokkos::evaluate
    runs over all edges, with the type of node 0 for those of no node.  Used in proofs only. *)
From Coq Require Import List Arith ZArith Bool Lia Reals Lra.
From Verif Require Import Base BaseLemmas Segs BlasLemmas Instances RSums MpModel MpProofs ZblModel MaceModel Sys SysLoops MaceGrid
  MacePure MaceStages1 MaceStages4 MaceStages6 MacePipe DistPipe DistMono DistNo.
From Verif Require Import KkSem KkSound KkWp KkWp2 KkModel KkHost KkTac KkK1 KkK2 KkK3 KkK4 KkK5 KkK6 KkK7 KkEq KkChain KkSim KkStage1 KkStage2 KkStage3 KkNoSim.
Import ListNotations.
Local Open Scope R_scope.

Lemma ow_pre (s1 s2 : sys RNum) q : (q < length (epairs s1))%nat -> ow (s1 ++ s2) q = ow s1 q.
Proof. intros H. unfold ow. rewrite epairs_pre, app_nth1; auto. Qed.
Lemma eg_pre (s1 s2 : sys RNum) q : (q < length (epairs s1))%nat -> eg (s1 ++ s2) q = eg s1 q.
Proof. intros H. unfold eg. rewrite epairs_pre, app_nth1; auto. Qed.
Lemma nE_pre (s1 s2 : sys RNum) : (length (epairs s1) <= length (epairs (s1 ++ s2)))%nat.
Proof. rewrite epairs_pre, app_length. lia. Qed.
Lemma eflat_pre (s1 s2 : sys RNum) c g x : (c <> 0)%nat -> (x < length (epairs s1) * c)%nat -> eflat (s1 ++ s2) c g x = eflat s1 c g x.
Proof.
  intros Hc H. unfold eflat. assert ((x / c < length (epairs s1))%nat) by (apply Nat.div_lt_upper_bound; lia).
  rewrite ow_pre, eg_pre by assumption. reflexivity.
Qed.

Section Fake.
Variables s1 s2 : sys RNum.
Notation s := (s1 ++ s2).
Notation n1 := (length s1).
Notation nE1 := (length (epairs s1)).
Notation nE := (length (epairs s)).
(** the trailing edges belong to a node of the type of node 0 *)
Definition fake : sys RNum := s1 ++ [mkNode (ty s1 0) (all_edges s2)].
Lemma all_fake : all_edges fake = all_edges s.
Proof. unfold fake. rewrite !all_edges_pre. f_equal. unfold all_edges at 1. cbn [flat_map n_edges]. apply app_nil_r. Qed.
Lemma len_ae (x : sys RNum) : length (epairs x) = length (all_edges x).
Proof. rewrite <- (length_r x). unfold f_r. apply map_length. Qed.
Lemma nE_fake : length (epairs fake) = nE.
Proof. rewrite !len_ae, all_fake. reflexivity. Qed.
Lemma et_fake : f_neigh_types fake = f_neigh_types s.
Proof. unfold f_neigh_types. rewrite all_fake. reflexivity. Qed.
Lemma r_fake : f_r fake = f_r s.
Proof. unfold f_r. rewrite all_fake. reflexivity. Qed.
Lemma len_fake : length fake = S n1.
Proof. unfold fake. rewrite app_length. cbn. lia. Qed.

(** i_list for the leading nodes *)
Lemma for_app (n i : nat) (body : nat -> list nat * nat -> option (list nat * nat)) body' (x : list nat) :
  (forall j l k l' k', body j (l, k) = Some (l', k') -> body' j (l ++ x, k) = Some (l' ++ x, k')) ->
  forall l k l' k', for_from n i body (l, k) = Some (l', k') -> for_from n i body' (l ++ x, k) = Some (l' ++ x, k').
Proof.
  intros Hb. revert i. induction n as [|n IH]; intros i l k l' k'; cbn [for_from].
  - intros E. injection E as <- <-. reflexivity.
  - intros E. apply bind_some_inv in E as ([l2 k2] & E & E2). rewrite (Hb _ _ _ _ _ E). cbn [bind]. apply IH. exact E2.
Qed.
Lemma i_list_pre : i_list n1 (f_num_neigh s) (length (f_r s)) = Some (tab nE1 (ow s1) ++ repeat 0%nat (nE - nE1)).
Proof.
  rewrite length_r. rewrite nn_pre. pose proof (i_list_ok s1) as E. unfold i_list in *.
  rewrite (first_neigh_ok s1) in E. rewrite (first_neigh_app _ _ _ _ (first_neigh_ok s1)). cbn [bind] in *.
  replace nE with (nE1 + (nE - nE1))%nat at 1 by (pose proof (nE_pre s1 s2); lia). rewrite repeat_app.
  set (x := repeat 0%nat (nE - nE1)). generalize dependent (repeat 0%nat nE1). generalize (tab nE1 (ow s1)). intros l' l0.
  generalize (tab n1 (eo s1)) as fn. intros fn. unfold for_ at 1 3. generalize 0%nat at 1 3 as i. generalize n1 as n. intros n. revert l0. induction n as [|n IH]; intros l0 i; cbn [for_from].
  - intros E. injection E as <-. reflexivity.
  - intros E. apply bind_some_inv in E as (l2 & E & E2).
    apply bind_some_inv in E as (ij & E0 & E). rewrite E0. cbn [bind].
    apply bind_some_inv in E as (nn & E1 & E). rewrite (rd_app1 _ _ _ _ E1). cbn [bind].
    apply bind_some_inv in E as ([l3 k3] & E & E3). injection E3 as <-.
    unfold for_ in E. unfold for_ at 1. rewrite (for_app nn 0 (fun _ '(il, ij) => il <- wr il ij i ;; Some (il, (ij + 1)%nat)) (fun _ '(il, ij) => il <- wr il ij i ;; Some (il, (ij + 1)%nat)) x) with (l' := l3) (k' := k3); [| |exact E].
    2:{ intros j l k la ka Hw. apply bind_some_inv in Hw as (lb & Hw & Ha). injection Ha as <- <-. rewrite (wr_app _ _ _ _ _ Hw). reflexivity. }
    cbn [bind]. apply IH. exact E2.
Qed.

Lemma ty_fake q : s1 <> [] -> (q < nE)%nat -> exists i, rd (tab nE1 (ow s1) ++ repeat 0%nat (nE - nE1)) q = Some i /\
   rd (f_node_types s) i = Some (ty fake (ow fake q)).
Proof.
  intros Hs Hq. assert (Hn : (0 < n1)%nat) by (destruct s1; [congruence|cbn; lia]). destruct (le_lt_dec nE1 q) as [H|H].
  - exists 0%nat. split.
    + unfold rd. rewrite nth_error_app2 by (rewrite length_tab; exact H). rewrite length_tab.
      rewrite (nth_error_nth' _ 0%nat) by (rewrite repeat_length; lia). f_equal. apply nth_repeat.
    + rewrite (rd_ty s) by (rewrite app_length; lia). f_equal. rewrite ty_pre by exact Hn.
      assert (E : ow fake q = n1).
      { assert (Hq' : (q < length (epairs fake))%nat) by (rewrite nE_fake; exact Hq). destruct (q_split fake q Hq') as (i & j & Hi & Hj & ->).
        rewrite ow_at by assumption. rewrite len_fake in Hi. destruct (Nat.eq_dec i n1) as [|Hne]; [assumption|exfalso].
        assert (Hi' : (i < n1)%nat) by lia. unfold fake in Hj. rewrite es_pre in Hj by exact Hi'. pose proof (q_lt s1 i j Hi' Hj).
        assert (eo fake i = eo s1 i); [|lia]. unfold eo, offs, fake. rewrite firstn_app. replace (i - n1)%nat with 0%nat by lia. cbn [firstn]. rewrite app_nil_r. reflexivity. }
      rewrite E. unfold ty at 2. unfold nd_, fake. rewrite app_nth2, Nat.sub_diag by lia. reflexivity.
  - exists (ow s1 q). pose proof (ow_lt s1 q H) as Ho. split.
    + apply rd_app1. rewrite (rd_some _ _ 0%nat) by (rewrite length_tab; exact H). rewrite nth_tab by exact H. reflexivity.
    + rewrite (rd_ty s) by (rewrite app_length; lia). f_equal. unfold fake. rewrite ow_pre, !ty_pre by assumption. reflexivity.
Qed.
Lemma lift_some A B (a : A) (k : A -> rprog B) : pbind (lift (Some a)) k = k a.
Proof. reflexivity. Qed.
Lemma ps_par' n (f g : nat -> rprog unit) : (forall j, (j < n)%nat -> psim (f j) (g j)) -> psim (par_for n f) (par_for n g).
Proof. intros H. induction n as [|n IH]; cbn [par_for]; [apply ps_refl|]. constructor; [apply IH; intros; apply H; lia|apply H; lia|apply ps_refl]. Qed.
Lemma ev_sim S b bd : s1 <> [] -> psim (kk_evaluate S (length fake) (f_node_types fake) (f_num_neigh fake) (f_neigh_types fake) (f_r fake) b bd)
   (kk_evaluate S n1 (f_node_types s) (f_num_neigh s) (f_neigh_types s) (f_r s) b bd).
Proof.
  intros Hs. unfold kk_evaluate. rewrite i_list_pre. rewrite length_r, i_list_ok. rewrite !lift_some. cbv zeta.
  rewrite et_fake, r_fake, length_r, nE_fake. apply ps_par'. intros q Hq.
  destruct (ty_fake q Hs Hq) as (i & E1 & E2). rewrite E1, lift_some, E2, lift_some.
  rewrite (rd_some _ _ 0%nat) by (rewrite length_tab; exact Hq). rewrite nth_tab by exact Hq. rewrite lift_some.
  rewrite (rd_ty fake) by (apply ow_lt; rewrite nE_fake; exact Hq). rewrite lift_some. apply ps_refl.
Qed.
End Fake.

Section St.
Variable sph : nat -> RNum -> RNum -> RNum -> list RNum * list RNum.
Variable km : kmace RNum.
Variable mm : mace_model RNum.
Variables (P0 P1 : nat -> @mpoly RNum).
Variable fe : list RNum -> RNum.
Variable fg : list RNum -> nat -> RNum.
Variable H : nat.
Variables (w0 w1 : nat -> nat -> R) (V0 V1 : view RNum).
Variables s1 s2 : sys RNum.
Notation s := (s1 ++ s2).
Variable nH : nat.
Hypothesis KI : kin km mm P0 P1 fe fg H w0 w1 V0 V1 s1 nH.
(** without trailing edges nothing changes; with trailing edges there is a node 0 *)
Hypothesis KF : s2 = [] \/ (s1 <> [] /\ kin km mm P0 P1 fe fg H w0 w1 V0 V1 (fake s1 s2) nH).
Notation n := (length s1).
Notation nE := (length (epairs s1)).
Notation K := (k_num_channels km).
Notation L := (k_num_lm km).
Notation C1 := (length (k_Phi1_l km) * K)%nat.
Notation kk f := (f _ _ _ _ _ _ _ _ _ _ _ _ _ KI) (only parsing).

Lemma fake_q q : (q < nE)%nat -> ow (fake s1 s2) q = ow s1 q /\ eg (fake s1 s2) q = eg s1 q /\ ty (fake s1 s2) (ow s1 q) = ty s1 (ow s1 q).
Proof.
  intros Hq. unfold fake. rewrite ow_pre, eg_pre by exact Hq. rewrite ty_pre by (apply ow_lt; exact Hq). auto.
Qed.
Lemma nE_le : (nE <= length (epairs (fake s1 s2)))%nat.
Proof. apply nE_pre. Qed.

Lemma no_R1 l m (Q : rmem -> Prop) : good km m ->
  (forall m', good km m' -> oth t_R1 m m' ->
     has2 m' bR1 nE C1 (fun q p => R1v (N:=RNum) mm s1 (ow s1 q) (eg s1 q) p) ->
     has2 m' bR1d nE C1 (fun q p => R1d (N:=RNum) mm s1 (ow s1 q) (eg s1 q) p) -> hok l m' Q) ->
  hok (kk_compute_R1 km n (f_node_types s) (f_num_neigh s) (f_neigh_types s) (f_r s) ++ l) m Q.
Proof.
  intros G HQ. destruct KF as [->|[Hs KIF]].
  { rewrite app_nil_r. apply (st_R1 km mm P0 P1 fe fg H w0 w1 V0 V1 s1 nH KI); auto. }
  apply (hok_sim1 (kk_compute_R1 km (length (fake s1 s2)) (f_node_types (fake s1 s2)) (f_num_neigh (fake s1 s2)) (f_neigh_types (fake s1 s2)) (f_r (fake s1 s2)))).
  { unfold kk_compute_R1. rewrite r_fake. constructor; [apply hcsim_refl|]. constructor; [|constructor]. cbn [hcsim]. pose proof (ev_sim s1 s2 (k_radial_1 km) bR1 bR1d Hs) as ES. rewrite r_fake in ES. exact ES. }
  apply (st_R1 km mm P0 P1 fe fg H w0 w1 V0 V1 (fake s1 s2) nH KIF); auto. intros m' G' U HR HRd. apply HQ; auto.
  - split; [pose proof (proj1 HR); pose proof nE_le; lia|]. intros q p Hq Hp. rewrite (proj2 HR) by (auto; pose proof nE_le; lia).
    destruct (fake_q q Hq) as (E1 & E2 & E3). rewrite E1, E2. unfold R1v. rewrite E3. reflexivity.
  - split; [pose proof (proj1 HRd); pose proof nE_le; lia|]. intros q p Hq Hp. rewrite (proj2 HRd) by (auto; pose proof nE_le; lia).
    destruct (fake_q q Hq) as (E1 & E2 & E3). rewrite E1, E2. unfold R1d. rewrite E3. reflexivity.
Qed.

Variable Hf : nat -> nat -> nat -> R.
Hypothesis HnH : (n <= nH)%nat.
Notation pP1_' := (hP1 (N:=RNum) sph mm s1 Hf).
Lemma no_sA1 l m (Q : rmem -> Prop) : good km m -> has3 m bA1 n L K (a1raw (N:=RNum) mm pP1_') ->
  (forall m', good km m' -> oth t_A1 m m' -> has3 m' bA1 n L K (hA1 (N:=RNum) sph mm s1 Hf) ->
     (k_A1_scaled km = true -> has2 m' bA1v nE 1 (vA1 mm s1) /\ has2 m' bA1d nE 1 (dA1 mm s1)) -> hok l m' Q) ->
  hok (kk_compute_A1_scaled km n (f_node_types s) (f_num_neigh s) (f_neigh_types s) (f_r s) ++ l) m Q.
Proof.
  intros G3 HA HQ. destruct KF as [->|[Hs KIF]].
  { rewrite app_nil_r. apply (st_sA1 sph km mm P0 P1 fe fg H w0 w1 V0 V1 s1 nH KI Hf HnH); [exact G3|exact HA|exact HQ]. }
  unfold kk_compute_A1_scaled. destruct (k_A1_scaled km) eqn:Es; cbn [app].
  - destruct ((ki_A1 _ _ _ _ _ _ _ _ _ _ _ _ _ KIF) Es) as (I1 & I2 & I3).
    apply (hok_grow2 km _ bA1v bA1d _ (length (epairs (fake s1 s2))) _ _ _ eq_refl eq_refl); [rewrite <- r_fake; apply length_r|exact G3|]. intros m4 G4 U4 X4 X5. carry U4.
    assert (WP : wp top (kk_evaluate (k_A1_splines km) n (f_node_types s) (f_num_neigh s) (f_neigh_types s) (f_r s) bA1v bA1d) m4 (fun _ m' =>
      keep o_A1v m4 m' /\ forall q k, (q < length (epairs (fake s1 s2)))%nat -> (k < kr_num (k_A1_splines km))%nat ->
      va m' (bA1v, [q; k]) = kval (fake s1 s2) (k_A1_splines km) q k /\ va m' (bA1d, [q; k]) = kder (fake s1 s2) (k_A1_splines km) q k)).
    { eapply wp_sim; [apply ev_sim; exact Hs|]. apply (k_A1v (fake s1 s2) (k_A1_splines km) m4 I1); rewrite I2; cv km G4. }
    eapply hok_k; [exact WP|]. cbn beta. intros m5 KP5 V. carryk KP5. pose proof (good_keep km _ _ _ KP5 G4) as G5.
    rewrite I2 in V. pose proof nE_le as HN.
    assert (Hv : has2 m5 bA1v nE 1 (vA1 mm s1)).
    { split; [lia|]. intros q p Hq Hp. replace p with 0%nat by lia. rewrite (proj1 (V q 0%nat ltac:(lia) Nat.lt_0_1)).
      rewrite (proj1 (I3 q ltac:(lia))). destruct (fake_q q Hq) as (E1 & E2 & E3). rewrite E1, E2, E3. reflexivity. }
    assert (Hd : has2 m5 bA1d nE 1 (dA1 mm s1)).
    { split; [lia|]. intros q p Hq Hp. replace p with 0%nat by lia. rewrite (proj2 (V q 0%nat ltac:(lia) Nat.lt_0_1)).
      rewrite (proj2 (I3 q ltac:(lia))). destruct (fake_q q Hq) as (E1 & E2 & E3). rewrite E1, E2, E3. reflexivity. }
    clear V WP.
    eapply hok_k.
    { eapply wp_sim; [rewrite nn_pre; apply (ps_sc km n (f_num_neigh s1))|]. apply (k_scale_A1 km s1 m5); cv km G5. }
    cbn beta. intros m6 KP6 V.
    assert (HA' : has3 m6 bA1 n L K (hA1 (N:=RNum) sph mm s1 Hf)).
    { apply (scaled_A1 sph km mm P0 P1 fe fg H w0 w1 V0 V1 s1 nH KI Hf m5 m6); [exact Es|exact Hv|rewrite (keep_ext _ _ _ _ _ KP6); exact (proj1 HA)|intros; rewrite V, (proj2 HA) by auto; reflexivity]. }
    clear V HA. carryk KP6. pose proof (good_keep km _ _ _ KP6 G5) as G6.
    apply HQ; auto. othr.
  - apply HQ; auto.
    + othr.
    + eapply has3_eq; [|exact HA]. intros. unfold hA1, odivs. rewrite <- (kk ki_sc1), Es. reflexivity.
    + discriminate.
Qed.
End St.
