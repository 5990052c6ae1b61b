(** Energies, forces and virial of the Kokkos pair style: the kernels one after the other.  Used in proofs only. *)
From Coq Require Import List Arith ZArith Bool Lia Reals Lra FunctionalExtensionality.
From Verif Require Import Base BaseLemmas Segs Instances RSums MaceModel Sys SysLoops MacePure MaceStages1 MaceForces AseGrad PairModel PairThms PairTally.
From Verif Require Import KkSem KkSound KkWp KkWp2 KkModel KkHost KkTac KkK1 KkK2 KkK3 KkChain KkStage1 KkPairModel KkPairKernels.
Import ListNotations.
Local Open Scope R_scope.

Section Tal.
Variable km : kmace RNum.
Variables (n : nat) (NI NN NJ : list nat) (X : list RNum) (na ne : nat).
Notation E := (list_sum NN).
Hypothesis HNI : length NI = n.
Hypothesis HNN : length NN = n.
Hypothesis HNJ : length NJ = E.
Hypothesis HX : length X = (3 * E)%nat.
Hypothesis HI : forall i, In i NI -> (i < na)%nat.
Hypothesis HJ : forall j, In j NJ -> (j < na)%nat.
Notation FN := (tab n (fun ii => list_sum (firstn ii NN))).

(** contribution of edge [q] to component [k] of the virial *)
Definition vq (F : nat -> R) (q k : nat) : R :=
  let x c := nth (3 * q + c) X 0 in let f c := F (3 * q + c)%nat in
  match k with
  | 0%nat => x 0%nat * f 0%nat | 1%nat => x 1%nat * f 1%nat | 2%nat => x 2%nat * f 2%nat
  | 3%nat => / 2 * (x 0%nat * f 1%nat + x 1%nat * f 0%nat)
  | 4%nat => / 2 * (x 0%nat * f 2%nat + x 2%nat * f 0%nat)
  | _ => / 2 * (x 1%nat * f 2%nat + x 2%nat * f 1%nat)
  end.

Definition talp (fl : ev) (En Fo : nat -> R) (m m' : rmem) : Prop :=
  good km m' /\
  (eflag_global fl = true -> va m' (bScr, []) = rsum ne En) /\
  dims m' bLf = dims m bLf /\
  (forall k c, (c < 3)%nat -> va m' (bLf, [k; c]) = va m (bLf, [k; c]) +
      rsum E (fun q => Fo (3 * q + c)%nat * (ind (nth q NJ 0%nat) k - ind (nth q (eow NI NN) 0%nat) k))) /\
  dims m' bLe = dims m bLe /\
  (eflag_atom fl = true -> forall i, va m' (bLe, [i]) = va m (bLe, [i]) + if (i <? ne)%nat then En i else 0) /\
  (vflag_global fl = true -> forall k, (k < 6)%nat -> va m' (bLv, [k]) = rsum E (fun q => vq Fo q k)).

Lemma hok_if (b : bool) (l1 l : list (hcmd RNum)) m (Q : rmem -> Prop) : (b = true -> hok (l1 ++ l) m Q) -> (b = false -> hok l m Q) ->
  hok ((if b then l1 else []) ++ l) m Q.
Proof. destruct b; cbn [app]; auto. Qed.

Lemma tally_h fl En Fo m : good km m -> has1 m bE ne En -> has1 m bF (3 * E) Fo -> dims m bLf = [na; 3%nat] ->
  (eflag_atom fl = true -> cov m bLe [ne]) ->
  hok (kk_tally (N:=RNum) n NI NN FN NJ X fl ne) m (talp fl En Fo m).
Proof.
  intros G HE HF HL HLe. unfold kk_tally.
  (* energy *)
  assert (S1 : forall l Q, (forall m1, good km m1 -> oth (o_1 bScr) m m1 -> (eflag_global fl = true -> va m1 (bScr, []) = rsum ne En) -> hok l m1 Q) ->
    hok ((if eflag_global fl then [HRun (energy_reduction ne)] else []) ++ l) m Q).
  { intros l Q H. apply hok_if; intros Hf; [|apply H; auto; [apply oth_refl|congruence]]. cbn [app].
    eapply hok_k; [apply k_energy; eapply has1_cov; eauto; reflexivity|]. cbn beta. intros m1 KP V. apply H.
    - eapply good_keep; eauto.
    - apply oth_keep. exact KP.
    - intros _. rewrite V. apply rsum_ext. intros i Hi. apply HE. exact Hi. }
  apply S1. clear S1. intros m1 G1 O1 VE.
  assert (HE1 : has1 m1 bE ne En) by (eapply has1_st; [apply (O1 bE eq_refl)|exact HE]).
  assert (HF1 : has1 m1 bF (3 * E) Fo) by (eapply has1_st; [apply (O1 bF eq_refl)|exact HF]).
  (* energies of the atoms *)
  assert (S2 : forall l Q, (forall m2, good km m2 -> oth (o_1 bLe) m1 m2 -> dims m2 bLe = dims m1 bLe -> va m2 (bScr, []) = va m1 (bScr, []) ->
      (eflag_atom fl = true -> forall i, va m2 (bLe, [i]) = va m (bLe, [i]) + if (i <? ne)%nat then En i else 0) -> hok l m2 Q) ->
    hok ((if eflag_atom fl then [HRun (atomic_energies ne)] else []) ++ l) m1 Q).
  { intros l Q H. apply hok_if; intros Hf; [|apply H; auto; [apply oth_refl|congruence]]. cbn [app].
    eapply hok_k; [apply k_eatom; [eapply has1_cov; eauto; reflexivity|]|].
    { apply (cov_dims m m1 bLe [ne]); [apply (st_dims _ _ _ (O1 bLe eq_refl))|exact (HLe Hf)]. }
    cbn beta. intros m2 KP (V1 & V2 & V3). apply H.
    - eapply good_keep; eauto.
    - apply oth_keep. exact KP.
    - destruct KP as [D _]. rewrite D. reflexivity.
    - exact V3.
    - intros _ i. destruct (Nat.ltb_spec i ne) as [Hi|Hi].
      + rewrite V1 by exact Hi. rewrite (proj2 HE1 i Hi), (st_va _ _ _ _ (O1 bLe eq_refl)). reflexivity.
      + rewrite V2 by exact Hi. rewrite (st_va _ _ _ _ (O1 bLe eq_refl)). symmetry. apply Rplus_0_r. }
  apply S2. clear S2. intros m2 G2 O2 D2 V2 VA.
  assert (HF2 : has1 m2 bF (3 * E) Fo) by (eapply has1_st; [apply (O2 bF eq_refl)|exact HF1]).
  assert (L2 : st m2 bLf = st m bLf) by (rewrite (O2 bLf eq_refl); apply (O1 bLf eq_refl)).
  (* forces *)
  cbn [app].
  eapply hok_k; [apply (k_force n NI NN NJ X na HNI HNN HNJ HX HI HJ); [eapply has1_cov; eauto; reflexivity|]|].
  { apply (cov_ext m2 bLf na [3%nat] na); [rewrite (st_dims _ _ _ L2); exact HL|lia]. }
  cbn beta. intros m3 KP3 (V3 & VF).
  assert (G3 : good km m3) by (eapply good_keep; eauto). pose proof (oth_keep _ _ _ KP3) as O3.
  assert (D3 : dims m3 bLf = dims m bLf) by (destruct KP3 as [D _]; rewrite D; apply (st_dims _ _ _ L2)).
  assert (HF3 : has1 m3 bF (3 * E) Fo) by (eapply has1_st; [apply (O3 bF eq_refl)|exact HF2]).
  assert (Vf : forall k c, (c < 3)%nat -> va m3 (bLf, [k; c]) = va m (bLf, [k; c]) +
      rsum E (fun q => Fo (3 * q + c)%nat * (ind (nth q NJ 0%nat) k - ind (nth q (eow NI NN) 0%nat) k))).
  { intros k c Hc. rewrite VF by exact Hc. rewrite (st_va _ _ _ _ L2). f_equal. apply rsum_ext. intros q Hq. rewrite (proj2 HF2) by lia. reflexivity. }
  assert (De3 : dims m3 bLe = dims m bLe).
  { rewrite (st_dims _ _ _ (O3 bLe eq_refl)), D2. apply (st_dims _ _ _ (O1 bLe eq_refl)). }
  assert (VA3 : eflag_atom fl = true -> forall i, va m3 (bLe, [i]) = va m (bLe, [i]) + if (i <? ne)%nat then En i else 0).
  { intros Hf i. rewrite (st_va _ _ _ _ (O3 bLe eq_refl)). auto. }
  assert (VE3 : eflag_global fl = true -> va m3 (bScr, []) = rsum ne En) by (intros Hf; rewrite V3, V2; auto).
  (* virial *)
  destruct (vflag_global fl) eqn:Hvf.
  2:{ apply hok_nil. unfold talp. repeat (split; [assumption|]). intros; congruence. }
  apply hok_hop. set (m4 := realloc bLv [6%nat] m3).
  assert (G4 : good km m4) by (apply good_set; auto; exact Logic.I).
  assert (O4 : oth (one bLv) m3 m4) by apply oth_set.
  eapply hok_zero; [exact G4|]. intros m5 G5 O5 D5 Z5.
  assert (HF5 : has1 m5 bF (3 * E) Fo) by (eapply has1_st; [apply (O5 bF eq_refl)|]; eapply has1_st; [apply (O4 bF eq_refl)|exact HF3]).
  eapply hok_k; [apply (k_virial n NI NN NJ X HNI HNN HNJ HX); [eapply has1_cov; eauto; reflexivity|]|].
  { apply (cov_ext m5 bLv 6 [] 6); [rewrite D5; unfold m4, realloc; apply dims_set_eq|lia]. }
  cbn beta. intros m6 KP6 (V6 & VV). pose proof (oth_keep _ _ _ KP6) as O6. apply hok_nil.
  assert (T : forall b, o_1 bLv b = false -> st m6 b = st m3 b).
  { intros b Hb. assert (Hb' : one bLv b = false) by (unfold one; destruct (buf_dec bLv b) as [<-|]; [discriminate Hb|reflexivity]).
    rewrite (O6 b Hb), (O5 b Hb'), (O4 b Hb'). reflexivity. }
  assert (S6 : va m6 (bScr, []) = va m3 (bScr, [])).
  { rewrite V6, (st_va _ _ _ _ (O5 bScr eq_refl)), (st_va _ _ _ _ (O4 bScr eq_refl)). reflexivity. }
  unfold talp. split; [eapply good_keep; eauto|]. split; [intros Hf; rewrite S6; auto|]. split; [rewrite (st_dims _ _ _ (T bLf eq_refl)); exact D3|].
  split; [intros k c Hc; rewrite (st_va _ _ _ _ (T bLf eq_refl)); auto|]. split; [rewrite (st_dims _ _ _ (T bLe eq_refl)); exact De3|].
  split; [intros Hf i; rewrite (st_va _ _ _ _ (T bLe eq_refl)); auto|].
  intros _ k Hk. rewrite VV by exact Hk. rewrite Z5, Rplus_0_l. apply rsum_ext. intros q Hq. unfold vt, vq.
  rewrite !(proj2 HF5) by lia. reflexivity.
Qed.

(** what the caller sees *)
Lemma results_ok fl a m m' (En : nat -> R) (Fo : list R) : length Fo = (3 * E)%nat -> talp fl En (fun q => nth q Fo 0) m m' -> vflag_atom fl = false ->
  length (virial a) = 6%nat -> length (force a) = (3 * na)%nat -> dims m bLf = [na; 3%nat] ->
  (forall i c, (i < na)%nat -> (c < 3)%nat -> va m (bLf, [i; c]) = nth (3 * i + c) (force a) 0) ->
  results (N:=RNum) fl a m' = Some (mkAcc (N:=RNum)
    (if eflag_global fl then eng_vdwl a + rsum ne En else eng_vdwl a)
    (if eflag_atom fl then tab (extent m bLe 0) (fun i => va m (bLe, [i]) + if (i <? ne)%nat then En i else 0) else eatom a)
    (if vflag_global fl then vir (virial a) Fo X E else virial a)
    (frc (force a) Fo (eow NI NN) NJ E)).
Proof.
  intros LF (G & T1 & T2 & T3 & T4 & T5 & T6) Hva Lv Lf D V. unfold results.
  assert (EV : (if vflag_global fl then for_ 6 (fun k vi => addto (N:=RNum) vi k (KkSem.val m' (bLv, [k]))) (virial a) else Some (virial a)) =
    Some (if vflag_global fl then vir (virial a) Fo X E else virial a)).
  { destruct (vflag_global fl); [|reflexivity]. specialize (T6 eq_refl).
    destruct (virial a) as [|v0 [|v1 [|v2 [|v3 [|v4 [|v5 [|v6 vv]]]]]]] eqn:Ev; try discriminate Lv.
    cbn -[nadd addto]. unfold addto. cbn -[nadd].
    f_equal. unfold vir. cbn [nth].
    change (KkSem.val m' (bLv, [0%nat])) with (va m' (bLv, [0%nat])). change (KkSem.val m' (bLv, [1%nat])) with (va m' (bLv, [1%nat])).
    change (KkSem.val m' (bLv, [2%nat])) with (va m' (bLv, [2%nat])). change (KkSem.val m' (bLv, [3%nat])) with (va m' (bLv, [3%nat])).
    change (KkSem.val m' (bLv, [4%nat])) with (va m' (bLv, [4%nat])). change (KkSem.val m' (bLv, [5%nat])) with (va m' (bLv, [5%nat])).
    rewrite !T6 by lia. unfold vq.
    repeat (apply (f_equal2 (@cons R)); [apply (f_equal2 Rplus); [reflexivity|]; apply rsum_ext; intros q _; rewrite ?Nat.add_0_r; reflexivity|]). reflexivity. }
  rewrite EV. cbn [bind]. rewrite Hva. f_equal. f_equal.
  - destruct (eflag_global fl); [|reflexivity]. exact (f_equal (Rplus (eng_vdwl a)) (T1 eq_refl)).
  - destruct (eflag_atom fl); [|reflexivity]. unfold tab. unfold extent. rewrite T4. apply map_ext. intros i. exact (T5 eq_refl i).
  - unfold extent. rewrite T2, D. cbn [nth].
    apply (list_eq_nth _ _ (0:R)).
    + rewrite map_length, seq_length, length_frc. symmetry. exact Lf.
    + intros p Hp. rewrite map_length, seq_length in Hp.
      refine (eq_trans (nth_tab (3 * na) (fun p => va m' (bLf, [(p / 3)%nat; (p mod 3)%nat])) p (0:R) Hp) _).
      assert (Hc : (p mod 3 < 3)%nat) by (apply Nat.mod_upper_bound; lia).
      assert (Hk : (p / 3 < na)%nat) by (apply Nat.div_lt_upper_bound; lia).
      rewrite T3 by exact Hc. rewrite V by auto.
      assert (Ep : p = (3 * (p / 3) + p mod 3)%nat) by (apply Nat.div_mod; lia).
      refine (eq_trans _ (f_equal (fun z => nth z (frc (force a) Fo (eow NI NN) NJ E) 0) (eq_sym Ep))). cbv beta.
      rewrite (nth_frc (force a) Fo (eow NI NN) NJ na); auto.
      intros q Hq. split; [apply HI; unfold eow; clear - HNI HNN Hq|apply HJ, nth_In; lia].
      assert (Q : In (nth q (eow NI NN) 0%nat) (eow NI NN)) by (apply nth_In; rewrite length_eow; exact Hq).
      unfold eow in Q at 2. apply in_flat_map in Q. destruct Q as (ii & Hii & Q). apply repeat_spec in Q. apply in_seq in Hii.
      unfold eow in Q. rewrite Q. apply nth_In. lia.
Qed.
End Tal.
