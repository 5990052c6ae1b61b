(** Kernels of reverse_A0 and of the ZBL term.  Used in proofs only. *)
From Coq Require Import List Arith ZArith Bool Lia Reals Lra FunctionalExtensionality.
From Verif Require Import Base BaseLemmas Segs Instances RSums ToolsModel MpModel ZblModel MaceModel Sys SysLoops MacePure MaceStages1.
From Verif Require Import KkSem KkSound KkWp KkWp2 KkModel KkHost KkTac KkK1 KkK2 KkK3.
Import ListNotations.
Local Open Scope R_scope.

Section K.
Variable km : kmace RNum.
Variable s : sys RNum.
Notation n := (length s).
Notation nE := (length (epairs s)).
Notation K := (k_num_channels km).
Notation L := (k_num_lm km).
Notation nb i := (length (es s i)).

Definition fs_own1 (c : cell) : option nat := match c with (bF, [x]) => Some (ow s (x / 3)) | (bScr, i :: _) => Some i | _ => None end.
Definition fs_own2 i (c : cell) : option nat := match c with (bF, [x]) => Some (x / 3 - eo s i)%nat | (bScr, _ :: j :: _) => Some j | _ => None end.
Definition lm_own3 (c : cell) : option nat := match c with (bScr, [_; _; lm; _]) => Some lm | _ => None end.

Section A0.
Definition ra0_t1 m q lm : R := rsum K (fun k => va m (bR0d, [q; (Nat.sqrt lm * K + k)%nat]) * va m (bA0a, [ow s q; lm; k])).
Definition ra0_t2 m q lm : R := rsum K (fun k => va m (bR0, [q; (Nat.sqrt lm * K + k)%nat]) * va m (bA0a, [ow s q; lm; k])).
Definition ra0_f m q a : R := rsum L (fun lm =>
  ra0_t1 m q lm * (comp (eg s q) a / e_r (eg s q)) * va m (bY, [(q * L + lm)%nat]) + ra0_t2 m q lm * va m (bYg, [(3 * q * L + (a * L + lm))%nat])).
Definition f_sp (f : nat -> nat -> R) (c : cell) (v : R) : Prop := match c with (bF, [x]) =>
  (x < 3 * nE)%nat -> v = f (x / 3)%nat (x mod 3)%nat | _ => True end.
Definition C0w := ((k_l_max km + 1) * K)%nat.
Lemma lk0 lm k : (lm < L)%nat -> (k < K)%nat -> (Nat.sqrt lm * K + k < (k_l_max km + 1) * K)%nat.
Proof.
  intros H Hk. assert (Nat.sqrt lm < k_l_max km + 1)%nat; [|nia].
  apply Nat.sqrt_lt_square. exact H.
Qed.
Lemma y0 q lm : (q < nE)%nat -> (lm < L)%nat -> (q * L + lm < nE * L)%nat. Proof. intros. nia. Qed.
Lemma y3 q lm a : (q < nE)%nat -> (lm < L)%nat -> (a < 3)%nat -> (3 * q * L + (a * L + lm) < 3 * nE * L)%nat. Proof. intros. nia. Qed.
Lemma f_PO (own1 : cell -> option nat) i j x : (forall x, own1 (bF, [x]) = Some (ow s (x / 3))) ->
  forall own2, (forall x, own2 (bF, [x]) = Some (x / 3 - eo s i)%nat) -> forall acc1 acc2,
  (i < n)%nat -> (j < nb i)%nat -> (x / 3 = eo s i + j)%nat -> kd (kd top own1 acc1 i) own2 acc2 j (bF, [x]) = POwn.
Proof.
  intros H1 own2 H2 acc1 acc2 Hi Hj E. apply kd_own_ok; [apply kd_own_ok; [reflexivity|]|].
  - rewrite H1, E, ow_at by auto. reflexivity.
  - rewrite H2, E. f_equal. lia.
Qed.
Lemma k_rA0 m : cov m bF [(3 * nE)%nat] -> cov m bR0 [nE; ((k_l_max km + 1) * K)%nat] -> cov m bR0d [nE; ((k_l_max km + 1) * K)%nat] ->
  cov m bA0a [n; L; K] -> cov m bY [(nE * L)%nat] -> cov m bYg [(3 * nE * L)%nat] ->
  wp top (kk_reverse_A0_kernel km n (f_num_neigh s) (f_xyz s) (f_r s)) m (fun _ m' => keep (o_1 bF) m m' /\
    forall q a, (q < nE)%nat -> (a < 3)%nat -> va m' (bF, [(3 * q + a)%nat]) = va m (bF, [(3 * q + a)%nat]) - ra0_f m q a).
Proof.
  intros C1 C2 C3 C4 C5 C6. unfold kk_reverse_A0_kernel. eapply wp_lift; [apply first_neigh_ok|].
  set (f := fun q a => va m (bF, [(3 * q + a)%nat]) - ra0_f m q a).
  apply (wp_pfor top fs_own1 none_ (f_sp f) nadd_).
  - intros i Hi. eapply wp_lift; [apply rd_fn; auto|]. eapply wp_lift; [apply rd_nn; auto|].
    apply (wp_sfor _ (fs_own2 i) none_ (f_sp f) nadd_).
    + intros j Hj. cbv zeta. pose proof (q_lt s i j Hi Hj) as Hq. set (q := (eo s i + j)%nat) in *.
      assert (Oq : ow s q = i) by (apply ow_at; auto).
      eapply wp_lift; [apply rd_r'; auto|].
      eapply wp_lift; [apply (rd_comp' s q 0); auto; lia|].
      eapply wp_lift; [apply (rd_comp' s q 1); auto; lia|].
      eapply wp_lift; [apply (rd_comp' s q 2); auto; lia|].
      set (g := fun a lm => ra0_t1 m q lm * (comp (eg s q) a / e_r (eg s q)) * va m (bY, [(q * L + lm)%nat])
                 + ra0_t2 m q lm * va m (bYg, [(3 * q * L + (a * L + lm))%nat])).
      apply wp_bind.
      apply (wp_red3 _ lm_own3 none_ tsp nadd_ [i; j] L _ (g 0%nat) (g 1%nat) (g 2%nat)).
      * intros qq Hqq. split; [look|]. split; reflexivity.
      * intros lm Hlm. apply wp_bind.
        apply (wp_red2r _ [i; j; lm] K _ (fun k => va m (bR0d, [q; (Nat.sqrt lm * K + k)%nat]) * va m (bA0a, [ow s q; lm; k]))
           (fun k => va m (bR0, [q; (Nat.sqrt lm * K + k)%nat]) * va m (bA0a, [ow s q; lm; k]))).
        -- intros qq Hqq. destruct qq as [|[|]]; [look|look|lia].
        -- intros k Hk. pose proof (lk0 lm k Hlm Hk).
           apply wp_get; [look|al|]. apply wp_get; [look|al|]. apply wp_get; [look|al|]. apply wp_ret. vap. rewrite Oq. reflexivity.
        -- intros m1 D1 V1. pose proof (y0 q lm Hq Hlm). pose proof (y3 q lm 0 Hq Hlm ltac:(lia)).
           pose proof (y3 q lm 1 Hq Hlm ltac:(lia)). pose proof (y3 q lm 2 Hq Hlm ltac:(lia)).
           assert (D1' : dims m1 = dims m) by (rewrite D1; apply dims_puts0).
           apply wp_get; [look|al|]. apply wp_get; [look|al|]. apply wp_get; [look|al|]. apply wp_get; [look|al|]. apply wp_ret.
           split; [|apply kpost_own; intros; exact Logic.I].
           rewrite !V1 by reflexivity. vap. unfold g. 
           replace (3 * q * L + lm)%nat with (3 * q * L + (0 * L + lm))%nat by ring.
           replace (3 * q * L + (L + lm))%nat with (3 * q * L + (1 * L + lm))%nat by ring. reflexivity.
      * intros m2 (D2 & _ & _ & V2).
        assert (D2' : dims m2 = dims m) by (rewrite D2; auto).
        assert (VF : forall x, va m2 (bF, [x]) = va m (bF, [x])).
        { intros x. apply V2; [|reflexivity]. unfold idle. destruct (kd _ _ _ _ _); auto. }
        apply wp_minus; [apply f_PO; auto; apply div3_0|al|].
        apply wp_minus; [apply f_PO; auto; apply div3; lia|al|].
        apply wp_minus_; [apply f_PO; auto; apply div3; lia|al|].
        apply kpost_own. intros c P O. destruct c as [b idx]; destruct b; try discriminate O; try exact Logic.I.
        idx1 idx O x. owned P. intros Hx.
        destruct (f_in s i x j Hi Hx P O) as (_ & _ & a & Ha & ->). fold q.
        unfold f, ra0_f. rewrite div3, mod3 by auto.
        destruct a as [|[|[|]]]; [rewrite Nat.add_0_r| | |lia]; va3; rewrite VF; reflexivity.
    + intros m' (D & P1 & _). apply kpost_own. intros c P O. destruct c as [b idx]; destruct b; try discriminate O; try exact Logic.I.
      idx1 idx O x. intros Hx. destruct (f_in s i x _ Hi Hx O eq_refl) as (Hj & _ & _).
      apply (P1 (bF, [x]) (x / 3 - eo s i)%nat); auto. unfold kd, fs_own1. lcbn. rewrite O. eqbs. reflexivity.
  - intros m' (D & P1 & _ & _ & P4). split; [keepv P4|]. intros q a Hq Ha.
    assert (E : f_sp f (bF, [(3 * q + a)%nat]) (va m' (bF, [(3 * q + a)%nat])))
      by (apply (P1 _ (ow s q)); [reflexivity | lcbn; rewrite div3 by auto; reflexivity | apply ow_lt; auto]).
    unfold f_sp in E. rewrite div3, mod3 in E by auto. apply E, lt3; auto.
Qed.
End A0.

Section Z.
Variable z : ZBL RNum.
Variables ze zg : nat -> R.
Definition zbl_in : Prop := forall q, (q < nE)%nat -> exists zi zj, rd (k_atomic_numbers km) (ty s (ow s q)) = Some zi /\
  rd (k_atomic_numbers km) (e_type (eg s q)) = Some zj /\
  kzbl_compute z zi zj (e_r (eg s q)) = Some (ze q) /\ kzbl_compute_gradient z zi zj (e_r (eg s q)) = Some (zg q).
Hypothesis HZ : zbl_in.
Hypothesis HT : forall i, (i < n)%nat -> (ty s i < length (k_atomic_numbers km))%nat.
Definition z_own1 (c : cell) : option nat := match c with (bF, [x]) => Some (ow s (x / 3)) | (bE, [i]) => Some i | (bScr, i :: _) => Some i | _ => None end.
Definition z_sp m (c : cell) (v : R) : Prop := match c with
  | (bF, [x]) => (x < 3 * nE)%nat -> v = va m (bF, [x]) - comp (eg s (x / 3)) (x mod 3) / e_r (eg s (x / 3)) * zg (x / 3)
  | (bE, [i]) => v = va m (bE, [i]) + rsum (nb i) (fun j => ze (eo s i + j)%nat)
  | _ => True end.
Lemma k_zbl m : cov m bF [(3 * nE)%nat] -> cov m bE [n] ->
  wp top (kk_ZBL z n (f_node_types s) (f_num_neigh s) (f_neigh_types s) (k_atomic_numbers km) (f_r s) (f_xyz s)) m
   (fun _ m' => keep (o_2 bF bE) m m' /\
    (forall q a, (q < nE)%nat -> (a < 3)%nat -> va m' (bF, [(3 * q + a)%nat]) =
       va m (bF, [(3 * q + a)%nat]) - comp (eg s q) a / e_r (eg s q) * zg q) /\
    (forall i, (i < n)%nat -> va m' (bE, [i]) = va m (bE, [i]) + rsum (nb i) (fun j => ze (eo s i + j)%nat)) /\
    (forall i, (n <= i)%nat -> va m' (bE, [i]) = va m (bE, [i]))).
Proof.
  intros C1 C2. unfold kk_ZBL. eapply wp_lift; [apply first_neigh_ok|].
  apply (wp_pfor top z_own1 none_ (z_sp m) nadd_).
  - intros i Hi. eapply wp_lift; [apply rd_fn; auto|]. eapply wp_lift; [apply rd_ty; auto|].
    eapply wp_lift; [exact (rd_some _ _ 0%nat (HT i Hi))|]. eapply wp_lift; [apply rd_nn; auto|].
    apply wp_bind.
    apply (wp_red1 _ (f_own2 s i) none_ (z_sp m) nadd_ [i] (nb i) _ (fun j => ze (eo s i + j)%nat)).
    + look.
    + reflexivity.
    + reflexivity.
    + intros j Hj. cbv zeta. pose proof (q_lt s i j Hi Hj) as Hq. set (q := (eo s i + j)%nat) in *.
      assert (Oq : ow s q = i) by (apply ow_at; auto).
      destruct (HZ q Hq) as (zi & zj & E1 & E2 & E3 & E4). rewrite Oq in E1.
      assert (zi = nth (ty s i) (k_atomic_numbers km) 0%nat) as ->.
      { rewrite (rd_some _ _ 0%nat (HT i Hi)) in E1. congruence. }
      eapply wp_lift; [apply rd_nty'; auto|]. eapply wp_lift; [exact E2|]. eapply wp_lift; [apply rd_r'; auto|].
      eapply wp_lift; [exact E3|]. eapply wp_lift; [exact E4|].
      assert (PO : forall x, (x / 3 = q)%nat -> kd (hide [[i]] (kd top z_own1 none_ i)) (f_own2 s i) none_ j (bF, [x]) = POwn).
      { intros x E. apply kd_own_ok; [change (kd top z_own1 none_ i (bF, [x]) = POwn); apply kd_own_ok; [reflexivity|]|]; lcbn; rewrite E;
        [rewrite Oq; reflexivity|]. unfold q. rewrite Nat.add_comm, Nat.add_sub. reflexivity. }
      eapply wp_lift; [apply (rd_comp' s q 0); auto; lia|].
      apply wp_minus; [apply PO, div3_0|al|].
      eapply wp_lift; [apply (rd_comp' s q 1); auto; lia|].
      apply wp_minus; [apply PO, div3; lia|al|].
      eapply wp_lift; [apply (rd_comp' s q 2); auto; lia|].
      apply wp_minus; [apply PO, div3; lia|al|]. apply wp_ret. split; [reflexivity|].
      apply kpost_own. intros c P O. destruct c as [b idx]; destruct b; try discriminate O.
      idx1 idx O x. change (kd top z_own1 none_ i (bF, [x]) = POwn) in P. owned P. intros Hx.
      destruct (f_in s i x j Hi Hx P O) as (_ & _ & a & Ha & ->). fold q. rewrite div3, mod3 by auto.
      destruct a as [|[|[|]]]; [rewrite Nat.add_0_r| | |lia]; va3; vap; reflexivity.
    + intros m2 (D2 & P2 & _ & V2). 
      apply wp_plus_; [look|al|]. apply kpost_own. intros c P O.
      destruct c as [b idx]; destruct b; try discriminate O; try exact Logic.I.
      * idx1 idx O x. subst x. rewrite va_store_eq, V2; [reflexivity| |reflexivity]. unfold idle. destruct (kd _ _ _ _ _); auto.
      * idx1 idx O x. rewrite va_store_ne by discriminate. intros Hx. destruct (f_in s i x _ Hi Hx O eq_refl) as (Hj & _ & _).
        apply (P2 (bF, [x]) (x / 3 - eo s i)%nat); auto. apply kd_own_ok; [reflexivity|]. lcbn. rewrite O. reflexivity.
  - intros m' (D & P1 & P2 & _ & P4). split; [keepv P4|]. split; [|split].
    + intros q a Hq Ha.
      assert (E : z_sp m (bF, [(3 * q + a)%nat]) (va m' (bF, [(3 * q + a)%nat])))
        by (apply (P1 _ (ow s q)); [reflexivity | lcbn; rewrite div3 by auto; reflexivity | apply ow_lt; auto]).
      unfold z_sp in E. rewrite div3, mod3 in E by auto. apply E, lt3; auto.
    + intros i Hi. apply (P1 (bE, [i]) i); auto.
    + intros i Hi. apply (P2 (bE, [i]) i); auto.
Qed.
End Z.
End K.
