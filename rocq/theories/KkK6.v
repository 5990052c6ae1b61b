(** Kernels of compute_Phi1 and reverse_Phi1.  Used in proofs only. *)
From Coq Require Import List Arith ZArith Bool Lia Reals Lra FunctionalExtensionality.
From Verif Require Import Base BaseLemmas Segs Instances RSums ToolsModel MpModel MaceModel Sys SysLoops MacePure MaceStages1.
From Verif Require Import KkSem KkSound KkWp KkWp2 KkModel KkHost KkTac KkK1 KkK2 KkK3 KkK5.
Import ListNotations.
Local Open Scope R_scope.

Section K.
Variable km : kmace RNum.
Variable s : sys RNum.
Notation n := (length s).
Notation nE := (length (epairs s)).
Notation K := (k_num_channels km).
Notation L := (k_num_lm km).
Notation M := (k_num_LM km).
Notation nb i := (length (es s i)).
Notation C := (k_num_lelm1lm2 km).
Notation NE := (k_num_lme km).
Notation P := (length (k_Phi1_clebsch_gordan km)).
(** number of nodes with H1 *)
Variable nH : nat.
Definition lm1 c := nth c (k_Phi1_lm1 km) 0%nat.
Definition lm2 c := nth c (k_Phi1_lm2 km) 0%nat.
Definition lel c := nth c (k_Phi1_lel1l2 km) 0%nat.
Definition cgw p : R := nth p (k_Phi1_clebsch_gordan km) 0.
Definition cge p := nth p (k_Phi1_lme km) 0%nat.
Definition cgc p := nth p (k_Phi1_lelm1lm2 km) 0%nat.
Record Phi1_in : Prop := {
  pi_c : forall c, (c < C)%nat -> rd (k_Phi1_lm1 km) c = Some (lm1 c) /\ rd (k_Phi1_lm2 km) c = Some (lm2 c) /\ rd (k_Phi1_lel1l2 km) c = Some (lel c) /\
    (lm1 c < L)%nat /\ (lm2 c < M)%nat /\ forall k, (k < K)%nat -> (lel c * K + k < kr_num (k_radial_1 km))%nat;
  pi_p : forall p, (p < P)%nat -> rd (k_Phi1_lme km) p = Some (cge p) /\ rd (k_Phi1_lelm1lm2 km) p = Some (cgc p) /\ (cge p < NE)%nat /\ (cgc p < C)%nat;
  pi_q : forall q, (q < nE)%nat -> (e_idx (eg s q) < nH)%nat }.
Hypothesis HP : Phi1_in.

Definition kp1r m i c k : R := rsum (nb i) (fun j =>
  va m (bR1, [(eo s i + j)%nat; (lel c * K + k)%nat]) * va m (bY, [((eo s i + j) * L + lm1 c)%nat]) * va m (bH1, [e_idx (eg s (eo s i + j)); lm2 c; k])).
Definition p1_own1 (c : cell) : option nat := match c with (bP1r, [i; x; _]) => Some (i * C + x)%nat | (bScr, [i; x; _]) => Some (i * C + x)%nat | _ => None end.
Definition p1_own2 (c : cell) : option nat := match c with (bP1r, [_; _; k]) => Some k | (bScr, [_; _; k]) => Some k | _ => None end.
Definition p1_sp m (c : cell) (v : R) : Prop := match c with (bP1r, [i; x; k]) => (x < C)%nat -> (k < K)%nat -> v = kp1r m i x k | _ => True end.
Definition p1_sp0 i x (c : cell) (v : R) : Prop := forall k, (k < K)%nat -> c = (bScr, [i; x; k]) -> v = 0.
Definition p1_sp1 m i x (c : cell) (v : R) : Prop := forall k, (k < K)%nat -> c = (bScr, [i; x; k]) -> v = kp1r m i x k.
Definition s_own2 (c : cell) : option nat := match c with (bScr, [_; _; k]) => Some k | _ => None end.
Lemma k_P1r m : cov m bP1r [n; C; K] -> cov m bR1 [nE; kr_num (k_radial_1 km)] -> cov m bY [(nE * L)%nat] -> cov m bH1 [nH; M; K] ->
  wp top (kk_Phi1r_kernel km n (f_num_neigh s) (f_neigh_indices s)) m (fun _ m' => keep (o_1 bP1r) m m' /\
    forall i c k, (i < n)%nat -> (c < C)%nat -> (k < K)%nat -> va m' (bP1r, [i; c; k]) = kp1r m i c k).
Proof.
  intros C1 C2 C3 C4. unfold kk_Phi1r_kernel. eapply wp_lift; [apply first_neigh_ok|].
  apply (wp_pfor2 top p1_own1 none_ (p1_sp m) nadd_).
  - intros i x Hi Hx. cbv zeta. rewrite divL, modL by auto.
    destruct (pi_c HP x Hx) as (E1 & E2 & E3 & B1 & B2 & B3).
    eapply wp_lift; [apply rd_fn; auto|].
    eapply wp_lift; [exact E1|]. eapply wp_lift; [exact E2|]. eapply wp_lift; [exact E3|].
    apply wp_bind.
    apply (wp_pfor _ s_own2 none_ (p1_sp0 i x) nadd_).
    { intros k Hk. apply wp_put_; [look|al|]. apply kpost_own. intros c Pc O k' Hk' ->. lcbni O. apply some_inj in O. subst k'. apply va_store_eq. }
    intros m1 (D1 & P1 & _ & _ & V1).
    assert (S1 : forall k, (k < K)%nat -> va m1 (bScr, [i; x; k]) = 0).
    { intros k Hk. refine (P1 (bScr, [i; x; k]) k _ eq_refl Hk k Hk eq_refl). look. }
    assert (F1 : forall b idx, match b with bScr => False | _ => True end -> va m1 (b, idx) = va m (b, idx)).
    { intros b idx Hb. apply V1. unfold idle. destruct (kd _ _ _ _ _); auto. destruct b; try contradiction; auto. }
    clear P1 V1.
    eapply wp_lift; [apply rd_nn; auto|]. apply wp_bind.
    apply (wp_pfor _ s_own2 none_ (p1_sp1 m i x) nadd_).
    { intros k Hk.
      apply (wp_for_plus _ _ _ (fun j => va m (bR1, [(eo s i + j)%nat; (lel x * K + k)%nat]) * va m (bY, [((eo s i + j) * L + lm1 x)%nat]) * va m (bH1, [e_idx (eg s (eo s i + j)); lm2 x; k])) (bScr, [i; x; k])).
      - intros j y Hj. cbv zeta. pose proof (q_lt s i j Hi Hj) as Hq. pose proof (y0 km s (eo s i + j) (lm1 x) Hq B1).
        pose proof (B3 k Hk). pose proof (pi_q HP _ Hq).
        apply wp_get; [look|al|]. apply wp_get; [look|al|]. eapply wp_lift; [apply rd_nidx'; auto|].
        apply wp_get; [look|al|]. apply wp_plus_; [look|al|].
        rewrite va_store_eq, store_store. rewrite !(va_store_ne _ (bScr, _)) by discriminate. rewrite !F1 by exact Logic.I. reflexivity.
      - apply kpost_own. intros c Pc O k' Hk' ->. lcbni O. apply some_inj in O. subst k'. rewrite va_store_eq, S1 by auto.
        unfold kp1r. rewrite Rplus_0_l. reflexivity. }
    intros m2 (D2 & P2 & _ & _ & V2).
    assert (S2 : forall k, (k < K)%nat -> va m2 (bScr, [i; x; k]) = kp1r m i x k).
    { intros k Hk. refine (P2 (bScr, [i; x; k]) k _ eq_refl Hk k Hk eq_refl). look. }
    clear P2 V2.
    apply (wp_pfor _ p1_own2 none_ (p1_sp m) nadd_).
    { intros k Hk. apply wp_get; [look|al|]. apply wp_put_; [look|al|]. apply kpost_own. intros c Pc O.
      destruct c as [b idx]; destruct b; try discriminate O; try exact Logic.I.
      idx3 idx O i' x' k'. subst k'. owned Pc. intros A _. destruct (pairL _ _ _ _ _ Pc A Hx) as [-> ->]. rewrite va_store_eq. auto. }
    intros m' (D & P1 & _). apply kpost_own. intros c Pc O.
    destruct c as [b idx]; destruct b; try discriminate O; try exact Logic.I.
    idx3 idx O i' x' k'. intros A B. destruct (pairL _ _ _ _ _ O A Hx) as [-> ->].
    apply (P1 (bP1r, [i; x; k']) k'); auto. look.
  - intros m' (D & P1 & _ & _ & P4). split; [keepv P4|]. intros i x k Hi Hx Hk.
    apply (P1 (bP1r, [i; x; k]) (i * C + x)%nat); auto. nia.
Qed.

(** the sums over the non-zero coefficients *)
Definition scat (ix : nat -> nat) (f : nat -> R) (N : nat) (x : nat) : R := rsum N (fun p => if (ix p =? x)%nat then f p else 0).
Definition ixk_own1 (b : buf) (c : cell) : option nat := two b b (match snd c with [i; _; _] => Some i | _ => None end) None None (fst c).
Definition ixk_own2 (b : buf) (c : cell) : option nat := two b b (match snd c with [_; _; k] => Some k | _ => None end) None None (fst c).
Definition scat_sp (b : buf) ix (f : nat -> nat -> nat -> R) m (c : cell) (v : R) : Prop :=
  two b b (match snd c with [i; x; k] => (k < K)%nat -> v = va m (b, [i; x; k]) + scat ix (f i k) P x | _ => True end) True True (fst c).
Lemma k_P1 m : cov m bP1r [n; C; K] -> cov m bP1 [n; NE; K] ->
  wp top (kk_Phi1_kernel km n) m (fun _ m' => keep (o_1 bP1) m m' /\
    forall i x k, (i < n)%nat -> (k < K)%nat ->
      va m' (bP1, [i; x; k]) = va m (bP1, [i; x; k]) + scat cge (fun p => cgw p * va m (bP1r, [i; cgc p; k])) P x).
Proof.
  intros C1 C2. unfold kk_Phi1_kernel. set (f := fun i k p => cgw p * va m (bP1r, [i; cgc p; k])).
  apply (wp_pfor top (ixk_own1 bP1) none_ (scat_sp bP1 cge f m) nadd_).
  - intros i Hi. apply (wp_pfor _ (ixk_own2 bP1) none_ (scat_sp bP1 cge f m) nadd_).
    + intros k Hk.
      set (I := fun p (_ : unit) (m2 : rmem) => dims m2 = dims m /\ (forall idx, va m2 (bP1r, idx) = va m (bP1r, idx)) /\
        forall x, va m2 (bP1, [i; x; k]) = va m (bP1, [i; x; k]) + scat cge (f i k) p x).
      apply (wp_for _ _ _ _ I).
      * split; auto. split; auto. intros x. unfold scat. rewrite rsum_O. ring.
      * intros p [] m2 Hp (Dm & I1 & I2). destruct (pi_p HP p Hp) as (E1 & E2 & B1 & B2).
        eapply wp_lift; [exact (rd_some _ p (0:R) Hp)|]. eapply wp_lift; [exact E1|]. eapply wp_lift; [exact E2|].
        apply wp_get; [look|al|]. apply wp_plus_; [look|al|].
        split; [auto|]. split; [intros idx; rewrite va_store_ne by discriminate; auto|].
        intros x. unfold scat. rewrite rsum_S. destruct (Nat.eqb_spec (cge p) x) as [->|Hne].
        -- rewrite va_store_eq, I2, I1. rewrite <- Rplus_assoc. reflexivity.
        -- rewrite va_store_ne by (intros E; injection E; auto). rewrite I2, Rplus_0_r. reflexivity.
      * intros [] m2 (Dm & I1 & I2). apply kpost_own. intros c Pc O. cell3 c O i' x k'. apply some_inj in O. owned Pc. subst k' i'.
        intros _. apply I2.
    + intros m' (D & P1 & _). apply kpost_own. intros c Pc O. cell3 c O i' x k'. apply some_inj in O. subst i'. intros A.
      apply (P1 (bP1, [i; x; k']) k'); auto. look.
  - intros m' (D & P1 & _ & _ & P4). split; [keepv P4|]. intros i x k Hi Hk. apply (P1 (bP1, [i; x; k]) i); auto.
Qed.
Lemma k_rP1 m : cov m bdP1r [n; C; K] -> cov m bdP1 [n; NE; K] ->
  wp top (kk_reverse_Phi1_kernel km n) m (fun _ m' => keep (o_1 bdP1r) m m' /\
    forall i x k, (i < n)%nat -> (k < K)%nat ->
      va m' (bdP1r, [i; x; k]) = va m (bdP1r, [i; x; k]) + scat cgc (fun p => cgw p * va m (bdP1, [i; cge p; k])) P x).
Proof.
  intros C1 C2. unfold kk_reverse_Phi1_kernel. set (f := fun i k p => cgw p * va m (bdP1, [i; cge p; k])).
  apply (wp_pfor top (ixk_own1 bdP1r) none_ (scat_sp bdP1r cgc f m) nadd_).
  - intros i Hi. apply (wp_pfor _ (ixk_own2 bdP1r) none_ (scat_sp bdP1r cgc f m) nadd_).
    + intros k Hk.
      set (I := fun p (_ : unit) (m2 : rmem) => dims m2 = dims m /\ (forall idx, va m2 (bdP1, idx) = va m (bdP1, idx)) /\
        forall x, va m2 (bdP1r, [i; x; k]) = va m (bdP1r, [i; x; k]) + scat cgc (f i k) p x).
      apply (wp_for _ _ _ _ I).
      * split; auto. split; auto. intros x. unfold scat. rewrite rsum_O. ring.
      * intros p [] m2 Hp (Dm & I1 & I2). destruct (pi_p HP p Hp) as (E1 & E2 & B1 & B2).
        eapply wp_lift; [exact (rd_some _ p (0:R) Hp)|]. eapply wp_lift; [exact E2|]. eapply wp_lift; [exact E1|].
        apply wp_get; [look|al|]. apply wp_plus_; [look|al|].
        split; [auto|]. split; [intros idx; rewrite va_store_ne by discriminate; auto|].
        intros x. unfold scat. rewrite rsum_S. destruct (Nat.eqb_spec (cgc p) x) as [->|Hne].
        -- rewrite va_store_eq, I2, I1. rewrite <- Rplus_assoc. reflexivity.
        -- rewrite va_store_ne by (intros E; injection E; auto). rewrite I2, Rplus_0_r. reflexivity.
      * intros [] m2 (Dm & I1 & I2). apply kpost_own. intros c Pc O. cell3 c O i' x k'. apply some_inj in O. owned Pc. subst k' i'.
        intros _. apply I2.
    + intros m' (D & P1 & _). apply kpost_own. intros c Pc O. cell3 c O i' x k'. apply some_inj in O. subst i'. intros A.
      apply (P1 (bdP1r, [i; x; k']) k'); auto. look.
  - intros m' (D & P1 & _ & _ & P4). split; [keepv P4|]. intros i x k Hi Hk. apply (P1 (bdP1r, [i; x; k]) i); auto.
Qed.

(** reverse_Phi1, second kernel *)
Definition khp m q c k : R := va m (bR1, [q; (lel c * K + k)%nat]) * va m (bY, [(q * L + lm1 c)%nat]) * va m (bdP1r, [ow s q; c; k]).
Definition rp1_t1 m q c : R := rsum K (fun k => va m (bR1d, [q; (lel c * K + k)%nat]) * va m (bH1, [e_idx (eg s q); lm2 c; k]) * va m (bdP1r, [ow s q; c; k])).
Definition rp1_t2 m q c : R := rsum K (fun k => va m (bR1, [q; (lel c * K + k)%nat]) * va m (bH1, [e_idx (eg s q); lm2 c; k]) * va m (bdP1r, [ow s q; c; k])).
Definition rp1_g m q a c : R := rp1_t1 m q c * comp (eg s q) a / e_r (eg s q) * va m (bY, [(q * L + lm1 c)%nat]) + rp1_t2 m q c * va m (bYg, [((3 * q + a) * L + lm1 c)%nat]).
Definition rp1_f m q a : R := rsum C (rp1_g m q a).
Definition rp1_acc (c : cell) : bool := match c with (bH1a, _) => true | _ => false end.
Definition rp1_add3 m q x k (c : cell) : R := at_cell c (bH1a, [e_idx (eg s q); lm2 x; k]) (khp m q x k).
Definition rp1_add2 m q x (c : cell) : R := rsum K (fun k => rp1_add3 m q x k c).
Definition rp1_add1 m q (c : cell) : R := rsum C (fun x => rp1_add2 m q x c).
Definition rp1_add m i (c : cell) : R := rsum (nb i) (fun j => rp1_add1 m (eo s i + j) c).
Lemma acc_inv c : rp1_acc c = true -> exists idx, c = (bH1a, idx).
Proof. destruct c as [b idx]; destruct b; try discriminate. eauto. Qed.
Definition o_rP1r (b : buf) : bool := match b with bF | bH1a | bScr => true | _ => false end.
Lemma k_rP1r m : cov m bF [(3 * nE)%nat] -> cov m bR1 [nE; kr_num (k_radial_1 km)] -> cov m bR1d [nE; kr_num (k_radial_1 km)] ->
  cov m bdP1r [n; C; K] -> cov m bY [(nE * L)%nat] -> cov m bYg [(3 * nE * L)%nat] -> cov m bH1 [nH; M; K] -> cov m bH1a [nH; M; K] ->
  wp top (kk_reverse_Phi1r_kernel km n (f_num_neigh s) (f_neigh_indices s) (f_xyz s) (f_r s)) m (fun _ m' => keep o_rP1r m m' /\
    (forall q a, (q < nE)%nat -> (a < 3)%nat -> va m' (bF, [(3 * q + a)%nat]) = va m (bF, [(3 * q + a)%nat]) - rp1_f m q a) /\
    (forall idx, va m' (bH1a, idx) = va m (bH1a, idx) + rsum n (fun i => rp1_add m i (bH1a, idx)))).
Proof.
  intros C1 C2 C3 C4 C5 C6 C7 C8. unfold kk_reverse_Phi1r_kernel. eapply wp_lift; [apply first_neigh_ok|].
  set (f := fun q a => va m (bF, [(3 * q + a)%nat]) - rp1_f m q a).
  apply (wp_pfor top (fs_own1 s) rp1_acc (f_sp s f) (rp1_add m)).
  - intros i Hi. eapply wp_lift; [apply rd_fn; auto|]. eapply wp_lift; [apply rd_nn; auto|].
    apply (wp_sfor _ (fs_own2 s i) rp1_acc (f_sp s f) (fun j => rp1_add1 m (eo s i + j))).
    + intros j Hj. cbv zeta. pose proof (q_lt s i j Hi Hj) as Hq. set (q := (eo s i + j)%nat) in *.
      assert (Oq : ow s q = i) by (apply ow_at; auto). pose proof (pi_q HP q Hq) as Bq.
      apply wp_bind.
      apply (wp_red3 _ lm_own3 rp1_acc tsp (rp1_add2 m q) [i; j] C _ (rp1_g m q 0) (rp1_g m q 1) (rp1_g m q 2)).
      * intros qq Hqq. split; [look|]. split; reflexivity.
      * intros x Hx. destruct (pi_c HP x Hx) as (E1 & E2 & E3 & B1 & B2 & B3).
        eapply wp_lift; [exact E1|]. eapply wp_lift; [exact E2|]. eapply wp_lift; [exact E3|].
        apply wp_bind.
        apply (wp_red2 _ nown rp1_acc tsp (rp1_add3 m q x) [i; j; x] K _
          (fun k => va m (bR1d, [q; (lel x * K + k)%nat]) * va m (bH1, [e_idx (eg s q); lm2 x; k]) * va m (bdP1r, [ow s q; x; k]))
          (fun k => va m (bR1, [q; (lel x * K + k)%nat]) * va m (bH1, [e_idx (eg s q); lm2 x; k]) * va m (bdP1r, [ow s q; x; k]))).
        -- intros qq Hqq. destruct qq as [|[|]]; [| |lia]; (split; [look|]; split; reflexivity).
        -- intros k Hk. pose proof (B3 k Hk). pose proof (y0 km s q (lm1 x) Hq B1).
           apply wp_get; [look|al|]. eapply wp_lift; [apply rd_nidx'; auto|].
           apply wp_get; [look|al|]. apply wp_get; [look|al|]. apply wp_get; [look|al|]. apply wp_get; [look|al|].
           apply wp_add; [look|al|]. apply wp_ret. split.
           ++ vap. rewrite Oq. reflexivity.
           ++ split; [intros; exact Logic.I|]. intros c [Ac _]. destruct (acc_inv c Ac) as (idx & ->).
              rewrite va_add_at. vap. unfold rp1_add3, khp. rewrite Oq. reflexivity.
        -- intros m1 (D1 & _ & A1 & V1).
           assert (F1 : forall b idx, match b with bScr | bH1a => False | _ => True end -> va m1 (b, idx) = va m (b, idx)).
           { intros b idx Hb. rewrite V1; [destruct b; try contradiction; vap; reflexivity| |destruct b; try contradiction; reflexivity].
             unfold idle. destruct (kd _ _ _ _ _); auto; destruct b; try contradiction; auto. }
           assert (D1' : dims m1 = dims m) by (rewrite D1; apply dims_puts0).
           pose proof (y0 km s q (lm1 x) Hq B1).
           assert (Y3 : forall a, (a < 3)%nat -> ((3 * q + a) * L + lm1 x < 3 * nE * L)%nat) by (intros; nia).
           pose proof (Y3 0%nat ltac:(lia)) as Y30. rewrite Nat.add_0_r in Y30. pose proof (Y3 1%nat ltac:(lia)). pose proof (Y3 2%nat ltac:(lia)).
           eapply wp_lift; [apply rd_r'; auto|].
           eapply wp_lift; [apply (rd_comp' s q 0); auto; lia|].
           eapply wp_lift; [apply (rd_comp' s q 1); auto; lia|].
           eapply wp_lift; [apply (rd_comp' s q 2); auto; lia|].
           apply wp_get; [look|al|]. apply wp_get; [look|al|]. apply wp_get; [look|al|]. apply wp_get; [look|al|]. apply wp_ret.
           split.
           ++ rewrite !F1 by exact Logic.I. unfold rp1_g. rewrite Nat.add_0_r. reflexivity.
           ++ split; [intros; exact Logic.I|]. intros c [Ac _]. destruct (acc_inv c Ac) as (idx & ->).
              rewrite A1 by (split; [reflexivity|left; reflexivity]). vap. reflexivity.
      * intros m2 (D2 & _ & A2 & V2).
        assert (D2' : dims m2 = dims m) by (rewrite D2; auto).
        assert (VF : forall x, va m2 (bF, [x]) = va m (bF, [x])).
        { intros x. apply V2; [|reflexivity]. unfold idle. destruct (kd _ _ _ _ _); auto. }
        apply wp_minus; [apply (f_PO s); auto; apply div3_0|al|].
        apply wp_minus; [apply (f_PO s); auto; apply div3; lia|al|].
        apply wp_minus_; [apply (f_PO s); auto; apply div3; lia|al|].
        split.
        -- intros c Pc O. destruct c as [b idx]; destruct b; try discriminate O; try exact Logic.I.
           idx1 idx O x. owned Pc. intros Hx.
           destruct (f_in s i x j Hi Hx Pc O) as (_ & _ & a & Ha & ->). fold q.
           unfold f, rp1_f. rewrite div3, mod3 by auto.
           destruct a as [|[|[|]]]; [rewrite Nat.add_0_r| | |lia]; va3; rewrite VF; reflexivity.
        -- intros c [Ac _]. destruct (acc_inv c Ac) as (idx & ->). rewrite !va_store_ne by discriminate.
           apply A2. split; [reflexivity|left; reflexivity].
    + intros m' (D & P1 & _ & A1 & _). split.
      * intros c Pc O. destruct c as [b idx]; destruct b; try discriminate O; try exact Logic.I.
        idx1 idx O x. intros Hx. destruct (f_in s i x _ Hi Hx O eq_refl) as (Hj & _ & _).
        apply (P1 (bF, [x]) (x / 3 - eo s i)%nat); auto. unfold kd, fs_own1. lcbn. rewrite O. eqbs. reflexivity.
      * intros c [Ac _]. destruct (acc_inv c Ac) as (idx & ->). apply A1. split; [reflexivity|left; reflexivity].
  - intros m' (D & P1 & _ & A1 & P4). split; [|split].
    + split; [assumption|]. intros b idx Hb. apply P4. unfold idle. lcbn. destruct b; try discriminate Hb; split; reflexivity.
    + intros q a Hq Ha.
      assert (E : f_sp s f (bF, [(3 * q + a)%nat]) (va m' (bF, [(3 * q + a)%nat])))
        by (apply (P1 _ (ow s q)); [reflexivity | lcbn; rewrite div3 by auto; reflexivity | apply ow_lt; auto]).
      unfold f_sp in E. rewrite div3, mod3 in E by auto. apply E, lt3; auto.
    + intros idx. apply A1. split; [reflexivity|right; split; reflexivity].
Qed.
(** the additions to one entry *)
Lemma rp1_at m q jj LM k : (k < K)%nat -> rp1_add1 m q (bH1a, [jj; LM; k]) =
  rsum C (fun x => if (e_idx (eg s q) =? jj)%nat then (if (lm2 x =? LM)%nat then khp m q x k else 0) else 0).
Proof.
  intros Hk. unfold rp1_add1. apply rsum_ext. intros x Hx. unfold rp1_add2, rp1_add3.
  rewrite (rsum_one K k) by (auto; intros k' Hk' Hne; apply at_ne; congruence).
  destruct (Nat.eqb_spec (e_idx (eg s q)) jj) as [->|H1]; [|apply at_ne; congruence].
  destruct (Nat.eqb_spec (lm2 x) LM) as [->|H2]; [|apply at_ne; congruence]. apply at_eq.
Qed.
End K.
