(** Kernels of compute_A0_scaled, compute_A1_scaled and their reverses.  Used in proofs only. *)
From Coq Require Import List Arith ZArith Bool Lia Reals Lra FunctionalExtensionality.
From Verif Require Import Base BaseLemmas Segs Instances RSums MaceModel Sys SysLoops MacePure MaceStages1.
From Verif Require Import KkSem KkSound KkWp KkWp2 KkModel KkHost KkTac KkK1.
Import ListNotations.
Local Open Scope R_scope.

Section K.
Variable km : kmace RNum.
Variable s : sys RNum.
Notation n := (length s).
Notation nE := (length (epairs s)).
Notation K := (k_num_channels km).
Notation L := (k_num_lm km).
Notation nb i := (length (es s i)).

Definition kscale (bv : buf) m i : R := rsum (nb i) (fun j => va m (bv, [(eo s i + j)%nat; 0%nat])) + 1.
Definition scl_own1 (bA : buf) (c : cell) : option nat :=
  two bA bScr (match snd c with [i; _; _] => Some i | _ => None end) (match snd c with i :: _ => Some i | _ => None end) None (fst c).
Definition lmk_own (bA : buf) (c : cell) : option nat :=
  two bA bA (match snd c with [_; lm; k] => Some (lm * K + k)%nat | _ => None end) None None (fst c).
Definition scl_sp (bA bv : buf) m (c : cell) (v : R) : Prop :=
  two bA bA (match snd c with [i; lm; k] => (i < n)%nat -> (lm < L)%nat -> (k < K)%nat -> v = va m (bA, [i; lm; k]) / kscale bv m i | _ => True end) True True (fst c).

Lemma LKdiv lmk : (lmk < L * K)%nat -> (lmk / K < L)%nat /\ (lmk mod K < K)%nat /\ lmk = (lmk / K * K + lmk mod K)%nat.
Proof.
  intros H. destruct (rankL _ _ _ H) as (lm & k & A & B & ->). rewrite divL, modL by auto. auto.
Qed.
Lemma o_1_scr b : o_1 b bScr = true. Proof. reflexivity. Qed.
Ltac scale_tac bA bv m :=
  unfold kk_scale_kernel; (eapply wp_lift; [apply first_neigh_ok|]);
  apply (wp_pfor top (scl_own1 bA) none_ (scl_sp bA bv m) nadd_);
  [ let i := fresh "i" in let Hi := fresh "Hi" in intros i Hi;
    (eapply wp_lift; [apply rd_nn; auto|]); (eapply wp_lift; [apply rd_fn; auto|]);
    apply wp_bind;
    apply (wp_red1r _ [i] (nb i) _ (fun j => va m (bv, [(eo s i + j)%nat; 0%nat])));
    [ look
    | let j := fresh "j" in let Hj := fresh "Hj" in intros j Hj; pose proof (q_lt s i j Hi Hj) as Hq;
      apply wp_get_; [look|al|vap; reflexivity]
    | let m1 := fresh "m1" in let D1 := fresh "D1" in let V1 := fresh "V1" in intros m1 D1 V1; cbv zeta;
      apply (wp_pfor _ (lmk_own bA) none_ (scl_sp bA bv m) nadd_);
      [ let lmk := fresh "lmk" in let H := fresh "H" in intros lmk H;
        destruct (LKdiv lmk H) as (Hl & Hk & El);
        assert (PO : kd (kd top (scl_own1 bA) none_ i) (lmk_own bA) none_ lmk (bA, [i; lmk / K; lmk mod K]%nat) = POwn)
          by (apply kd_own_ok; [look|]; lcbn; f_equal; auto);
        (apply wp_get; [rewrite PO; reflexivity|al|]);
        (apply wp_put_; [exact PO|al|]);
        apply kpost_own; let c := fresh "c" in let P := fresh "P" in let O := fresh "O" in
        let x := fresh "x" in let y := fresh "y" in let z := fresh "z" in
        intros c P O; cell3 c O x y z; apply some_inj in O; owned P; subst x; intros _ B C;
        assert (EE := pairL y z _ _ K (eq_trans O El) C Hk); destruct EE as [-> ->];
        rewrite va_store_eq, V1 by reflexivity; reflexivity
      | let m' := fresh "m'" in intros m' (D & P1 & _); apply kpost_own;
        let c := fresh "c" in let P := fresh "P" in let O := fresh "O" in
        let x := fresh "x" in let y := fresh "y" in let z := fresh "z" in
        intros c P O; destruct c as [b idx]; destruct b; try discriminate O; try exact I;
        destruct idx as [|x [|y [|z [|? ?]]]]; try discriminate O; lcbni O; apply some_inj in O; subst x; intros A B C;
        apply (P1 (bA, [i; y; z]) (y * K + z)%nat); auto; [look | nia] ] ]
  | let m' := fresh "m'" in intros m' (D & P1 & _ & _ & P4); split; [keepv P4|];
    let i := fresh "i" in intros i lm k Hi Hl Hk; apply (P1 (bA, [i; lm; k]) i); auto ].
Lemma k_scale_A0 m : cov m bA0 [n; L; K] -> cov m bA0v [nE; 1%nat] ->
  wp top (kk_scale_kernel km n (f_num_neigh s) bA0 bA0v) m (fun _ m' => keep (o_1 bA0) m m' /\
    forall i lm k, (i < n)%nat -> (lm < L)%nat -> (k < K)%nat -> va m' (bA0, [i; lm; k]) = va m (bA0, [i; lm; k]) / kscale bA0v m i).
Proof. intros C1 C2. scale_tac bA0 bA0v m. Qed.
Lemma k_scale_A1 m : cov m bA1 [n; L; K] -> cov m bA1v [nE; 1%nat] ->
  wp top (kk_scale_kernel km n (f_num_neigh s) bA1 bA1v) m (fun _ m' => keep (o_1 bA1) m m' /\
    forall i lm k, (i < n)%nat -> (lm < L)%nat -> (k < K)%nat -> va m' (bA1, [i; lm; k]) = va m (bA1, [i; lm; k]) / kscale bA1v m i).
Proof. intros C1 C2. scale_tac bA1 bA1v m. Qed.

(** ** reverse_A0_scaled, reverse_A1_scaled *)
Definition three {A} (b1 b2 b3 : buf) (x y z d : A) (b' : buf) : A :=
  if buf_dec b1 b' then x else if buf_dec b2 b' then y else if buf_dec b3 b' then z else d.
Definition kdot (bA bAa : buf) m i : R := rsum (L * K) (fun lmk => va m (bAa, [i; lmk / K; lmk mod K]%nat) * va m (bA, [i; lmk / K; lmk mod K]%nat)).
Definition rscl_f bA bAa bv bd m q a : R :=
  kdot bA bAa m (ow s q) / kscale bv m (ow s q) * va m (bd, [q; 0%nat]) * comp (eg s q) a / e_r (eg s q).
Definition rscl_own1 (bAa : buf) (c : cell) : option nat :=
  three bAa bF bScr (match snd c with [i; _; _] => Some i | _ => None end) (match snd c with [x] => Some (ow s (x / 3)) | _ => None end)
    (match snd c with i :: _ => Some i | _ => None end) None (fst c).
Definition f_own2 i (c : cell) : option nat := match c with (bF, [x]) => Some (x / 3 - eo s i)%nat | _ => None end.
Definition rscl_sp (bA bAa bv bd : buf) m (c : cell) (v : R) : Prop :=
  two bAa bF (match snd c with [i; lm; k] => (i < n)%nat -> (lm < L)%nat -> (k < K)%nat -> v = va m (bAa, [i; lm; k]) / kscale bv m i | _ => True end)
   (match snd c with [x] => (x < 3 * nE)%nat -> v = va m (bF, [x]) + rscl_f bA bAa bv bd m (x / 3) (x mod 3) | _ => True end)
   True (fst c).
Definition o_2 (b1 b2 b' : buf) : bool := match b' with bScr => true | _ => two b1 b2 true true false b' end.
Lemma f_in i x j : (i < n)%nat -> (x < 3 * nE)%nat -> ow s (x / 3) = i -> (x / 3 - eo s i = j)%nat ->
  (j < nb i)%nat /\ (x / 3 = eo s i + j)%nat /\ (exists a, (a < 3)%nat /\ x = (3 * (eo s i + j) + a)%nat).
Proof.
  intros Hi Hx O E. destruct (split3 x) as (a & Ha & Ex).
  assert (Hq : (x / 3 < nE)%nat) by lia.
  destruct (q_split s _ Hq) as (i' & j' & Hi' & Hj' & Eq). rewrite Eq in O. rewrite ow_at in O by auto. subst i'.
  assert (j = j') by lia. subst j'. split; [auto|]. split; [auto|]. exists a. split; auto. lia.
Qed.
Ltac rscale_tac bA bAa bv bd m :=
  unfold kk_reverse_scale_kernel; (eapply wp_lift; [apply first_neigh_ok|]);
  apply (wp_pfor top (rscl_own1 bAa) none_ (rscl_sp bA bAa bv bd m) nadd_);
  [ let i := fresh "i" in let Hi := fresh "Hi" in intros i Hi;
    (eapply wp_lift; [apply rd_nn; auto|]); (eapply wp_lift; [apply rd_fn; auto|]);
    apply wp_bind;
    apply (wp_red1r _ [i; 0%nat] (nb i) _ (fun j => va m (bv, [(eo s i + j)%nat; 0%nat])));
    [ look
    | let j := fresh "j" in let Hj := fresh "Hj" in intros j Hj; pose proof (q_lt s i j Hi Hj) as Hq;
      apply wp_get_; [look|al|vap; reflexivity]
    | ];
    let m1 := fresh "m1" in let D1 := fresh "D1" in let V1 := fresh "V1" in intros m1 D1 V1; cbv zeta;
    apply wp_bind;
    apply (wp_red1r _ [i; 1%nat] (L * K) _ (fun lmk => va m (bAa, [i; lmk / K; lmk mod K]%nat) * va m (bA, [i; lmk / K; lmk mod K]%nat)));
    [ look
    | let lmk := fresh "lmk" in let H := fresh "H" in intros lmk H; destruct (LKdiv lmk H) as (Hl & Hk & El);
      (apply wp_get; [look|al|]); (apply wp_get; [look|al|]); apply wp_ret; vap; rewrite !V1 by reflexivity; reflexivity
    | ];
    let m2 := fresh "m2" in let D2 := fresh "D2" in let V2 := fresh "V2" in intros m2 D2 V2;
    apply wp_bind;
    apply (wp_pfor _ (f_own2 i) none_ (rscl_sp bA bAa bv bd m) nadd_);
    [ let j := fresh "j" in let Hj := fresh "Hj" in intros j Hj; pose proof (q_lt s i j Hi Hj) as Hq;
      assert (PO : forall x, (x / 3 = eo s i + j)%nat -> kd (kd top (rscl_own1 bAa) none_ i) (f_own2 i) none_ j (bF, [x]) = POwn)
        by (let E := fresh in intros x E; apply kd_own_ok; [apply kd_own_ok; [reflexivity|]; lcbn; rewrite E, ow_at by auto; reflexivity|];
            lcbn; rewrite E; f_equal; rewrite Nat.add_comm; apply Nat.add_sub);
      (eapply wp_lift; [apply rd_r'; auto|]);
      (apply wp_get; [look|al|]);
      (eapply wp_lift; [apply (rd_comp' s (eo s i + j) 0); auto; lia|]);
      (apply wp_plus; [apply PO, div3_0|al|]);
      (eapply wp_lift; [apply (rd_comp' s (eo s i + j) 1); auto; lia|]);
      (apply wp_plus; [apply PO, div3; lia|al|]);
      (eapply wp_lift; [apply (rd_comp' s (eo s i + j) 2); auto; lia|]);
      (apply wp_plus_; [apply PO, div3; lia|al|]);
      apply kpost_own; let c := fresh "c" in let P := fresh "P" in let O := fresh "O" in let x := fresh "x" in
      intros c P O; cell1 c O x; apply some_inj in O; owned P; let Hx := fresh "Hx" in intros Hx;
      destruct (f_in i x j Hi Hx P O) as (_ & _ & a & Ha & ->);
      unfold rscl_f; rewrite div3, mod3, ow_at by auto;
      destruct a as [|[|[|]]]; [rewrite Nat.add_0_r| | |lia];
      va3; rewrite !V2, !V1 by reflexivity; reflexivity
    | ];
    let m3 := fresh "m3" in intros m3 (D3 & P3 & _ & _ & Q3);
    apply (wp_pfor _ (lmk_own bAa) none_ (rscl_sp bA bAa bv bd m) nadd_);
    [ let lmk := fresh "lmk" in let H := fresh "H" in intros lmk H;
      destruct (LKdiv lmk H) as (Hl & Hk & El);
      assert (PO : kd (kd top (rscl_own1 bAa) none_ i) (lmk_own bAa) none_ lmk (bAa, [i; lmk / K; lmk mod K]%nat) = POwn)
        by (apply kd_own_ok; [look|]; lcbn; f_equal; auto);
      (apply wp_get; [rewrite PO; reflexivity|al|]);
      (apply wp_put_; [exact PO|al|]);
      apply kpost_own; let c := fresh "c" in let P := fresh "P" in let O := fresh "O" in
      let x := fresh "x" in let y := fresh "y" in let z := fresh "z" in
      intros c P O; cell3 c O x y z; apply some_inj in O; owned P; subst x; intros _ B C;
      assert (EE := pairL y z _ _ K (eq_trans O El) C Hk); destruct EE as [-> ->];
      rewrite va_store_eq, Q3, V2, V1 by (unfold idle, kd; lcbn; eqbs; auto); reflexivity
    | let m' := fresh "m'" in intros m' (D & P1 & _ & _ & Q4); apply kpost_own;
      let c := fresh "c" in let P := fresh "P" in let O := fresh "O" in
      let x := fresh "x" in let y := fresh "y" in let z := fresh "z" in
      intros c P O; destruct c as [b idx]; destruct b; try discriminate O; try exact I;
      first [ destruct idx as [|x [|y [|z [|? ?]]]]; try discriminate O; lcbni O; apply some_inj in O; subst x; intros A B C;
        apply (P1 (bAa, [i; y; z]) (y * K + z)%nat); auto; [look | nia]
      | destruct idx as [|x [|? ?]]; try discriminate O; lcbni O; apply some_inj in O;
        assert (PF : kd top (rscl_own1 bAa) none_ i (bF, [x]) = POwn) by (apply kd_own_ok; [reflexivity|]; lcbn; rewrite O; reflexivity);
        rewrite Q4 by (unfold idle; rewrite PF; split; reflexivity);
        let Hx := fresh "Hx" in intros Hx;
        destruct (f_in i x _ Hi Hx O eq_refl) as (Hj & _ & _);
        apply (P3 (bF, [x]) _ PF eq_refl Hj Hx) ] ]
  | let m' := fresh "m'" in intros m' (D & P1 & _ & _ & P4); split; [keepv P4|]; split;
    [ let i := fresh "i" in intros i lm k Hi Hl Hk; apply (P1 (bAa, [i; lm; k]) i); auto
    | intros q a Hq Ha; 
      let E := fresh in assert (E : rscl_sp bA bAa bv bd m (bF, [(3 * q + a)%nat]) (va m' (bF, [(3 * q + a)%nat])))
        by (apply (P1 _ (ow s q)); [reflexivity | lcbn; rewrite div3 by auto; reflexivity | apply ow_lt; auto]);
      lcbni E; rewrite div3, mod3 in E by auto; apply E, lt3; auto ] ].
Lemma k_rscale_A0 m : cov m bA0 [n; L; K] -> cov m bA0a [n; L; K] -> cov m bA0v [nE; 1%nat] -> cov m bA0d [nE; 1%nat] -> cov m bF [(3 * nE)%nat] ->
  wp top (kk_reverse_scale_kernel km n (f_num_neigh s) (f_xyz s) (f_r s) bA0 bA0a bA0v bA0d) m (fun _ m' => keep (o_2 bA0a bF) m m' /\
    (forall i lm k, (i < n)%nat -> (lm < L)%nat -> (k < K)%nat -> va m' (bA0a, [i; lm; k]) = va m (bA0a, [i; lm; k]) / kscale bA0v m i) /\
    (forall q a, (q < nE)%nat -> (a < 3)%nat -> va m' (bF, [(3 * q + a)%nat]) = va m (bF, [(3 * q + a)%nat]) + rscl_f bA0 bA0a bA0v bA0d m q a)).
Proof. intros C1 C2 C3 C4 C5. rscale_tac bA0 bA0a bA0v bA0d m. Qed.
Lemma k_rscale_A1 m : cov m bA1 [n; L; K] -> cov m bA1a [n; L; K] -> cov m bA1v [nE; 1%nat] -> cov m bA1d [nE; 1%nat] -> cov m bF [(3 * nE)%nat] ->
  wp top (kk_reverse_scale_kernel km n (f_num_neigh s) (f_xyz s) (f_r s) bA1 bA1a bA1v bA1d) m (fun _ m' => keep (o_2 bA1a bF) m m' /\
    (forall i lm k, (i < n)%nat -> (lm < L)%nat -> (k < K)%nat -> va m' (bA1a, [i; lm; k]) = va m (bA1a, [i; lm; k]) / kscale bA1v m i) /\
    (forall q a, (q < nE)%nat -> (a < 3)%nat -> va m' (bF, [(3 * q + a)%nat]) = va m (bF, [(3 * q + a)%nat]) + rscl_f bA1 bA1a bA1v bA1d m q a)).
Proof. intros C1 C2 C3 C4 C5. rscale_tac bA1 bA1a bA1v bA1d m. Qed.
End K.
