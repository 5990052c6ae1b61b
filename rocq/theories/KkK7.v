(** Kernel of MultilayerPerceptronKokkos::evaluate_gradient for two layers.  Used in proofs only. *)
From Coq Require Import List Arith ZArith Bool Lia Reals Lra FunctionalExtensionality.
From Verif Require Import Base BaseLemmas Segs Instances RSums ToolsModel MpModel MaceModel Sys SysLoops MacePure MaceStages1.
From Verif Require Import KkSem KkSound KkWp KkWp2 KkModel KkHost KkTac KkK1 KkK2 KkK3.
Import ListNotations.
Local Open Scope R_scope.

Section Steps.
Variable pi : perms.
Variable i : nat.
Definition v_own (b : buf) (c : cell) : option nat := if buf_dec b (fst c) then match snd c with [_; p] => Some p | _ => None end else None.
Definition v_sp (b : buf) (f : nat -> R) (N : nat) (c : cell) (v : R) : Prop := forall p, (p < N)%nat -> c = (b, [i; p]) -> v = f p.
Definition vpost (b : buf) (f : nat -> R) (N : nat) (m m' : rmem) : Prop := dims m' = dims m /\
  (forall p, (p < N)%nat -> va m' (b, [i; p]) = f p) /\ (forall c, (forall p, c <> (b, [i; p])) -> va m' c = va m c).
Lemma v_own_eq b p : v_own b (b, [i; p]) = Some p.
Proof. unfold v_own. cbn [fst snd]. destruct (buf_dec b b); congruence. Qed.
Lemma v_own_ne b b' idx : b <> b' -> v_own b (b', idx) = None.
Proof. unfold v_own. cbn [fst snd]. destruct (buf_dec b b'); congruence. Qed.
Lemma v_PO b p : pi (b, [i; p]) = POwn -> kd pi (v_own b) none_ p (b, [i; p]) = POwn.
Proof. intros H. apply kd_own_ok; auto. apply v_own_eq. Qed.
Lemma v_PR b b' p idx : b <> b' -> can_read (pi (b', idx)) = true -> can_read (kd pi (v_own b) none_ p (b', idx)) = true.
Proof. intros H E. unfold kd. rewrite v_own_ne by auto. destruct (pi (b', idx)); auto. Qed.
(** a parallel loop in which index p writes entry p *)
Lemma v_step b (f : nat -> R) N (body : nat -> rprog unit) m (Q : unit -> rmem -> Prop) :
  (forall p, (p < N)%nat -> pi (b, [i; p]) = POwn) ->
  (forall p, (p < N)%nat -> wp (kd pi (v_own b) none_ p) (body p) m (fun _ m' => va m' (b, [i; p]) = f p /\ forall c, c <> (b, [i; p]) -> va m' c = va m c)) ->
  (forall m', vpost b f N m m' -> Q tt m') ->
  wp pi (par_for (N:=RNum) N body) m Q.
Proof.
  intros HO HB HQ.
  set (Sp := fun (c : cell) (v : R) => (forall p, (p < N)%nat -> c = (b, [i; p]) -> v = f p) /\ ((forall p, c <> (b, [i; p])) -> v = va m c)).
  apply (wp_pfor pi (v_own b) none_ Sp nadd_).
  - intros p Hp. eapply wp_conseq; [apply HB; auto|]. cbn beta. intros [] m' [E F]. apply kpost_own. intros c P O. split.
    + intros p' Hp' ->. rewrite v_own_eq in O. apply some_inj in O. subst p'. auto.
    + intros Hc. apply F. auto.
  - intros m' (D & P1 & P2 & _ & P4). apply HQ. split; [auto|]. split.
    + intros p Hp. apply (P1 (b, [i; p]) p); auto. apply v_own_eq.
    + intros c Hc. destruct (pi c) eqn:EP; try (apply P4; unfold idle; rewrite EP; first [exact Logic.I | reflexivity]).
      destruct (v_own b c) as [p|] eqn:EO.
      * destruct (Nat.lt_ge_cases p N); [|apply (P2 c p); auto]. apply (P1 c p); auto.
      * apply P4. unfold idle. rewrite EP. auto.
Qed.
(** a row times a vector, added *)
Lemma mv_body pi' src dst p cols (W : nat -> option R) (w : nat -> R) m (Q : unit -> rmem -> Prop) :
  src <> dst -> pi' (dst, [i; p]) = POwn -> (forall q, (q < cols)%nat -> can_read (pi' (src, [i; q])) = true) ->
  alloc m (dst, [i; p]) = true -> (forall q, (q < cols)%nat -> alloc m (src, [i; q]) = true) ->
  (forall q, (q < cols)%nat -> W q = Some (w q)) ->
  Q tt (store m (dst, [i; p]) (va m (dst, [i; p]) + rsum cols (fun q => w q * va m (src, [i; q])))) ->
  wp pi' (for_p (N:=RNum) cols (fun q _ => wv <~ lift (W q) ;; x <~ get (N:=RNum) src [i; q] ;; plus_eq (N:=RNum) dst [i; p] (wv * x)) tt) m Q.
Proof.
  intros Hne HO HR A1 A2 HW HQ. apply (wp_for_plus _ _ _ (fun q => w q * va m (src, [i; q])) (dst, [i; p])); auto.
  intros q y Hq. eapply wp_lift; [apply HW; auto|]. apply wp_get; [apply HR; auto|apply A2; auto|]. apply wp_plus_; auto.
  rewrite va_store_eq, store_store, va_store_ne by congruence. reflexivity.
Qed.
End Steps.

Section Mlp.
Variable km : kmace RNum.
Variable s : sys RNum.
Notation n := (length s).
Variable p2 : kmlp RNum.
Variables K H : nat.
Variables (w0 w1 : nat -> nat -> R) (W0 W1 : view RNum).
Record mlp_in : Prop := {
  mi_shape : kl_shape p2 = [K; H; 1]%nat;
  mi_w : kl_weights p2 = [W0; W1];
  mi_e0 : v_ext W0 = [H; K]; mi_e1 : v_ext W1 = [1; H]%nat;
  mi_w0 : forall p q, (p < H)%nat -> (q < K)%nat -> vget W0 [p; q] = Some (w0 p q);
  mi_w1 : forall p q, (p < 1)%nat -> (q < H)%nat -> vget W1 [p; q] = Some (w1 p q) }.
Hypothesis HI : mlp_in.
Definition kl_z m i p : R := rsum K (fun q => w0 p q * va m (bNv 0, [i; q])).
Definition kl_a (v : R) : R := kl_scale p2 * v / (1 + exp (- v)).
Definition kl_out m i : R := rsum H (fun q => w1 0 q * kl_a (kl_z m i q)).
Definition kl_d1 m i p : R := let x := kl_z m i p in let sg := 1 / (1 + exp (- x)) in
  w1 0 p * (kl_scale p2 * sg + kl_scale p2 * x * sg * (1 - sg)).
Definition kl_d0 m i q : R := rsum H (fun p => w0 p q * kl_d1 m i p).
Definition mlp_own (c : cell) : option nat := match c with (bNv _, [i; _]) => Some i | (bNd _, [i; _]) => Some i | _ => None end.
Definition mlp_sp m (c : cell) (v : R) : Prop := match c with
  | (bNv 2, [i; 0%nat]) => v = kl_out m i | (bNd 0, [i; q]) => (q < K)%nat -> v = kl_d0 m i q | _ => True end.
Definition o_mlp (b : buf) : bool := match b with bNv _ | bNd _ | bScr => true | _ => false end.
Lemma k_mlp m : cov m (bNv 0) [n; K] -> cov m (bNv 1) [n; H] -> cov m (bNv 2) [n; 1%nat] -> cov m (bNd 0) [n; K] -> cov m (bNd 1) [n; H] ->
  (forall i p, (i < n)%nat -> (p < H)%nat -> va m (bNv 1, [i; p]) = 0) -> (forall i, (i < n)%nat -> va m (bNv 2, [i; 0%nat]) = 0) ->
  wp top (kk_mlp_kernel n p2) m (fun _ m' => keep o_mlp m m' /\
    (forall i, (i < n)%nat -> va m' (bNv 2, [i; 0%nat]) = kl_out m i) /\
    (forall i q, (i < n)%nat -> (q < K)%nat -> va m' (bNd 0, [i; q]) = kl_d0 m i q)).
Proof.
  intros C0 C1 C2 D0 D1 Z1 Z2. unfold kk_mlp_kernel. rewrite (mi_shape HI), (mi_w HI). cbv zeta.
  change (length [K; H; 1%nat]) with 3%nat. cbn [Nat.sub].
  apply (wp_pfor top mlp_own none_ (mlp_sp m) nadd_).
  - intros i Hi.
    assert (PV : forall l p, kd top mlp_own none_ i (bNv l, [i; p]) = POwn) by (intros; look).
    assert (PD : forall l p, kd top mlp_own none_ i (bNd l, [i; p]) = POwn) by (intros; look).
    set (pi := kd top mlp_own none_ i) in *.
    apply wp_bind. unfold for_p at 1. cbn [for_p_from]. apply wp_bind.
    change (rd [W0; W1] 0) with (Some W0). eapply wp_lift; [reflexivity|]. rewrite (mi_e0 HI). cbn [nth].
    (* layer 0 *)
    apply wp_bind. apply (v_step pi i (bNv 1) (kl_z m i)); [intros; apply PV| |].
    { intros p Hp. apply (mv_body i _ (bNv 0) (bNv 1) p K (fun q => vget W0 [p; q]) (w0 p)); [discriminate| | | | | |].
      - apply v_PO. apply PV.
      - intros q Hq. apply v_PR; [discriminate|]. rewrite PV. reflexivity.
      - al.
      - intros q Hq. al.
      - intros q Hq. apply (mi_w0 HI); auto.
      - rewrite va_store_eq, Z1 by auto. split; [unfold kl_z; rewrite Rplus_0_l; reflexivity|]. intros c Hc. apply va_store_ne. auto. }
    intros m1 (E1 & V1 & F1). cbn [Nat.eqb].
    change (rd [K; H; 1%nat] (0 + 1)) with (Some H). eapply wp_lift; [reflexivity|].
    apply (v_step pi i (bNv 1) (fun p => kl_a (kl_z m i p))); [intros; apply PV| |].
    { intros p Hp. apply wp_get; [rewrite v_PO by apply PV; reflexivity|al|]. apply wp_put_; [apply v_PO; apply PV|al|].
      rewrite va_store_eq. split; [rewrite V1 by auto; reflexivity|]. intros c Hc. apply va_store_ne. auto. }
    intros m2 (E2 & V2 & F2). assert (D2 : dims m2 = dims m) by congruence.
    (* layer 1 *)
    apply wp_bind. change (rd [W0; W1] 1) with (Some W1). eapply wp_lift; [reflexivity|]. rewrite (mi_e1 HI). cbn [nth].
    apply wp_bind. apply (v_step pi i (bNv 2) (fun _ => kl_out m i)); [intros; apply PV| |].
    { intros p Hp. apply (mv_body i _ (bNv 1) (bNv 2) p H (fun q => vget W1 [p; q]) (w1 p)); [discriminate| | | | | |].
      - apply v_PO. apply PV.
      - intros q Hq. apply v_PR; [discriminate|]. rewrite PV. reflexivity.
      - al.
      - intros q Hq. al.
      - intros q Hq. apply (mi_w1 HI); auto.
      - assert (p = 0%nat) as -> by lia. rewrite va_store_eq. rewrite F2, F1 by (intros; discriminate). rewrite Z2 by auto.
        split; [unfold kl_out; rewrite Rplus_0_l; apply rsum_ext; intros q Hq; rewrite V2 by auto; reflexivity|].
        intros c Hc. apply va_store_ne. auto. }
    intros m3 (E3 & V3 & F3). cbn [Nat.eqb]. apply wp_ret. apply wp_ret. assert (D3 : dims m3 = dims m) by congruence.
    (* reverse *)
    change (rd [K; H; 1%nat] 1) with (Some H). eapply wp_lift; [reflexivity|].
    change (rd [W0; W1] 1) with (Some W1). eapply wp_lift; [reflexivity|].
    apply wp_bind. apply (v_step pi i (bNd 1) (w1 0)); [intros; apply PD| |].
    { intros p Hp. eapply wp_lift; [apply (mi_w1 HI); auto; lia|]. apply wp_put_; [apply v_PO; apply PD|al|].
      rewrite va_store_eq. split; [reflexivity|]. intros c Hc. apply va_store_ne. auto. }
    intros m4 (E4 & V4 & F4). assert (D4 : dims m4 = dims m) by congruence.
    unfold for_p at 1. cbn [for_p_from Nat.sub]. apply wp_bind. cbv zeta.
    change (rd [W0; W1] 0) with (Some W0). eapply wp_lift; [reflexivity|]. rewrite (mi_e0 HI). cbn [nth].
    assert (X0 : forall q, va m4 (bNv 0, [i; q]) = va m (bNv 0, [i; q])).
    { intros q. rewrite F4, F3, F2, F1 by (intros; discriminate). reflexivity. }
    apply wp_bind. apply (v_step pi i (bNv 1) (kl_z m i)); [intros; apply PV| |].
    { intros p Hp. apply wp_put; [apply v_PO; apply PV|al|].
      apply (mv_body i _ (bNv 0) (bNv 1) p K (fun q => vget W0 [p; q]) (w0 p)); [discriminate| | | | | |].
      - apply v_PO. apply PV.
      - intros q Hq. apply v_PR; [discriminate|]. rewrite PV. reflexivity.
      - al.
      - intros q Hq. al.
      - intros q Hq. apply (mi_w0 HI); auto.
      - rewrite !va_store_eq, store_store. split.
        + rewrite Rplus_0_l. apply rsum_ext. intros q Hq. rewrite va_store_ne by discriminate. rewrite X0. reflexivity.
        + intros c Hc. apply va_store_ne. auto. }
    intros m5 (E5 & V5 & F5). assert (D5 : dims m5 = dims m) by congruence.
    change (rd [K; H; 1%nat] (0 + 1)) with (Some H). eapply wp_lift; [reflexivity|].
    apply wp_bind. apply (v_step pi i (bNd 1) (kl_d1 m i)); [intros; apply PD| |].
    { intros p Hp. apply wp_get; [apply v_PR; [discriminate|rewrite PV; reflexivity]|al|].
      apply wp_get; [rewrite v_PO by apply PD; reflexivity|al|]. apply wp_put_; [apply v_PO; apply PD|al|].
      rewrite va_store_eq. split; [|intros c Hc; apply va_store_ne; auto].
      rewrite V5, F5, V4 by (auto; intros; discriminate). reflexivity. }
    intros m6 (E6 & V6 & F6). assert (D6 : dims m6 = dims m) by congruence.
    apply (v_step pi i (bNd 0) (kl_d0 m i)); [intros; apply PD| |].
    { intros p Hp. apply wp_put; [apply v_PO; apply PD|al|].
      apply (mv_body i _ (bNd 1) (bNd 0) p H (fun q => vget W0 [q; p]) (fun q => w0 q p)); [discriminate| | | | | |].
      - apply v_PO. apply PD.
      - intros q Hq. apply v_PR; [discriminate|]. rewrite PD. reflexivity.
      - al.
      - intros q Hq. al.
      - intros q Hq. apply (mi_w0 HI); auto.
      - rewrite !va_store_eq, store_store. split.
        + rewrite Rplus_0_l. apply rsum_ext. intros q Hq. rewrite va_store_ne by discriminate. rewrite V6 by auto. reflexivity.
        + intros c Hc. apply va_store_ne. auto. }
    intros m7 (E7 & V7 & F7). apply wp_ret. apply kpost_own. intros c P O.
    assert (N2 : forall q, va m7 (bNv 2, [i; q]) = va m3 (bNv 2, [i; q])).
    { intros q. rewrite F7, F6, F5, F4 by (intros; discriminate). reflexivity. }
    destruct c as [b idx]; destruct b; try discriminate O; try exact Logic.I.
    + idx2 idx O i' q. subst i'. destruct l as [|[|[|?]]]; try exact Logic.I. destruct q; [|exact Logic.I]. lcbn. rewrite N2. apply V3. lia.
    + idx2 idx O i' q. subst i'. destruct l as [|?]; try exact Logic.I. intros Hq. apply V7. auto.
  - intros m' (D & P1 & _ & _ & P4). split; [keepv P4|]. split.
    + intros i Hi. apply (P1 (bNv 2, [i; 0%nat]) i); auto.
    + intros i q Hi Hq. apply (P1 (bNd 0, [i; q]) i); auto.
Qed.
End Mlp.
