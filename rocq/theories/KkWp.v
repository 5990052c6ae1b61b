(** Rules to execute kernels symbolically under ownership permissions.  Used in proofs only. *)
From Coq Require Import List Arith ZArith Bool Lia Reals Lra FunctionalExtensionality.
From Verif Require Import Base BaseLemmas Instances RSums KkSem KkSound.
Import ListNotations.
Local Open Scope R_scope.

Lemma rsum_S n f : rsum (S n) f = rsum n f + f n.
Proof. reflexivity. Qed.
Lemma rsum_O f : rsum 0 f = 0.
Proof. reflexivity. Qed.
Lemma meq_eq (m n : rmem) : meq m n -> m = n.
Proof.
  destruct m as [d v], n as [d' v']. intros [A B]. cbn in A. subst d'. f_equal.
  extensionality c. exact (B c).
Qed.
Lemma store_store (m : rmem) c (v w : R) : store (store m c v) c w = store m c w.
Proof. apply meq_eq. split; [reflexivity|]. intros c'. rewrite !va_store. destruct (cell_dec c c'); auto. Qed.
Lemma store_same (m : rmem) c : store m c (va m c) = m.
Proof. apply meq_eq. split; [reflexivity|]. intros c'. rewrite !va_store. destruct (cell_dec c c'); subst; auto. Qed.
Lemma va_store_eq (m : rmem) c (v : R) : va (store m c v) c = v.
Proof. rewrite va_store. destruct (cell_dec c c); congruence. Qed.
Lemma va_store_ne (m : rmem) c (v : R) c' : c <> c' -> va (store m c v) c' = va m c'.
Proof. rewrite va_store. destruct (cell_dec c c'); congruence. Qed.
Lemma alloc_store (m : rmem) c v c' : alloc (store m c v) c' = alloc m c'. Proof. reflexivity. Qed.
Lemma dims_store (m : rmem) c v : dims (store m c v) = dims m. Proof. reflexivity. Qed.

(** ** weakening and sequencing *)
Definition ple_ (p q : perm) : Prop :=
  match p with PNo => True | PRd => q = PRd \/ q = POwn | PAcc => q = PAcc \/ q = POwn | POwn => q = POwn end.
Lemma run_weaken A pi (p : rprog A) m a m' : run A pi p m a m' -> forall pi', (forall c, ple_ (pi c) (pi' c)) -> run A pi' p m a m'.
Proof.
  induction 1 as [A pi a m|A pi c k m a m' H1 H2 H3 IH|A pi c v k m a m' H1 H2 H3 IH|A pi c v k m a m' H1 H2 H3 IH
                 |A pi p1 p2 p q k m m1 m2 a m' Hs Hp IHp Hq IHq Hk IHk]; intros pi' L.
  - constructor.
  - apply run_get; auto. specialize (L c). destruct (pi c); try discriminate; cbn in L; [destruct L as [->| ->]|rewrite L]; auto.
  - apply run_put; auto. specialize (L c). rewrite H1 in L. exact L.
  - apply run_add; auto. specialize (L c). destruct (pi c); try discriminate; cbn in L; [rewrite L|destruct L as [->| ->]]; auto.
  - eapply run_fork; [|exact Hp|exact Hq|auto]. intros c. specialize (Hs c). specialize (L c).
    destruct (p1 c), (p2 c); auto; (destruct Hs as [E|E] || rename Hs into E); rewrite E in L; cbn in L; intuition.
Qed.

Lemma run_bind A B pi (p : rprog A) m a m1 : run A pi p m a m1 -> forall (f : A -> rprog B) b m2,
  run B pi (f a) m1 b m2 -> run B pi (pbind p f) m b m2.
Proof.
  induction 1 as [A pi a m|A pi c k m a m' H1 H2 H3 IH|A pi c v k m a m' H1 H2 H3 IH|A pi c v k m a m' H1 H2 H3 IH
                 |A pi p1 p2 p q k m m1 m2 a m' Hs Hp IHp Hq IHq Hk IHk]; intros f b m3 Hf; cbn [pbind]; auto.
  - apply run_get; auto.
  - apply run_put; auto.
  - apply run_add; auto.
  - eapply run_fork; eauto.
Qed.

Definition wp {A} (pi : perms) (p : rprog A) (m : rmem) (Q : A -> rmem -> Prop) : Prop :=
  exists a m', run A pi p m a m' /\ Q a m'.

Lemma wp_ret A pi (a : A) m (Q : A -> rmem -> Prop) : Q a m -> wp pi (Ret a) m Q.
Proof. intros H. exists a, m. split; [constructor|auto]. Qed.
Lemma wp_conseq A pi (p : rprog A) m (Q Q' : A -> rmem -> Prop) :
  wp pi p m Q -> (forall a m', Q a m' -> Q' a m') -> wp pi p m Q'.
Proof. intros (a & m' & H & HQ) L. exists a, m'. auto. Qed.
Lemma wp_bind A B pi (p : rprog A) (f : A -> rprog B) m Q :
  wp pi p m (fun a m1 => wp pi (f a) m1 Q) -> wp pi (pbind p f) m Q.
Proof. intros (a & m1 & H & b & m2 & H2 & HQ). exists b, m2. split; auto. eapply run_bind; eauto. Qed.
Lemma wp_weaken A pi pi' (p : rprog A) m Q : wp pi p m Q -> (forall c, ple_ (pi c) (pi' c)) -> wp pi' p m Q.
Proof. intros (a & m' & H & HQ) L. exists a, m'. split; auto. eapply run_weaken; eauto. Qed.
Lemma wp_frame A pi (p : rprog A) m Q : wp pi p m Q ->
  wp pi p m (fun a m' => Q a m' /\ dims m' = dims m /\ forall c, pi c = PNo \/ pi c = PRd -> va m' c = va m c).
Proof. intros (a & m' & H & HQ). exists a, m'. split; auto. split; auto. apply (run_frame _ _ _ _ _ _ H). Qed.

Lemma wp_get B pi b idx (f : R -> rprog B) m Q : can_read (pi (b, idx)) = true -> alloc m (b, idx) = true ->
  wp pi (f (va m (b, idx))) m Q -> wp pi (pbind (get (N:=RNum) b idx) f) m Q.
Proof. intros P L (a & m' & H & HQ). exists a, m'. split; auto. apply run_get; auto. Qed.
Lemma wp_get_ pi b idx m (Q : R -> rmem -> Prop) : can_read (pi (b, idx)) = true -> alloc m (b, idx) = true ->
  Q (va m (b, idx)) m -> wp pi (get (N:=RNum) b idx) m Q.
Proof. intros P L HQ. exists (va m (b, idx)), m. split; auto. apply run_get; auto. constructor. Qed.
Lemma wp_put B pi b idx (v : R) (f : unit -> rprog B) m Q : pi (b, idx) = POwn -> alloc m (b, idx) = true ->
  wp pi (f tt) (store m (b, idx) v) Q -> wp pi (pbind (put (N:=RNum) b idx v) f) m Q.
Proof. intros P L (a & m' & H & HQ). exists a, m'. split; auto. apply run_put; auto. Qed.
Lemma wp_put_ pi b idx (v : R) m (Q : unit -> rmem -> Prop) : pi (b, idx) = POwn -> alloc m (b, idx) = true ->
  Q tt (store m (b, idx) v) -> wp pi (put (N:=RNum) b idx v) m Q.
Proof. intros P L HQ. exists tt, (store m (b, idx) v). split; auto. apply run_put; auto. constructor. Qed.
Lemma wp_add B pi b idx (v : R) (f : unit -> rprog B) m Q : can_add (pi (b, idx)) = true -> alloc m (b, idx) = true ->
  wp pi (f tt) (store m (b, idx) (va m (b, idx) + v)) Q -> wp pi (pbind (atomic_add (N:=RNum) b idx v) f) m Q.
Proof. intros P L (a & m' & H & HQ). exists a, m'. split; auto. apply run_add; auto. Qed.
Lemma wp_add_ pi b idx (v : R) m (Q : unit -> rmem -> Prop) : can_add (pi (b, idx)) = true -> alloc m (b, idx) = true ->
  Q tt (store m (b, idx) (va m (b, idx) + v)) -> wp pi (atomic_add (N:=RNum) b idx v) m Q.
Proof. intros P L HQ. exists tt, (store m (b, idx) (va m (b, idx) + v)). split; auto. apply run_add; auto. constructor. Qed.
Lemma wp_plus B pi b idx (v : R) (f : unit -> rprog B) m Q : pi (b, idx) = POwn -> alloc m (b, idx) = true ->
  wp pi (f tt) (store m (b, idx) (va m (b, idx) + v)) Q -> wp pi (pbind (plus_eq (N:=RNum) b idx v) f) m Q.
Proof.
  intros P L (a & m' & H & HQ). exists a, m'. split; auto. cbn [pbind plus_eq]. apply run_get; auto; [rewrite P; auto|].
  apply run_put; auto.
Qed.
Lemma wp_plus_ pi b idx (v : R) m (Q : unit -> rmem -> Prop) : pi (b, idx) = POwn -> alloc m (b, idx) = true ->
  Q tt (store m (b, idx) (va m (b, idx) + v)) -> wp pi (plus_eq (N:=RNum) b idx v) m Q.
Proof.
  intros P L HQ. eexists tt, _. split; [|exact HQ]. apply run_get; auto; [rewrite P; auto|].
  apply run_put; auto. constructor.
Qed.
Lemma wp_minus B pi b idx (v : R) (f : unit -> rprog B) m Q : pi (b, idx) = POwn -> alloc m (b, idx) = true ->
  wp pi (f tt) (store m (b, idx) (va m (b, idx) - v)) Q -> wp pi (pbind (minus_eq (N:=RNum) b idx v) f) m Q.
Proof.
  intros P L (a & m' & H & HQ). exists a, m'. split; auto. cbn [pbind minus_eq]. apply run_get; auto; [rewrite P; auto|].
  apply run_put; auto.
Qed.
Lemma wp_minus_ pi b idx (v : R) m (Q : unit -> rmem -> Prop) : pi (b, idx) = POwn -> alloc m (b, idx) = true ->
  Q tt (store m (b, idx) (va m (b, idx) - v)) -> wp pi (minus_eq (N:=RNum) b idx v) m Q.
Proof.
  intros P L HQ. eexists tt, _. split; [|exact HQ]. apply run_get; auto; [rewrite P; auto|].
  apply run_put; auto. constructor.
Qed.
Lemma wp_lift A B pi (o : option A) a (f : A -> rprog B) m Q : o = Some a -> wp pi (f a) m Q -> wp pi (pbind (lift o) f) m Q.
Proof. intros -> H. exact H. Qed.
Lemma wp_lift_ A pi (o : option A) a m (Q : A -> rmem -> Prop) : o = Some a -> Q a m -> wp pi (lift o) m Q.
Proof. intros -> H. apply wp_ret. auto. Qed.
Lemma wp_pguard A pi b (p : rprog A) m Q : b = true -> wp pi p m Q -> wp pi (pguard b p) m Q.
Proof. intros -> H. exact H. Qed.

(** ** loops of one thread *)
Lemma wp_for_from A pi body (I : nat -> A -> rmem -> Prop) : forall cnt i0 s m,
  I i0 s m -> (forall i s m, (i0 <= i < i0 + cnt)%nat -> I i s m -> wp pi (body i s) m (fun s' m' => I (S i) s' m')) ->
  wp pi (for_p_from (N:=RNum) cnt i0 body s) m (fun s' m' => I (i0 + cnt)%nat s' m').
Proof.
  induction cnt as [|cnt IH]; intros i0 s m H0 HS; cbn [for_p_from].
  - apply wp_ret. rewrite Nat.add_0_r. auto.
  - apply wp_bind. eapply wp_conseq; [apply HS; [lia|exact H0]|]. cbn beta. intros s' m' H'.
    eapply wp_conseq; [apply (IH (S i0) s' m' H')|].
    + intros i s2 m2 Hi. apply HS. lia.
    + intros a m2 HI. replace (i0 + S cnt)%nat with (S i0 + cnt)%nat by lia. auto.
Qed.
Lemma wp_for A pi n body (I : nat -> A -> rmem -> Prop) s m (Q : A -> rmem -> Prop) :
  I 0%nat s m -> (forall i s m, (i < n)%nat -> I i s m -> wp pi (body i s) m (fun s' m' => I (S i) s' m')) ->
  (forall s m, I n s m -> Q s m) -> wp pi (for_p (N:=RNum) n body s) m Q.
Proof.
  intros H0 HS HQ. eapply wp_conseq; [apply (wp_for_from _ pi body I n 0%nat s m H0)|].
  - intros i s' m' Hi. apply HS. lia.
  - intros a m' H. apply HQ. exact H.
Qed.
(** a sum in a register *)
Lemma wp_for_sum pi n body (f : nat -> R) s m (Q : R -> rmem -> Prop) :
  (forall j s, (j < n)%nat -> wp pi (body j s) m (fun s' m' => m' = m /\ s' = s + f j)) ->
  Q (s + rsum n f) m -> wp pi (for_p (N:=RNum) n body s) m Q.
Proof.
  intros HB HQ. apply (wp_for _ pi n body (fun i s' m' => m' = m /\ s' = s + rsum i f)).
  - split; auto. rewrite rsum_O. ring.
  - intros i s' m' Hi [-> ->]. eapply wp_conseq; [apply HB; auto|]. intros s2 m2 [-> ->]. split; auto.
    rewrite rsum_S. ring.
  - intros s' m' [-> ->]. auto.
Qed.
(** a sum in a cell *)
Lemma wp_for_plus pi n body (f : nat -> R) c m (Q : unit -> rmem -> Prop) :
  (forall j x, (j < n)%nat -> wp pi (body j tt) (store m c x) (fun _ m' => m' = store m c (x + f j))) ->
  Q tt (store m c (va m c + rsum n f)) -> wp pi (for_p (N:=RNum) n body tt) m Q.
Proof.
  intros HB HQ. apply (wp_for _ pi n body (fun i _ m' => m' = store m c (va m c + rsum i f))).
  - rewrite rsum_O, Rplus_0_r, store_same. auto.
  - intros i [] m' Hi ->. eapply wp_conseq; [apply HB; auto|]. intros _ m2 ->. f_equal. rewrite rsum_S. ring.
  - intros [] m' ->. auto.
Qed.

(** ** parallel loops *)
Definition kid (pi : perms) (own : cell -> option nat) (acc : cell -> bool) (i : nat) : perms := fun c =>
  match own c with
  | Some j => if (j =? i)%nat then POwn else PNo
  | None => if acc c then PAcc else match pi c with POwn | PRd => PRd | _ => PNo end
  end.
Definition grp (pi : perms) (own : cell -> option nat) (acc : cell -> bool) (n : nat) : perms := fun c =>
  match own c with
  | Some j => if (j <? n)%nat then POwn else PNo
  | None => if acc c then PAcc else match pi c with POwn | PRd => PRd | _ => PNo end
  end.

Lemma par_for_run pi own acc (Sp : cell -> R -> Prop) (add : nat -> cell -> R) body m : forall n,
  (forall i, (i < n)%nat -> wp (kid pi own acc i) (body i) m (fun _ m' =>
    (forall c, own c = Some i -> Sp c (va m' c)) /\
    (forall c, own c = None -> acc c = true -> va m' c = va m c + add i c))) ->
  exists m', run unit (grp pi own acc n) (par_for (N:=RNum) n body) m tt m' /\ dims m' = dims m /\
    forall c, match own c with
              | Some j => if (j <? n)%nat then Sp c (va m' c) else va m' c = va m c
              | None => va m' c = if acc c then va m c + rsum n (fun i => add i c) else va m c end.
Proof.
  induction n as [|n IH]; intros HB.
  - exists m. split; [constructor|]. split; auto. intros c. destruct (own c); [reflexivity|]. destruct (acc c); auto.
    rewrite rsum_O. ring.
  - destruct IH as (m1 & R1 & D1 & V1); [intros i Hi; apply HB; lia|].
    destruct (HB n ltac:(lia)) as (a & m2 & R2 & O2 & A2).
    destruct (run_frame _ _ _ _ _ _ R2) as [D2 F2].
    destruct (run_transport _ _ _ _ _ _ R2 m1 D1) as (m3 & R3 & D3 & V3).
    { intros c Hc. unfold kid in Hc. specialize (V1 c). destruct (own c) as [j|] eqn:Eo.
      - destruct (j =? n)%nat eqn:E; [|discriminate]. apply Nat.eqb_eq in E. subst j.
        rewrite Nat.ltb_irrefl in V1. auto.
      - destruct (acc c); [discriminate|]. auto. }
    exists m3. split; [|split].
    + cbn [par_for]. eapply (run_fork unit _ _ (kid pi own acc n)); [|exact R1| |constructor].
      * intros c. unfold grp, kid. destruct (own c) as [j|] eqn:Eo.
        -- destruct (Nat.ltb_spec j n), (Nat.eqb_spec j n), (Nat.ltb_spec j (S n)); cbn; auto; exfalso; lia.
        -- destruct (acc c); auto. destruct (pi c); auto.
      * destruct a. exact R3.
    + congruence.
    + intros c. specialize (V1 c). specialize (V3 c). specialize (O2 c). specialize (A2 c). specialize (F2 c). unfold kid in V3, F2.
      destruct (own c) as [j|] eqn:Eo.
      * destruct (Nat.eq_dec j n) as [->|Hne].
        -- rewrite Nat.eqb_refl in V3. rewrite (proj2 (Nat.ltb_lt n (S n))) by lia. rewrite V3. auto.
        -- rewrite (proj2 (Nat.eqb_neq j n) Hne) in V3. rewrite V3.
           destruct (j <? n)%nat eqn:E1; rewrite ?Nat.ltb_lt, ?Nat.ltb_ge in E1.
           ++ rewrite (proj2 (Nat.ltb_lt j (S n))) by lia. auto.
           ++ rewrite (proj2 (Nat.ltb_ge j (S n))) by lia. auto.
      * destruct (acc c).
        -- rewrite V3, V1, A2 by auto. rewrite rsum_S. ring.
        -- destruct (pi c); rewrite V3; auto; rewrite F2; auto.
Qed.

Lemma wp_par_for pi own acc (Sp : cell -> R -> Prop) (add : nat -> cell -> R) n body m (Q : unit -> rmem -> Prop) :
  (forall c i, own c = Some i -> (i < n)%nat -> pi c = POwn) ->
  (forall c, own c = None -> acc c = true -> can_add (pi c) = true) ->
  (forall i, (i < n)%nat -> wp (kid pi own acc i) (body i) m (fun _ m' =>
    (forall c, own c = Some i -> Sp c (va m' c)) /\
    (forall c, own c = None -> acc c = true -> va m' c = va m c + add i c))) ->
  (forall m', dims m' = dims m ->
    (forall c i, own c = Some i -> (i < n)%nat -> Sp c (va m' c)) ->
    (forall c i, own c = Some i -> (n <= i)%nat -> va m' c = va m c) ->
    (forall c, own c = None -> acc c = true -> va m' c = va m c + rsum n (fun i => add i c)) ->
    (forall c, own c = None -> acc c = false -> va m' c = va m c) -> Q tt m') ->
  wp pi (par_for (N:=RNum) n body) m Q.
Proof.
  intros HO HA HB HQ. destruct (par_for_run pi own acc Sp add body m n HB) as (m' & R & D & V).
  exists tt, m'. split.
  - eapply run_weaken; [exact R|]. intros c. unfold grp. specialize (HO c). specialize (HA c).
    destruct (own c) as [j|].
    + destruct (j <? n)%nat eqn:E; cbn; auto. apply Nat.ltb_lt in E. eauto.
    + destruct (acc c); cbn.
      * specialize (HA eq_refl eq_refl). destruct (pi c); try discriminate; auto.
      * destruct (pi c); cbn; auto.
  - apply HQ; auto.
    + intros c i E Hi. specialize (V c). rewrite E, (proj2 (Nat.ltb_lt i n) Hi) in V. auto.
    + intros c i E Hi. specialize (V c). rewrite E, (proj2 (Nat.ltb_ge i n) Hi) in V. auto.
    + intros c E Ea. specialize (V c). rewrite E, Ea in V. auto.
    + intros c E Ea. specialize (V c). rewrite E, Ea in V. auto.
Qed.

Definition none_ : cell -> bool := fun _ => false.
(** no shared cells *)
Lemma wp_par_own pi own (Sp : cell -> R -> Prop) n body m (Q : unit -> rmem -> Prop) :
  (forall c i, own c = Some i -> (i < n)%nat -> pi c = POwn) ->
  (forall i, (i < n)%nat -> wp (kid pi own none_ i) (body i) m (fun _ m' => forall c, own c = Some i -> Sp c (va m' c))) ->
  (forall m', dims m' = dims m ->
    (forall c i, own c = Some i -> (i < n)%nat -> Sp c (va m' c)) ->
    (forall c, own c = None -> va m' c = va m c) -> Q tt m') ->
  wp pi (par_for (N:=RNum) n body) m Q.
Proof.
  intros HO HB HQ. apply (wp_par_for pi own none_ Sp (fun _ _ => 0)).
  - exact HO.
  - intros c _ H. discriminate H.
  - intros i Hi. eapply wp_conseq; [apply HB; auto|]. intros a m' H. split; auto. intros c _ E. discriminate E.
  - intros m' D S1 S2 S3 S4. apply HQ; auto.
Qed.

(** the iterations of a sequential loop, if they touch different cells or only add *)
Lemma wp_for_own pi own acc (Sp : cell -> R -> Prop) (add : nat -> cell -> R) n (body : nat -> unit -> rprog unit) m (Q : unit -> rmem -> Prop) :
  (forall c i, own c = Some i -> (i < n)%nat -> pi c = POwn) ->
  (forall c, own c = None -> acc c = true -> can_add (pi c) = true) ->
  (forall i, (i < n)%nat -> wp (kid pi own acc i) (body i tt) m (fun _ m' =>
    (forall c, own c = Some i -> Sp c (va m' c)) /\
    (forall c, own c = None -> acc c = true -> va m' c = va m c + add i c))) ->
  (forall m', dims m' = dims m ->
    (forall c i, own c = Some i -> (i < n)%nat -> Sp c (va m' c)) ->
    (forall c i, own c = Some i -> (n <= i)%nat -> va m' c = va m c) ->
    (forall c, own c = None -> acc c = true -> va m' c = va m c + rsum n (fun i => add i c)) ->
    (forall c, own c = None -> acc c = false -> va m' c = va m c) -> Q tt m') ->
  wp pi (for_p (N:=RNum) n body tt) m Q.
Proof.
  intros HO HA HB HQ.
  apply (wp_for _ pi n body (fun k _ m' => dims m' = dims m /\
    forall c, match own c with
              | Some j => if (j <? k)%nat then Sp c (va m' c) else va m' c = va m c
              | None => va m' c = if acc c then va m c + rsum k (fun i => add i c) else va m c end)).
  - split; auto. intros c. destruct (own c); [reflexivity|]. destruct (acc c); auto. rewrite rsum_O. ring.
  - intros k [] m1 Hk [D1 V1].
    destruct (HB k Hk) as (a & m2 & R2 & O2 & A2).
    destruct (run_frame _ _ _ _ _ _ R2) as [D2 F2].
    destruct (run_transport _ _ _ _ _ _ R2 m1 D1) as (m3 & R3 & D3 & V3).
    { intros c Hc. unfold kid in Hc. specialize (V1 c). destruct (own c) as [j|] eqn:Eo.
      - destruct (j =? k)%nat eqn:E; [|discriminate]. apply Nat.eqb_eq in E. subst j.
        rewrite Nat.ltb_irrefl in V1. auto.
      - destruct (acc c); [discriminate|]. auto. }
    exists a, m3. split.
    + eapply run_weaken; [exact R3|]. intros c. unfold kid. specialize (HO c). specialize (HA c).
      destruct (own c) as [j|].
      * destruct (j =? k)%nat eqn:E; cbn; auto. apply Nat.eqb_eq in E. subst. eauto.
      * destruct (acc c); cbn.
        -- specialize (HA eq_refl eq_refl). destruct (pi c); try discriminate; auto.
        -- destruct (pi c); cbn; auto.
    + split; [congruence|].
      intros c. specialize (V1 c). specialize (V3 c). specialize (O2 c). specialize (A2 c). specialize (F2 c). unfold kid in V3, F2.
      destruct (own c) as [j|] eqn:Eo.
      * destruct (Nat.eq_dec j k) as [->|Hne].
        -- rewrite Nat.eqb_refl in V3. rewrite (proj2 (Nat.ltb_lt k (S k))) by lia. rewrite V3. auto.
        -- rewrite (proj2 (Nat.eqb_neq j k) Hne) in V3. rewrite V3.
           destruct (j <? k)%nat eqn:E1; rewrite ?Nat.ltb_lt, ?Nat.ltb_ge in E1.
           ++ rewrite (proj2 (Nat.ltb_lt j (S k))) by lia. auto.
           ++ rewrite (proj2 (Nat.ltb_ge j (S k))) by lia. auto.
      * destruct (acc c).
        -- rewrite V3, V1, A2 by auto. rewrite rsum_S. ring.
        -- destruct (pi c); rewrite V3; auto; rewrite F2; auto.
  - intros [] m' [D V]. apply HQ; auto.
    + intros c i E Hi. specialize (V c). rewrite E, (proj2 (Nat.ltb_lt i n) Hi) in V. auto.
    + intros c i E Hi. specialize (V c). rewrite E, (proj2 (Nat.ltb_ge i n) Hi) in V. auto.
    + intros c E Ea. specialize (V c). rewrite E, Ea in V. auto.
    + intros c E Ea. specialize (V c). rewrite E, Ea in V. auto.
Qed.
