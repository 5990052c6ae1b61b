(** Programs that respect ownership of cells have the same result under every interleaving (exact arithmetic).

    [run pi p m a m'] : executed thread after thread, [p] ends with result [a] and memory [m'], and reads and writes only
    what the permissions [pi] allow.  [adequacy]: then no interleaving does anything undefined, and all of them end
    with [a] and [m'].  Used in proofs only. *)
From Coq Require Import List Arith ZArith Bool Lia Reals Lra Eqdep.
From Verif Require Import Base Instances KkSem.
Import ListNotations.
Local Open Scope R_scope.

Notation rmem := (mem RNum).
Notation rprog := (prog RNum).
Definition va (m : rmem) (c : cell) : R := val m c.

Inductive perm := PNo | PRd | POwn | PAcc.
Definition perms := cell -> perm.
Definition can_read (p : perm) : bool := match p with PRd | POwn => true | _ => false end.
Definition can_add (p : perm) : bool := match p with PAcc | POwn => true | _ => false end.

Definition split (pi p1 p2 : perms) : Prop := forall c,
  match p1 c, p2 c with
  | PNo, PNo => True
  | POwn, PNo | PNo, POwn => pi c = POwn
  | PRd, PRd | PRd, PNo | PNo, PRd => pi c = POwn \/ pi c = PRd
  | PAcc, PAcc | PAcc, PNo | PNo, PAcc => pi c = POwn \/ pi c = PAcc
  | _, _ => False
  end.

Inductive run : forall A, perms -> rprog A -> rmem -> A -> rmem -> Prop :=
| run_ret A pi (a : A) m : run A pi (Ret a) m a m
| run_get A pi c (k : R -> rprog A) m a m' :
    can_read (pi c) = true -> alloc m c = true -> run A pi (k (va m c)) m a m' -> run A pi (Get (N:=RNum) c k) m a m'
| run_put A pi c v (k : rprog A) m a m' :
    pi c = POwn -> alloc m c = true -> run A pi k (store m c v) a m' -> run A pi (Put c v k) m a m'
| run_add A pi c v (k : rprog A) m a m' :
    can_add (pi c) = true -> alloc m c = true -> run A pi k (store m c (va m c + v)) a m' -> run A pi (Add c v k) m a m'
| run_fork A pi p1 p2 p q (k : rprog A) m m1 m2 a m' :
    split pi p1 p2 -> run unit p1 p m tt m1 -> run unit p2 q m1 tt m2 -> run A pi k m2 a m' ->
    run A pi (Fork p q k) m a m'.

Definition meq (m n : rmem) : Prop := dims m = dims n /\ forall c, va m c = va n c.
Lemma meq_refl m : meq m m. Proof. split; auto. Qed.
Lemma meq_sym m n : meq m n -> meq n m. Proof. intros [A B]; split; auto. Qed.
Lemma meq_trans m n o : meq m n -> meq n o -> meq m o.
Proof. intros [A B] [C D]; split; [congruence|]. intros c. rewrite B. auto. Qed.

Lemma va_store m c v c' : va (store m c v) c' = if cell_dec c c' then v else va m c'.
Proof. reflexivity. Qed.
Lemma alloc_dims (m n : rmem) c : dims m = dims n -> alloc m c = alloc n c.
Proof. unfold alloc. intros ->. reflexivity. Qed.

(** ** the cells a run leaves alone, and its independence of the other cells *)
Lemma run_frame A pi (p : rprog A) m a m' : run A pi p m a m' ->
  dims m' = dims m /\ forall c, pi c = PNo \/ pi c = PRd -> va m' c = va m c.
Proof.
  induction 1 as [A pi a m|A pi c k m a m' H1 H2 H3 IH|A pi c v k m a m' H1 H2 H3 IH|A pi c v k m a m' H1 H2 H3 IH
                 |A pi p1 p2 p q k m m1 m2 a m' Hs Hp IHp Hq IHq Hk IHk].
  - auto.
  - auto.
  - destruct IH as [D V]. split; [exact D|]. intros c' Hc'. rewrite V by auto. rewrite va_store.
    destruct (cell_dec c c') as [<-|]; auto. destruct Hc'; congruence.
  - destruct IH as [D V]. split; [exact D|]. intros c' Hc'. rewrite V by auto. rewrite va_store.
    destruct (cell_dec c c') as [<-|]; auto. destruct Hc' as [E|E]; rewrite E in H1; discriminate.
  - destruct IHp as [D1 V1], IHq as [D2 V2], IHk as [D3 V3]. split; [congruence|].
    intros c Hc. rewrite V3 by auto. specialize (Hs c). specialize (V1 c). specialize (V2 c).
    rewrite V2, V1; auto; destruct (p1 c), (p2 c); auto; destruct Hc; intuition congruence.
Qed.

(** change everything outside the readable cells *)
Lemma run_transport A pi (p : rprog A) m a m' : run A pi p m a m' -> forall n,
  dims n = dims m -> (forall c, can_read (pi c) = true -> va n c = va m c) ->
  exists n', run A pi p n a n' /\ dims n' = dims m' /\ forall c, va n' c =
    match pi c with POwn | PRd => va m' c | PNo => va n c | PAcc => va n c + (va m' c - va m c) end.
Proof.
  induction 1 as [A pi a m|A pi c k m a m' H1 H2 H3 IH|A pi c v k m a m' H1 H2 H3 IH|A pi c v k m a m' H1 H2 H3 IH
                 |A pi p1 p2 p q k m m1 m2 a m' Hs Hp IHp Hq IHq Hk IHk]; intros n Dn Vn.
  - exists n. split; [constructor|]. split; auto. intros c. specialize (Vn c). destruct (pi c); auto; try ring.
  - destruct (IH n Dn Vn) as (n' & R & D & V). exists n'. split; [|auto].
    apply run_get; auto; [rewrite (alloc_dims n m); auto|]. rewrite Vn; auto.
  - destruct (IH (store n c v)) as (n' & R & D & V).
    + exact Dn.
    + intros c' Hc'. rewrite !va_store. destruct (cell_dec c c'); auto.
    + exists n'. split; [apply run_put; auto; rewrite (alloc_dims n m); auto|]. split; auto.
      intros c'. rewrite V, !va_store. destruct (cell_dec c c') as [<-|]; auto. rewrite H1. reflexivity.
  - destruct (IH (store n c (va n c + v))) as (n' & R & D & V).
    + exact Dn.
    + intros c' Hc'. rewrite !va_store. destruct (cell_dec c c') as [<-|]; auto. rewrite Vn; auto.
    + exists n'. split; [apply run_add; auto; rewrite (alloc_dims n m); auto|]. split; auto.
      intros c'. rewrite V, !va_store. destruct (cell_dec c c') as [<-|]; auto.
      destruct (pi c); try discriminate; auto. ring.
  - destruct (run_frame _ _ _ _ _ _ Hp) as [Dm1 Fm1]. destruct (run_frame _ _ _ _ _ _ Hq) as [Dm2 Fm2].
    assert (S : forall c, can_read (p1 c) = true -> can_read (pi c) = true).
    { intros c. specialize (Hs c). destruct (p1 c), (p2 c); try discriminate; try contradiction; intuition;
        match goal with H : pi c = _ |- _ => rewrite H end; reflexivity. }
    assert (S2 : forall c, can_read (p2 c) = true -> can_read (pi c) = true).
    { intros c. specialize (Hs c). destruct (p1 c), (p2 c); try discriminate; try contradiction; intuition;
        match goal with H : pi c = _ |- _ => rewrite H end; reflexivity. }
    destruct (IHp n Dn (fun c Hc => Vn c (S c Hc))) as (n1 & R1 & D1 & V1).
    destruct (IHq n1) as (n2 & R2 & D2 & V2); auto.
    { intros c Hc. rewrite V1. specialize (Hs c). specialize (Vn c (S2 c Hc)). specialize (Fm1 c).
      destruct (p1 c), (p2 c); try discriminate; try contradiction; auto;
      rewrite Fm1; auto. }
    destruct (IHk n2) as (n' & R3 & D3 & V3); auto.
    { intros c Hc. rewrite V2, V1. specialize (Hs c). specialize (Vn c Hc). specialize (Fm1 c). specialize (Fm2 c).
      destruct (p1 c) eqn:E1, (p2 c) eqn:E2; try contradiction; auto;
      rewrite ?Fm2, ?Fm1, ?Vn by auto; auto; try ring. }
    exists n'. split; [eapply run_fork; eauto|]. split; auto.
    intros c. rewrite V3. destruct (pi c) eqn:E; auto; rewrite V2, V1.
    + specialize (Hs c). destruct (p1 c), (p2 c); try contradiction; auto; intuition congruence.
    + specialize (Hs c). specialize (Fm1 c). specialize (Fm2 c).
      destruct (run_frame _ _ _ _ _ _ Hk) as [Dk Fk].
      destruct (p1 c), (p2 c); try contradiction; try (intuition congruence);
      rewrite ?Fm2, ?Fm1 by auto; try ring.
Qed.

Lemma run_ext A pi (p : rprog A) m a m' n : run A pi p m a m' -> meq n m -> exists n', run A pi p n a n' /\ meq n' m'.
Proof.
  intros H [D V]. destruct (run_transport _ _ _ _ _ _ H n) as (n' & R & D' & V'); auto.
  exists n'. split; auto. split; auto. intros c. rewrite V'.
  destruct (run_frame _ _ _ _ _ _ H) as [_ F]. specialize (F c). rewrite V.
  destruct (pi c); auto; try ring. symmetry. auto.
Qed.

(** ** one step of any thread *)
Definition shift (m M M1 : rmem) : rmem := mkMem (N:=RNum) (dims m) (fun c => va m c + (va M1 c - va M c)).
Lemma va_shift m M M1 c : va (shift m M M1) c = va m c + (va M1 c - va M c). Proof. reflexivity. Qed.

Lemma step_dims A (p : rprog A) M p1 M1 : step A p M p1 M1 -> dims M1 = dims M.
Proof. induction 1; auto. Qed.

Ltac inv H := inversion H; subst; repeat match goal with E : existT _ _ _ = existT _ _ _ |- _ => apply inj_pair2 in E; subst end.

Lemma run_fork_inv A pi p q (k : rprog A) m a m' : run A pi (Fork p q k) m a m' ->
  exists p1 p2 m1 m2, split pi p1 p2 /\ run unit p1 p m tt m1 /\ run unit p2 q m1 tt m2 /\ run A pi k m2 a m'.
Proof. intros H. inv H. repeat eexists; eauto. Qed.

Lemma run_step A (p : rprog A) M p1 M1 : step A p M p1 M1 -> forall pi m a m',
  run A pi p m a m' -> dims M = dims m -> (forall c, can_read (pi c) = true -> va M c = va m c) ->
  (forall c, can_add (pi c) = false -> va M1 c = va M c) /\
  exists m'', run A pi p1 (shift m M M1) a m'' /\ meq m'' m'.
Proof.
  induction 1 as [A c k M HA|A c v k M HA|A c v k M HA|A p q k M p' M' Hst IH|A p q k M p' M' Hst IH|A k M];
    intros pi m a m' H D V.
  - inv H. split; auto.
    match goal with Hr : run _ _ (k _) _ _ _ |- _ => rename Hr into HR end.
    rewrite <- V in HR by auto.
    apply (run_ext _ _ _ _ _ _ (shift m M M) HR). split; auto. intros c'. rewrite va_shift. ring.
  - inv H. split.
    { intros c' Hc'. rewrite va_store. destruct (cell_dec c c') as [<-|]; auto.
      match goal with E : pi c = POwn |- _ => rewrite E in Hc' end. discriminate. }
    match goal with Hr : run _ _ k _ _ _ |- _ => rename Hr into HR end.
    apply (run_ext _ _ _ _ _ _ (shift m M (store M c v)) HR). split; auto. intros c'. rewrite va_shift, !va_store.
    destruct (cell_dec c c') as [<-|]; [|ring]. rewrite V; [ring|].
    match goal with E : pi c = POwn |- _ => rewrite E end. reflexivity.
  - inv H. split.
    { intros c' Hc'. rewrite va_store. destruct (cell_dec c c') as [<-|]; auto. congruence. }
    match goal with Hr : run _ _ k _ _ _ |- _ => rename Hr into HR end.
    apply (run_ext _ _ _ _ _ _ (shift m M (store M c (va M c + v))) HR). split; auto. intros c'. rewrite va_shift, !va_store.
    destruct (cell_dec c c') as [<-|]; ring.
  - destruct (run_fork_inv _ _ _ _ _ _ _ _ H) as (p1 & p2 & m1 & m2 & HS & HP & HQ & HK).
    destruct (IH _ _ _ _ HP D) as (C & m1' & R1 & E1).
    { intros c Hc. apply V. specialize (HS c). destruct (p1 c), (p2 c); try discriminate; try contradiction; intuition;
        match goal with H : pi c = _ |- _ => rewrite H end; reflexivity. }
    split.
    { intros c Hc. apply C. specialize (HS c). destruct (p1 c), (p2 c); try reflexivity; try contradiction; simpl;
        destruct (pi c); intuition; discriminate. }
    destruct (run_ext _ _ _ _ _ _ m1' HQ E1) as (m2' & R2 & E2).
    destruct (run_ext _ _ _ _ _ _ m2' HK E2) as (m3' & R3 & E3).
    exists m3'. split; auto. eapply run_fork; eauto.
  - destruct (run_fork_inv _ _ _ _ _ _ _ _ H) as (p1 & p2 & m1 & m2 & HS & HP & HQ & HK).
    destruct (run_frame _ _ _ _ _ _ HP) as [Dp Fp].
    assert (V2 : forall c, can_read (p2 c) = true -> va M c = va m1 c).
    { intros c Hc. rewrite Fp, V; auto; specialize (HS c); destruct (p1 c), (p2 c); try discriminate; try contradiction; auto; intuition;
        match goal with H : pi c = _ |- _ => rewrite H end; reflexivity. }
    destruct (IH _ _ _ _ HQ (eq_trans D (eq_sym Dp)) V2) as (C & m2' & R2 & E2).
    split.
    { intros c Hc. apply C. specialize (HS c). destruct (p1 c), (p2 c); try reflexivity; try contradiction; simpl;
        destruct (pi c); intuition; discriminate. }
    destruct (run_transport _ _ _ _ _ _ HP (shift m M M')) as (n1 & R1 & D1 & V1); auto.
    { intros c Hc. rewrite va_shift, C; [ring|]. specialize (HS c). destruct (p1 c), (p2 c); try discriminate; try contradiction; auto. }
    assert (E1 : meq n1 (shift m1 M M')).
    { split; auto. intros c. rewrite V1, !va_shift. specialize (HS c). specialize (Fp c). specialize (C c).
      destruct (p1 c), (p2 c); try contradiction; rewrite ?Fp, ?C by auto; try ring. }
    destruct (run_ext _ _ _ _ _ _ n1 R2 E1) as (n2 & R2' & E2').
    destruct (run_ext _ _ _ _ _ _ n2 HK (meq_trans _ _ _ E2' E2)) as (n3 & R3 & E3).
    exists n3. split; auto. eapply run_fork; eauto.
  - inv H. split; auto.
    repeat match goal with Hr : run unit _ (Ret tt) _ _ _ |- _ => inv Hr; clear Hr end.
    match goal with Hr : run _ _ k _ _ _ |- _ => apply (run_ext _ _ _ _ _ _ (shift _ M M) Hr) end.
    split; auto. intros c. rewrite va_shift. ring.
Qed.

Lemma run_steps A (p : rprog A) M p1 M1 : steps A p M p1 M1 -> forall pi a m', run A pi p M a m' ->
  exists m'', run A pi p1 M1 a m'' /\ meq m'' m'.
Proof.
  induction 1 as [p M|p M p1 M1 p2 M2 S1 S2 IH]; intros pi a m' H.
  - exists m'. split; auto. apply meq_refl.
  - destruct (run_step _ _ _ _ _ S1 _ _ _ _ H eq_refl (fun c _ => eq_refl)) as (_ & m2 & R & E).
    destruct (run_ext _ _ _ _ _ _ M1 R) as (m3 & R' & E').
    { split; [apply (step_dims _ _ _ _ _ S1)|]. intros c. rewrite va_shift. ring. }
    destruct (IH _ _ _ R') as (m4 & R4 & E4). exists m4. split; auto.
    eapply meq_trans; [exact E4|]. eapply meq_trans; eauto.
Qed.

Lemma run_about A (p : rprog A) x c : about A p x c -> forall pi m a m', run A pi p m a m' ->
  match x with Read => can_read (pi c) = true | Write => pi c = POwn | Atomic => can_add (pi c) = true end.
Proof.
  induction 1 as [A c k|A c v k|A c v k|A p q k x c Ha IH|A p q k x c Ha IH]; intros pi m a m' H; try (inv H; assumption).
  - destruct (run_fork_inv _ _ _ _ _ _ _ _ H) as (p1 & p2 & m1 & m2 & HS & HP & HQ & HK).
    specialize (IH _ _ _ _ HP). specialize (HS c).
    destruct x, (p1 c), (p2 c); try discriminate; try contradiction; intuition;
      match goal with H : pi c = _ |- _ => rewrite H end; reflexivity.
  - destruct (run_fork_inv _ _ _ _ _ _ _ _ H) as (p1 & p2 & m1 & m2 & HS & HP & HQ & HK).
    specialize (IH _ _ _ _ HQ). specialize (HS c).
    destruct x, (p1 c), (p2 c); try discriminate; try contradiction; intuition;
      match goal with H : pi c = _ |- _ => rewrite H end; reflexivity.
Qed.

Lemma run_not_ub A pi (p : rprog A) m a m' : run A pi p m a m' -> forall M, dims M = dims m -> ~ ub A p M.
Proof.
  induction 1 as [A pi a m|A pi c k m a m' H1 H2 H3 IH|A pi c v k m a m' H1 H2 H3 IH|A pi c v k m a m' H1 H2 H3 IH
                 |A pi p1 p2 p q k m m1 m2 a m' Hs Hp IHp Hq IHq Hk IHk]; intros M D U; inv U.
  - match goal with E : alloc M _ = false |- _ => rewrite (alloc_dims M m) in E by auto; congruence end.
  - match goal with E : alloc M _ = false |- _ => rewrite (alloc_dims M m) in E by auto; congruence end.
  - match goal with E : alloc M _ = false |- _ => rewrite (alloc_dims M m) in E by auto; congruence end.
  - eapply IHp; eauto.
  - apply run_frame in Hp. destruct Hp as [Dp _]. refine (IHq M _ _); [congruence|assumption].
  - match goal with H1 : about _ p ?x ?c, H2 : about _ q ?y ?c |- _ =>
      generalize (run_about _ _ _ _ H1 _ _ _ _ Hp), (run_about _ _ _ _ H2 _ _ _ _ Hq); specialize (Hs c);
      destruct x, y; simpl in *; try contradiction; destruct (p1 c), (p2 c); intros; try discriminate; auto
    end.
Qed.

Theorem adequacy A pi (p : rprog A) m a m' : run A pi p m a m' -> forall p1 m1, steps A p m p1 m1 ->
  ~ ub A p1 m1 /\ forall a1, p1 = Ret a1 -> a1 = a /\ meq m1 m'.
Proof.
  intros H p1 m1 S. destruct (run_steps _ _ _ _ _ S _ _ _ H) as (m2 & R & E). split.
  - eapply run_not_ub; eauto.
  - intros a1 ->. inv R. auto.
Qed.

(** ** every execution ends, and at least one exists *)
Lemma steps_trans A (p : rprog A) m p1 m1 p2 m2 : steps A p m p1 m1 -> steps A p1 m1 p2 m2 -> steps A p m p2 m2.
Proof. induction 1; auto. intros. eapply steps_step; eauto. Qed.
Lemma steps_left A p m p1 m1 : steps (N:=RNum) unit p m p1 m1 -> forall q (k : rprog A), steps A (Fork p q k) m (Fork p1 q k) m1.
Proof. induction 1; intros; [constructor|]. eapply steps_step; [apply step_left; eauto|auto]. Qed.
Lemma steps_right A p m p1 m1 : steps (N:=RNum) unit p m p1 m1 -> forall q (k : rprog A), steps A (Fork q p k) m (Fork q p1 k) m1.
Proof. induction 1; intros; [constructor|]. eapply steps_step; [apply step_right; eauto|auto]. Qed.

Lemma run_exec A pi (p : rprog A) m a m' : run A pi p m a m' -> steps A p m (Ret a) m'.
Proof.
  induction 1 as [A pi a m|A pi c k m a m' H1 H2 H3 IH|A pi c v k m a m' H1 H2 H3 IH|A pi c v k m a m' H1 H2 H3 IH
                 |A pi p1 p2 p q k m m1 m2 a m' Hs Hp IHp Hq IHq Hk IHk].
  - constructor.
  - eapply steps_step; [apply step_get; auto|exact IH].
  - eapply steps_step; [apply step_put; auto|exact IH].
  - eapply steps_step; [apply step_add; auto|exact IH].
  - eapply steps_trans; [apply steps_left, IHp|].
    eapply steps_trans; [apply steps_right, IHq|].
    eapply steps_step; [apply step_join|exact IHk].
Qed.
