(** More rules for kernels: parallel loops whose ownership is cut down to the cells of the caller, leagues over two
    indices, and reductions.  Used in proofs only. *)
From Coq Require Import List Arith ZArith Bool Lia Reals Lra FunctionalExtensionality.
From Verif Require Import Base BaseLemmas Instances RSums KkSem KkSound KkWp.
Import ListNotations.
Local Open Scope R_scope.
Global Arguments store : simpl never.
Global Arguments alloc : simpl never.
Global Arguments va : simpl never.
Global Arguments cell_dec : simpl never.

(** permissions of iteration [i]: of the cells of the caller, it gets those with owner [i]; cells without owner are
    shared for atomic additions ([acc]) or for reading *)
Definition kd (pi : perms) (own : cell -> option nat) (acc : cell -> bool) (i : nat) : perms := fun c =>
  match pi c with
  | POwn => match own c with Some j => if (j =? i)%nat then POwn else PNo | None => if acc c then PAcc else PRd end
  | PAcc => if acc c then PAcc else PNo
  | PRd => PRd
  | PNo => PNo
  end.
Definition ron (pi : perms) (own : cell -> option nat) (c : cell) : option nat := match pi c with POwn => own c | _ => None end.
Definition rac (pi : perms) (acc : cell -> bool) (c : cell) : bool := acc c && can_add (pi c).
Lemma kid_kd pi own acc i : kid pi (ron pi own) (rac pi acc) i = kd pi own acc i.
Proof.
  extensionality c. unfold kid, kd, ron, rac. destruct (pi c); cbn; rewrite ?andb_false_r, ?andb_true_r; auto.
Qed.
(** cells shared for additions *)
Definition shr (pi : perms) (own : cell -> option nat) (acc : cell -> bool) (c : cell) : Prop :=
  acc c = true /\ (pi c = PAcc \/ pi c = POwn /\ own c = None).
Lemma shr_ok pi own acc c : shr pi own acc c -> ron pi own c = None /\ rac pi acc c = true.
Proof. intros [A [E|[E O]]]; unfold ron, rac; rewrite A, E; auto. Qed.
Lemma shr_inv pi own acc c : ron pi own c = None -> rac pi acc c = true -> shr pi own acc c.
Proof.
  unfold ron, rac, shr. intros O A. apply andb_true_iff in A. destruct A as [A P]. split; auto.
  destruct (pi c); try discriminate; auto.
Qed.
(** cells that the loop leaves alone *)
Definition idle (pi : perms) (own : cell -> option nat) (acc : cell -> bool) (c : cell) : Prop :=
  match pi c with POwn => own c = None /\ acc c = false | PAcc => acc c = false | _ => True end.

Section Loops.
Variables (pi : perms) (own : cell -> option nat) (acc : cell -> bool) (Sp : cell -> R -> Prop) (add : nat -> cell -> R).
Definition kpost (m : rmem) (i : nat) (m' : rmem) : Prop :=
  (forall c, pi c = POwn -> own c = Some i -> Sp c (va m' c)) /\
  (forall c, shr pi own acc c -> va m' c = va m c + add i c).
Definition ppost (m : rmem) (n : nat) (m' : rmem) : Prop :=
  dims m' = dims m /\
  (forall c i, pi c = POwn -> own c = Some i -> (i < n)%nat -> Sp c (va m' c)) /\
  (forall c i, pi c = POwn -> own c = Some i -> (n <= i)%nat -> va m' c = va m c) /\
  (forall c, shr pi own acc c -> va m' c = va m c + rsum n (fun i => add i c)) /\
  (forall c, idle pi own acc c -> va m' c = va m c).
Lemma ppost_of m n m' : dims m' = dims m ->
  (forall c i, ron pi own c = Some i -> (i < n)%nat -> Sp c (va m' c)) ->
  (forall c i, ron pi own c = Some i -> (n <= i)%nat -> va m' c = va m c) ->
  (forall c, ron pi own c = None -> rac pi acc c = true -> va m' c = va m c + rsum n (fun i => add i c)) ->
  (forall c, ron pi own c = None -> rac pi acc c = false -> va m' c = va m c) -> ppost m n m'.
Proof.
  intros D S1 S2 S3 S4. split; [auto|]. split; [|split; [|split]].
  - intros c i P O Hi. apply (S1 c i); auto. unfold ron. rewrite P. auto.
  - intros c i P O Hi. apply (S2 c i); auto. unfold ron. rewrite P. auto.
  - intros c H. destruct (shr_ok _ _ _ _ H). auto.
  - intros c H. apply S4; unfold ron, rac; unfold idle in H; destruct (pi c); cbn; rewrite ?andb_false_r, ?andb_true_r; auto; apply H.
Qed.
Lemma kpost_of m i m' : kpost m i m' ->
  (forall c, ron pi own c = Some i -> Sp c (va m' c)) /\
  (forall c, ron pi own c = None -> rac pi acc c = true -> va m' c = va m c + add i c).
Proof.
  intros [A B]. split.
  - intros c O. unfold ron in O. destruct (pi c) eqn:E; try discriminate. auto.
  - intros c O P. apply B. apply shr_inv; auto.
Qed.
Lemma ron_own c i : ron pi own c = Some i -> pi c = POwn.
Proof. unfold ron. destruct (pi c); congruence. Qed.
Lemma rac_add c : rac pi acc c = true -> can_add (pi c) = true.
Proof. unfold rac. intros H. apply andb_true_iff in H. apply H. Qed.

Lemma wp_pfor n body m (Q : unit -> rmem -> Prop) :
  (forall i, (i < n)%nat -> wp (kd pi own acc i) (body i) m (fun _ m' => kpost m i m')) ->
  (forall m', ppost m n m' -> Q tt m') ->
  wp pi (par_for (N:=RNum) n body) m Q.
Proof.
  intros HB HQ. apply (wp_par_for pi (ron pi own) (rac pi acc) Sp add).
  - intros c i H _. eapply ron_own; eauto.
  - intros c _. apply rac_add.
  - intros i Hi. rewrite kid_kd. eapply wp_conseq; [apply HB; auto|]. intros a m' H. apply kpost_of. auto.
  - intros m' D S1 S2 S3 S4. apply HQ. apply ppost_of; auto.
Qed.
Lemma wp_sfor n (body : nat -> unit -> rprog unit) m (Q : unit -> rmem -> Prop) :
  (forall i, (i < n)%nat -> wp (kd pi own acc i) (body i tt) m (fun _ m' => kpost m i m')) ->
  (forall m', ppost m n m' -> Q tt m') ->
  wp pi (for_p (N:=RNum) n body tt) m Q.
Proof.
  intros HB HQ. apply (wp_for_own pi (ron pi own) (rac pi acc) Sp add).
  - intros c i H _. eapply ron_own; eauto.
  - intros c _. apply rac_add.
  - intros i Hi. rewrite kid_kd. eapply wp_conseq; [apply HB; auto|]. intros a m' H. apply kpost_of. auto.
  - intros m' D S1 S2 S3 S4. apply HQ. apply ppost_of; auto.
Qed.
End Loops.

(** ** leagues over pairs *)
Lemma divL i l L : (l < L)%nat -> ((i * L + l) / L = i)%nat.
Proof. intros. rewrite Nat.div_add_l by lia. rewrite Nat.div_small by auto. lia. Qed.
Lemma modL i l L : (l < L)%nat -> ((i * L + l) mod L = l)%nat.
Proof. intros. rewrite Nat.add_comm, Nat.mod_add by lia. apply Nat.mod_small. auto. Qed.
Lemma pairL i l i' l' L : (i * L + l = i' * L + l')%nat -> (l < L)%nat -> (l' < L)%nat -> i = i' /\ l = l'.
Proof. intros E H H'. split; [rewrite <- (divL i l L), <- (divL i' l' L), E|rewrite <- (modL i l L), <- (modL i' l' L), E]; auto. Qed.
Lemma rankL q n L : (q < n * L)%nat -> exists i l, (i < n)%nat /\ (l < L)%nat /\ q = (i * L + l)%nat.
Proof.
  intros H. assert (L <> 0)%nat by nia. exists (q / L)%nat, (q mod L)%nat.
  split; [apply Nat.div_lt_upper_bound; lia|]. split; [apply Nat.mod_upper_bound; auto|].
  pose proof (Nat.div_mod q L H0). lia.
Qed.
Lemma rsum_pair n L f : rsum (n * L) f = rsum n (fun i => rsum L (fun l => f (i * L + l)%nat)).
Proof.
  induction n as [|n IH]; cbn [Nat.mul]; [reflexivity|].
  rewrite rsum_S, <- IH. rewrite Nat.add_comm. rewrite rsum_add. f_equal.
Qed.
Lemma wp_pfor2 pi own acc Sp add n L body m (Q : unit -> rmem -> Prop) :
  (forall i l, (i < n)%nat -> (l < L)%nat ->
     wp (kd pi own acc (i * L + l)) (body (i * L + l)%nat) m (fun _ m' => kpost pi own acc Sp add m (i * L + l)%nat m')) ->
  (forall m', ppost pi own acc Sp add m (n * L) m' -> Q tt m') ->
  wp pi (par_for (N:=RNum) (n * L) body) m Q.
Proof.
  intros HB HQ. apply (wp_pfor pi own acc Sp add); auto.
  intros q Hq. destruct (rankL q n L Hq) as (i & l & Hi & Hl & ->). auto.
Qed.

(** ** reductions *)
Definition scr (c : list nat) (x : cell) : bool :=
  match x with (bScr, l) => if (length l =? length c)%nat then (if list_eq_dec Nat.eq_dec l c then true else false) else false
             | _ => false end.
Lemma scr_eq c x : scr c x = true <-> x = (bScr, c).
Proof.
  destruct x as [b l]. destruct b; cbn; split; intros H; try discriminate.
  - destruct (length l =? length c)%nat; [|discriminate]. destruct (list_eq_dec Nat.eq_dec l c); congruence.
  - injection H as ->. rewrite Nat.eqb_refl. destruct (list_eq_dec Nat.eq_dec c c); congruence.
Qed.
Lemma scr_ne c x : x <> (bScr, c) -> scr c x = false.
Proof. intros H. destruct (scr c x) eqn:E; auto. apply scr_eq in E. congruence. Qed.
Definition scrs (cs : list (list nat)) (x : cell) : bool := existsb (fun c => scr c x) cs.
Lemma scrs_in cs x : scrs cs x = true <-> exists c, In c cs /\ x = (bScr, c).
Proof.
  unfold scrs. rewrite existsb_exists. split; intros (c & H & E); exists c; split; auto; apply scr_eq; auto.
Qed.
(** without the scratch cells of the reduction *)
Definition hide (cs : list (list nat)) (pi : perms) : perms := fun x => if scrs cs x then PNo else pi x.

Fixpoint puts0 (cs : list (list nat)) (m : rmem) : rmem :=
  match cs with [] => m | c :: cs' => puts0 cs' (store m (bScr, c) (0 : R)) end.
Lemma dims_puts0 cs : forall m, dims (puts0 cs m) = dims m.
Proof. induction cs; intros m; cbn [puts0]; auto. rewrite IHcs. reflexivity. Qed.
Lemma va_puts0 cs : forall m x, va (puts0 cs m) x = if scrs cs x then 0 else va m x.
Proof.
  induction cs as [|c cs IH]; intros m x; cbn [puts0 scrs existsb]; auto. rewrite IH. fold (scrs cs x).
  destruct (scr c x) eqn:E; cbn.
  - apply scr_eq in E. subst. rewrite va_store_eq. destruct (scrs cs (bScr, c)); auto.
  - destruct (scrs cs x); auto. rewrite va_store_ne; auto. intros <-. rewrite (proj2 (scr_eq c (bScr, c))) in E by auto. discriminate.
Qed.
Fixpoint adds_ (cs : list (list nat)) (vs : list R) : rprog unit :=
  match cs, vs with
  | c :: cs', v :: vs' => pbind (atomic_add (N:=RNum) bScr c v) (fun _ => adds_ cs' vs')
  | _, _ => KkSem.Ret tt
  end.

(** the general form: scratch cells [cs], all different *)
Lemma wp_reduce_gen A (pi : perms) own acc Sp add (cs : list (list nat)) n (body : nat -> rprog A) (val_ : A -> list R)
    (f : nat -> list nat -> R) m (Q : unit -> rmem -> Prop) :
  NoDup cs ->
  (forall c, In c cs -> pi (bScr, c) = POwn /\ own (bScr, c) = None /\ acc (bScr, c) = false) ->
  (forall j, (j < n)%nat -> wp (kd (hide cs pi) own acc j) (body j) (puts0 cs m) (fun v m' =>
     val_ v = map (f j) cs /\ kpost (hide cs pi) own acc Sp add m j m')) ->
  (forall m', dims m' = dims m ->
     (forall c, In c cs -> va m' (bScr, c) = rsum n (fun j => f j c)) ->
     (forall x i, pi x = POwn -> own x = Some i -> (i < n)%nat -> Sp x (va m' x)) ->
     (forall x, shr pi own acc x -> va m' x = va m x + rsum n (fun j => add j x)) ->
     (forall x, idle pi own acc x -> scrs cs x = false -> va m' x = va m x) -> Q tt m') ->
  wp pi (par_for (N:=RNum) n (fun j => pbind (body j) (fun v => adds_ cs (val_ v)))) (puts0 cs m) Q.
Proof.
  intros ND HC HB HQ.
  assert (HN : forall x, scrs cs x = true -> pi x = POwn /\ own x = None /\ acc x = false).
  { intros x H. apply scrs_in in H. destruct H as (c & Hc & ->). auto. }
  apply (wp_pfor pi own (fun x => acc x || scrs cs x) Sp (fun j x => if scrs cs x then f j (snd x) else add j x)).
  - intros j Hj. apply wp_bind.
    destruct (HB j Hj) as (v & m1 & R1 & E1 & O1 & A1).
    destruct (run_frame _ _ _ _ _ _ R1) as [D1 F1].
    exists v, m1. split.
    { eapply run_weaken; [exact R1|]. intros x. unfold kd, hide. destruct (scrs cs x) eqn:E.
      - cbn. auto.
      - rewrite orb_false_r. destruct (pi x); cbn; auto; [destruct (own x); [destruct (_ =? _)%nat; cbn; auto|]|]; destruct (acc x); cbn; auto. }
    rewrite E1.
    assert (Z1 : forall c, In c cs -> va m1 (bScr, c) = 0).
    { intros c Hc. rewrite F1.
      - rewrite va_puts0. rewrite (proj2 (scrs_in cs (bScr, c))) by eauto. auto.
      - left. unfold kd, hide. rewrite (proj2 (scrs_in cs (bScr, c))) by eauto. auto. }
    assert (G : forall l m2, dims m2 = dims m1 -> NoDup l -> (forall c, In c l -> In c cs) ->
       wp (kd pi own (fun x => acc x || scrs cs x) j) (adds_ l (map (f j) l)) m2 (fun _ m' =>
         (forall c, In c l -> va m' (bScr, c) = va m2 (bScr, c) + f j c) /\
         (forall x, scrs l x = false -> va m' x = va m2 x))).
    { induction l as [|c l IH]; intros m2 D2 N2 I2; cbn [adds_ map].
      - apply wp_ret. split; [intros c []|auto].
      - apply NoDup_cons_iff in N2. destruct N2 as [N2 N3].
        destruct (HC c) as (P & O & AC); [apply I2; left; auto|].
        apply wp_add.
        + unfold kd. rewrite P, O. rewrite (proj2 (scrs_in cs (bScr, c))) by (exists c; split; auto; apply I2; left; auto).
          rewrite orb_true_r. reflexivity.
        + reflexivity.
        + eapply wp_conseq; [apply IH; auto; intros; apply I2; right; auto|]. cbn beta. intros _ m' [V1 V2]. split.
          * intros c' [<-|Hc'].
            -- rewrite V2, va_store_eq; auto. destruct (scrs l (bScr, c)) eqn:E; auto. apply scrs_in in E.
               destruct E as (c2 & Hc2 & E2). injection E2 as <-. contradiction.
            -- rewrite V1 by auto. rewrite va_store_ne; auto. intros E. injection E as ->. contradiction.
          * intros x Hx. cbn [scrs existsb] in Hx. apply orb_false_iff in Hx. destruct Hx as [Hx1 Hx2].
            rewrite V2 by auto. rewrite va_store_ne; auto. intros <-. rewrite (proj2 (scr_eq c (bScr, c))) in Hx1 by auto. discriminate. }
    eapply wp_conseq; [apply (G cs m1 eq_refl ND); auto|]. cbn beta. intros _ m2 [V1 V2]. split.
    + intros x Px Ox. destruct (scrs cs x) eqn:E; [destruct (HN x E) as (_ & O & _); congruence|].
      rewrite V2 by auto. apply O1; auto. unfold hide. rewrite E. auto.
    + intros x [Ax Hx]. rewrite va_puts0. destruct (scrs cs x) eqn:E.
      * pose proof E as E'. apply scrs_in in E'. destruct E' as (c & Hc & ->). rewrite V1, Z1 by auto. cbn [snd]. ring.
      * rewrite V2 by auto. apply A1. split; [rewrite orb_false_r in Ax; auto|]. unfold hide. rewrite E. auto.
  - intros m' (D & P1 & P2 & P3 & P4). apply HQ; auto.
    + rewrite D, dims_puts0. auto.
    + intros c Hc. destruct (HC c Hc) as (P & O & AC).
      rewrite P3.
      * rewrite va_puts0. rewrite (proj2 (scrs_in cs (bScr, c))) by eauto. cbn [snd]. ring.
      * split; [|right; auto]. rewrite (proj2 (scrs_in cs (bScr, c))) by eauto. apply orb_true_r.
    + intros x [Ax [P|[P O]]].
      * rewrite P3 by (split; [rewrite Ax; auto|auto]). rewrite va_puts0. destruct (scrs cs x) eqn:E; auto.
        destruct (HN x E) as (_ & _ & A'). congruence.
      * rewrite P3 by (split; [rewrite Ax; auto|auto]). rewrite va_puts0. destruct (scrs cs x) eqn:E; auto.
        destruct (HN x E) as (_ & _ & A'). congruence.
    + intros x I E. rewrite P4.
      * rewrite va_puts0, E. auto.
      * unfold idle in *. rewrite E, orb_false_r. auto.
Qed.

Definition rpost (pi : perms) own acc (Sp : cell -> R -> Prop) (add : nat -> cell -> R) (cs : list (list nat)) (m : rmem) (n : nat) (m' : rmem) : Prop :=
  dims m' = dims m /\
  (forall x i, pi x = POwn -> own x = Some i -> (i < n)%nat -> Sp x (va m' x)) /\
  (forall x, shr pi own acc x -> va m' x = va m x + rsum n (fun j => add j x)) /\
  (forall x, idle pi own acc x -> scrs cs x = false -> va m' x = va m x).

Lemma wp_red1 (pi : perms) own acc Sp add c n body (f : nat -> R) m (Q : R -> rmem -> Prop) :
  pi (bScr, c) = POwn -> own (bScr, c) = None -> acc (bScr, c) = false ->
  (forall j, (j < n)%nat -> wp (kd (hide [c] pi) own acc j) (body j) (puts0 [c] m) (fun v m' =>
     v = f j /\ kpost (hide [c] pi) own acc Sp add m j m')) ->
  (forall m', rpost pi own acc Sp add [c] m n m' -> Q (rsum n f) m') ->
  wp pi (par_reduce (N:=RNum) c n body) m Q.
Proof.
  intros P O A HB HQ. unfold par_reduce. apply wp_put; auto.
  apply wp_bind.
  change (wp pi (par_for (N:=RNum) n (fun j => pbind (body j) (fun v => atomic_add bScr c v))) (puts0 [c] m)
    (fun _ m' => wp pi (get (N:=RNum) bScr c) m' Q)).
  assert (E : (fun j => pbind (body j) (fun v => atomic_add (N:=RNum) bScr c v)) =
              (fun j => pbind (body j) (fun v => adds_ [c] [v]))) by reflexivity.
  rewrite E.
  apply (wp_reduce_gen R pi own acc Sp add [c] n body (fun v => [v]) (fun j _ => f j)).
  - repeat constructor; auto.
  - intros x [<-|[]]. auto.
  - intros j Hj. eapply wp_conseq; [apply HB; auto|]. intros v m' [-> H]. split; auto.
  - intros m' D V1 S1 S2 S3. apply wp_get_; auto.
    + rewrite P. auto.
    + rewrite (V1 c) by (left; auto). apply HQ. repeat split; auto; apply S2 || apply S3.
Qed.
Lemma nodup2 (c : list nat) : NoDup [c ++ [0]; c ++ [1]]%nat.
Proof.
  repeat constructor; cbn; auto. intros [E|[]]. apply app_inv_head in E. discriminate.
Qed.
Lemma nodup3 (c : list nat) : NoDup [c ++ [0]; c ++ [1]; c ++ [2]]%nat.
Proof.
  repeat constructor; cbn; auto; [intros [E|[E|[]]]|intros [E|[]]]; apply app_inv_head in E; discriminate.
Qed.
Lemma wp_red2 (pi : perms) own acc Sp add c n body (f g : nat -> R) m (Q : R * R -> rmem -> Prop) :
  let cs := [c ++ [0]; c ++ [1]]%nat in
  (forall q, (q < 2)%nat -> pi (bScr, c ++ [q]) = POwn /\ own (bScr, c ++ [q]) = None /\ acc (bScr, c ++ [q]) = false) ->
  (forall j, (j < n)%nat -> wp (kd (hide cs pi) own acc j) (body j) (puts0 cs m) (fun v m' =>
     v = (f j, g j) /\ kpost (hide cs pi) own acc Sp add m j m')) ->
  (forall m', rpost pi own acc Sp add cs m n m' -> Q (rsum n f, rsum n g) m') ->
  wp pi (par_reduce2 (N:=RNum) c n body) m Q.
Proof.
  intros cs P HB HQ. unfold par_reduce2.
  destruct (P 0%nat ltac:(lia)) as (P0 & O0 & A0). destruct (P 1%nat ltac:(lia)) as (P1 & O1 & A1).
  apply wp_put; auto. apply wp_put; auto.
  apply wp_bind.
  match goal with |- wp _ _ _ ?K_ =>
  change (wp pi (par_for (N:=RNum) n (fun j => pbind (body j) (fun v => adds_ cs [fst v; snd v]))) (puts0 cs m) K_) end.
  apply (wp_reduce_gen (R * R) pi own acc Sp add cs n body (fun v => [fst v; snd v])
    (fun j x => match last x 0%nat with 0%nat => f j | _ => g j end)).
  - apply nodup2.
  - intros x [<-|[<-|[]]]; auto.
  - intros j Hj. eapply wp_conseq; [apply HB; auto|]. intros v m' [-> H]. split; auto.
    unfold cs. cbn [map fst snd]. rewrite !last_last. reflexivity.
  - intros m' D V1 S1 S2 S3. apply wp_get; auto; [rewrite P0; auto|]. apply wp_get; auto; [rewrite P1; auto|].
    apply wp_ret.
    rewrite (V1 (c ++ [0]%nat)) by (left; auto). rewrite (V1 (c ++ [1]%nat)) by (right; left; auto).
    rewrite !last_last. apply HQ. repeat split; auto; apply S2 || apply S3.
Qed.
Lemma wp_red3 (pi : perms) own acc Sp add c n body (f g h : nat -> R) m (Q : R * R * R -> rmem -> Prop) :
  let cs := [c ++ [0]; c ++ [1]; c ++ [2]]%nat in
  (forall q, (q < 3)%nat -> pi (bScr, c ++ [q]) = POwn /\ own (bScr, c ++ [q]) = None /\ acc (bScr, c ++ [q]) = false) ->
  (forall j, (j < n)%nat -> wp (kd (hide cs pi) own acc j) (body j) (puts0 cs m) (fun v m' =>
     v = (f j, g j, h j) /\ kpost (hide cs pi) own acc Sp add m j m')) ->
  (forall m', rpost pi own acc Sp add cs m n m' -> Q (rsum n f, rsum n g, rsum n h) m') ->
  wp pi (par_reduce3 (N:=RNum) c n body) m Q.
Proof.
  intros cs P HB HQ. unfold par_reduce3.
  destruct (P 0%nat ltac:(lia)) as (P0 & O0 & A0). destruct (P 1%nat ltac:(lia)) as (P1 & O1 & A1).
  destruct (P 2%nat ltac:(lia)) as (P2 & O2 & A2).
  apply wp_put; auto. apply wp_put; auto. apply wp_put; auto.
  apply wp_bind.
  match goal with |- wp _ _ _ ?K_ =>
  change (wp pi (par_for (N:=RNum) n (fun j => pbind (body j) (fun v => adds_ cs [fst (fst v); snd (fst v); snd v]))) (puts0 cs m) K_) end.
  apply (wp_reduce_gen (R * R * R) pi own acc Sp add cs n body (fun v => [fst (fst v); snd (fst v); snd v])
    (fun j x => match last x 0%nat with 0%nat => f j | 1%nat => g j | _ => h j end)).
  - apply nodup3.
  - intros x [<-|[<-|[<-|[]]]]; auto.
  - intros j Hj. eapply wp_conseq; [apply HB; auto|]. intros v m' [-> H]. split; auto.
    unfold cs. cbn [map fst snd]. rewrite !last_last. reflexivity.
  - intros m' D V1 S1 S2 S3. apply wp_get; auto; [rewrite P0; auto|]. apply wp_get; auto; [rewrite P1; auto|].
    apply wp_get; auto; [rewrite P2; auto|].
    apply wp_ret.
    rewrite (V1 (c ++ [0]%nat)) by (left; auto). rewrite (V1 (c ++ [1]%nat)) by (right; left; auto).
    rewrite (V1 (c ++ [2]%nat)) by (right; right; left; auto).
    rewrite !last_last. apply HQ. repeat split; auto; apply S2 || apply S3.
Qed.
