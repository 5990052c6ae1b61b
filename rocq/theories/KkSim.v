(** Refinement of programs (more defined) and shrinking of views.  Used in proofs only. *)
From Coq Require Import List Arith ZArith Bool Lia Reals.
From Verif Require Import Base BaseLemmas Instances RSums MaceModel.
From Verif Require Import Segs Sys SysLoops MaceGrid MacePure MaceStages1 KkSem KkSound KkWp KkWp2 KkModel KkHost KkTac KkK1 KkK2 KkK3 KkK4 KkK5 KkK6 KkChain.
Import ListNotations.
Local Open Scope nat_scope.

(** ** [psim p q]: [q] does what [p] does wherever [p] is defined *)
Inductive psim : forall A, rprog A -> rprog A -> Prop :=
| ps_fail A (q : rprog A) : psim A Fail q
| ps_ret A (a : A) : psim A (Ret a) (Ret a)
| ps_get A c (k k' : R -> rprog A) : (forall v, psim A (k v) (k' v)) -> psim A (Get (N:=RNum) c k) (Get (N:=RNum) c k')
| ps_put A c v (k k' : rprog A) : psim A k k' -> psim A (Put c v k) (Put c v k')
| ps_add A c v (k k' : rprog A) : psim A k k' -> psim A (Add c v k) (Add c v k')
| ps_fork A p p' q q' (k k' : rprog A) : psim unit p p' -> psim unit q q' -> psim A k k' -> psim A (Fork p q k) (Fork p' q' k').
Arguments psim {A} _ _.

Lemma ps_refl A (p : rprog A) : psim p p.
Proof. induction p; constructor; auto. Qed.
Lemma run_sim A pi (p : rprog A) m a m' : run A pi p m a m' -> forall q, psim p q -> run A pi q m a m'.
Proof.
  induction 1 as [A pi a m|A pi c k m a m' H1 H2 H3 IH|A pi c v k m a m' H1 H2 H3 IH|A pi c v k m a m' H1 H2 H3 IH
                 |A pi p1 p2 p q k m m1 m2 a m' Hs Hp IHp Hq IHq Hk IHk]; intros q0 S.
  - remember (Ret a) as r eqn:E. destruct S; try discriminate E. injection E as ->. constructor.
  - remember (Get (N:=RNum) c k) as r eqn:E. destruct S as [| |A' c' k1 k1' S| | |]; try discriminate E. injection E as -> ->. constructor; auto.
  - remember (Put c v k) as r eqn:E. destruct S as [| | |A' c' v' k1 k1' S| |]; try discriminate E. injection E as -> -> ->. constructor; auto.
  - remember (Add c v k) as r eqn:E. destruct S as [| | | |A' c' v' k1 k1' S|]; try discriminate E. injection E as -> -> ->. constructor; auto.
  - remember (Fork p q k) as r eqn:E. destruct S as [| | | | |A' a1 a1' b1 b1' k1 k1' S1 S2 S3]; try discriminate E. injection E as -> -> ->. econstructor; eauto.
Qed.
Lemma wp_sim A pi (p q : rprog A) m Q : psim p q -> wp pi p m Q -> wp pi q m Q.
Proof. intros S (a & m' & H & HQ). exists a, m'. split; auto. eapply run_sim; eauto. Qed.

Lemma ps_bind A B (p q : rprog A) (f g : A -> rprog B) : psim p q -> (forall a, psim (f a) (g a)) -> psim (pbind p f) (pbind q g).
Proof. intros S H. induction S; cbn [pbind]; try constructor; auto. Qed.
Lemma ps_lift A (o o' : option A) : (forall a, o = Some a -> o' = Some a) -> psim (lift (N:=RNum) o) (lift o').
Proof. intros H. destruct o as [a|]; [rewrite (H a eq_refl); apply ps_refl|apply ps_fail]. Qed.
Lemma ps_guard A b (p q : rprog A) : psim p q -> psim (pguard b p) (pguard b q).
Proof. destruct b; cbn; auto. intros _. apply ps_fail. Qed.
Lemma ps_for A n i (f g : nat -> A -> rprog A) s : (forall j s, psim (f j s) (g j s)) -> psim (for_p_from n i f s) (for_p_from n i g s).
Proof. intros H. revert i s. induction n as [|n IH]; intros i s; cbn [for_p_from]; [apply ps_refl|]. apply ps_bind; auto. Qed.
Lemma ps_par n (f g : nat -> rprog unit) : (forall j, psim (f j) (g j)) -> psim (par_for n f) (par_for n g).
Proof. intros H. induction n as [|n IH]; cbn [par_for]; [apply ps_refl|]. constructor; auto. apply ps_refl. Qed.
Lemma ps_red c n (f g : nat -> rprog R) : (forall j, psim (f j) (g j)) -> psim (par_reduce (N:=RNum) c n f) (par_reduce c n g).
Proof. intros H. apply ps_bind; [apply ps_refl|]. intros _. apply ps_bind; [|intros; apply ps_refl]. apply ps_par. intros j. apply ps_bind; auto. intros; apply ps_refl. Qed.
Lemma ps_red2 c n (f g : nat -> rprog (R * R)) : (forall j, psim (f j) (g j)) -> psim (par_reduce2 (N:=RNum) c n f) (par_reduce2 c n g).
Proof. intros H. do 2 (apply ps_bind; [apply ps_refl|]; intros _). apply ps_bind; [|intros; apply ps_refl]. apply ps_par. intros j. apply ps_bind; auto. intros; apply ps_refl. Qed.
Lemma ps_red3 c n (f g : nat -> rprog (R * R * R)) : (forall j, psim (f j) (g j)) -> psim (par_reduce3 (N:=RNum) c n f) (par_reduce3 c n g).
Proof. intros H. do 3 (apply ps_bind; [apply ps_refl|]; intros _). apply ps_bind; [|intros; apply ps_refl]. apply ps_par. intros j. apply ps_bind; auto. intros; apply ps_refl. Qed.

Lemma rd_app1 {A} (l x : list A) i a : rd l i = Some a -> rd (l ++ x) i = Some a.
Proof. unfold rd. intros H. rewrite nth_error_app1; auto. apply nth_error_Some. congruence. Qed.
Lemma first_neigh_app n l x a : first_neigh n l = Some a -> first_neigh n (l ++ x) = Some a.
Proof.
  unfold first_neigh. intros H. apply bind_some_inv in H as ([a' u] & H & E). injection E as ->.
  assert (G : for_ n (fun i '(l0, update) => nn <- rd (l ++ x) i ;; Some (l0 ++ [update], update + nn)) ([], 0) = Some (a, u)).
  { assert (GG : forall n i s0, for_from n i (fun i '(l0, update) => nn <- rd l i ;; Some (l0 ++ [update], update + nn)) s0 = Some (a, u) ->
      for_from n i (fun i '(l0, update) => nn <- rd (l ++ x) i ;; Some (l0 ++ [update], update + nn)) s0 = Some (a, u)); [|apply GG; exact H].
    clear H n. induction n as [|n IH]; intros i s0; cbn [for_from]; auto. destruct s0 as [l0 u0].
    intros H. apply bind_some_inv in H as ([l1 u1] & H & E). apply bind_some_inv in H as (c & H & E2). rewrite (rd_app1 _ _ _ _ H). cbn [bind]. injection E2 as <- <-. cbn [bind]. apply IH. exact E. }
  rewrite G. reflexivity.
Qed.

(** lists of commands *)
Definition hcsim (c d : hcmd RNum) : Prop := match c, d with HOp f, HOp g => f = g | HRun p, HRun q => psim p q | _, _ => False end.
Lemma hcsim_refl c : hcsim c c.
Proof. destruct c; cbn; auto. apply ps_refl. Qed.
Lemma hcsims_refl l : Forall2 hcsim l l.
Proof. induction l; constructor; auto. apply hcsim_refl. Qed.
Lemma hok_sim l l' : Forall2 hcsim l l' -> forall m Q, hok l m Q -> hok l' m Q.
Proof.
  induction 1 as [|c d l l' C _ IH]; intros m Q X; auto. destruct c as [f|p], d as [g|q]; cbn in C; try contradiction.
  - subst g. apply hok_op_inv in X as (m1 & E & X). eapply hok_op; eauto.
  - apply hok_run_inv in X. apply hok_run. eapply wp_sim; [exact C|]. eapply wp_conseq; [exact X|]. cbn beta. auto.
Qed.
Lemma hok_sim1 l1 l1' l m Q : Forall2 hcsim l1 l1' -> hok (l1 ++ l) m Q -> hok (l1' ++ l) m Q.
Proof. intros S. apply hok_sim. apply Forall2_app; auto. apply hcsims_refl. Qed.

(** ** smaller views *)
Definition shrink (m : rmem) (b : buf) (e : list nat) : rmem := mkMem (fun b' => if buf_dec b b' then e else dims m b') (val m).
Lemma run_grow A pi (p : rprog A) m a m' : run A pi p m a m' -> forall d, (forall c, alloc m c = true -> alloc (mkMem (N:=RNum) d (val m)) c = true) ->
  run A pi p (mkMem d (val m)) a (mkMem d (val m')) /\ forall c, alloc m c = false -> va m' c = va m c.
Proof.
  induction 1 as [A pi a m|A pi c k m a m' H1 H2 H3 IH|A pi c v k m a m' H1 H2 H3 IH|A pi c v k m a m' H1 H2 H3 IH
                 |A pi p1 p2 p q k m m1 m2 a m' Hs Hp IHp Hq IHq Hk IHk]; intros d Hd.
  - split; auto. constructor.
  - destruct (IH d Hd) as [R F]. split; auto. constructor; auto.
  - destruct (IH d) as [R F]; [exact Hd|]. split; [constructor; auto|]. intros c' Hc'. rewrite F by exact Hc'. rewrite va_store. destruct (cell_dec c c') as [<-|]; auto. congruence.
  - destruct (IH d) as [R F]; [exact Hd|]. split; [constructor; auto|]. intros c' Hc'. rewrite F by exact Hc'. rewrite va_store. destruct (cell_dec c c') as [<-|]; auto. congruence.
  - assert (D1 : dims m1 = dims m) by apply (run_frame _ _ _ _ _ _ Hp). assert (D2 : dims m2 = dims m1) by apply (run_frame _ _ _ _ _ _ Hq).
    destruct (IHp d Hd) as [R1 F1].
    destruct (IHq d) as [R2 F2]; [intros c Hc; rewrite (alloc_dims m1 m c D1) in Hc; apply (Hd c) in Hc; exact Hc|].
    destruct (IHk d) as [R3 F3]; [intros c Hc; rewrite (alloc_dims m2 m c) in Hc by congruence; apply (Hd c) in Hc; exact Hc|].
    split; [econstructor; eauto|]. intros c Hc. rewrite F3, F2, F1; auto; rewrite (alloc_dims _ m); congruence.
Qed.
Lemma alloc_shrink m b e b' idx : b <> bScr -> alloc (shrink m b e) (b', idx) = if buf_dec b b' then inb e idx else alloc m (b', idx).
Proof.
  intros Hs. assert (E : forall m0 : rmem, alloc m0 (b', idx) = (if buf_dec bScr b' then true else inb (dims m0 b') idx)).
  { intros m0. unfold alloc. cbn [fst snd]. destruct (buf_dec bScr b') as [<-|N]; auto. destruct b'; auto. congruence. }
  rewrite !E. unfold shrink. cbn [dims]. destruct (buf_dec b b') as [<-|Hn]; [|reflexivity]. destruct (buf_dec bScr b); congruence.
Qed.
Lemma wp_shrink A b e pi (p : rprog A) m (Q : A -> rmem -> Prop) : b <> bScr -> (forall idx, inb e idx = true -> alloc m (b, idx) = true) ->
  wp pi p (shrink m b e) Q ->
  wp pi p m (fun a m' => dims m' = dims m /\ Q a (shrink m' b e) /\ forall idx, inb e idx = false -> va m' (b, idx) = va m (b, idx)).
Proof.
  intros Hs Hb (a & m0 & R & HQ). pose proof (proj1 (run_frame _ _ _ _ _ _ R)) as D0.
  destruct (run_grow _ _ _ _ _ _ R (dims m)) as [R1 F].
  { intros [b' idx] Hc. rewrite (alloc_dims _ m) by reflexivity. rewrite alloc_shrink in Hc by auto. destruct (buf_dec b b') as [<-|Hne]; auto. }
  exists a, (mkMem (dims m) (val m0)). split; [destruct m; exact R1|]. split; [reflexivity|]. split.
  - assert (E : shrink (mkMem (dims m) (val m0)) b e = m0) by (destruct m0 as [d0 v0]; cbn in D0; subst d0; reflexivity). rewrite E. exact HQ.
  - intros idx Hi. apply (F (b, idx)). rewrite alloc_shrink by auto. destruct (buf_dec b b) as [_|X]; [exact Hi|congruence].
Qed.
Lemma keep_shrink outs m m' b e : dims m' = dims m -> keep outs (shrink m b e) (shrink m' b e) -> keep outs m m'.
Proof. intros D [_ V]. split; auto. Qed.
Lemma cov_shrink m b e b' ds : b <> bScr -> b <> b' -> cov m b' ds -> cov (shrink m b e) b' ds.
Proof. intros Hs Hn C idx Hi. specialize (C idx Hi). rewrite alloc_shrink by auto. destruct (buf_dec b b') as [E|_]; [contradiction|]. exact C. Qed.
Lemma cov_shrink_eq m b e : b <> bScr -> cov (shrink m b e) b e.
Proof. intros Hs idx Hi. apply inP_inb in Hi. rewrite alloc_shrink by auto. destruct (buf_dec b b) as [_|X]; [exact Hi|congruence]. Qed.
Lemma inb_inP ds : forall idx, inb ds idx = true -> inP ds idx.
Proof.
  induction ds as [|d ds IH]; intros [|i idx] H; cbn [inP inb] in *; try discriminate; auto. apply andb_prop in H as [A B]. split; [apply Nat.ltb_lt; auto|auto].
Qed.
Lemma cov_inb m b ds : cov m b ds -> forall idx, inb ds idx = true -> alloc m (b, idx) = true.
Proof. intros C idx Hi. apply C. apply inb_inP. exact Hi. Qed.

(** the kernels that update forces, or adjoints of features, leave the rest of these views alone *)
Section K.
Variable km : kmace RNum.
Variable s : sys RNum.
Notation n := (length s).
Notation nE := (length (epairs s)).
Notation K := (k_num_channels km).
Notation L := (k_num_lm km).
Notation M := (k_num_LM km).
Ltac shr b C := eapply wp_conseq; [refine (wp_shrink _ b _ top _ _ _ _ (cov_inb _ _ _ C) _); [discriminate|]|].
Ltac shc := first [assumption|apply cov_shrink_eq; discriminate|apply cov_shrink; [discriminate|discriminate|assumption]].
Ltac fr_ F := intros; apply F; cbn [inb]; repeat match goal with H : (?a <= ?x)%nat |- _ => rewrite (proj2 (Nat.ltb_ge x a) H); clear H end; rewrite ?andb_false_r; reflexivity.
Lemma k_rscale_A1' m : cov m bA1 [n; L; K] -> cov m bA1a [n; L; K] -> cov m bA1v [nE; 1%nat] -> cov m bA1d [nE; 1%nat] -> cov m bF [(3 * nE)%nat] ->
  wp top (kk_reverse_scale_kernel km n (f_num_neigh s) (f_xyz s) (f_r s) bA1 bA1a bA1v bA1d) m (fun _ m' => keep (o_2 bA1a bF) m m' /\
    (forall i lm k, (i < n)%nat -> (lm < L)%nat -> (k < K)%nat -> va m' (bA1a, [i; lm; k]) = va m (bA1a, [i; lm; k]) / kscale s bA1v m i)%R /\
    (forall q a, (q < nE)%nat -> (a < 3)%nat -> va m' (bF, [(3 * q + a)%nat]) = va m (bF, [(3 * q + a)%nat]) + rscl_f km s bA1 bA1a bA1v bA1d m q a)%R /\
    (forall x, (3 * nE <= x)%nat -> va m' (bF, [x]) = va m (bF, [x]))).
Proof.
  intros C1 C2 C3 C4 C5. shr bF C5; [apply k_rscale_A1; shc|].
  cbn beta. intros _ m' (D & (KP & VA & VF) & F). split; [exact (keep_shrink _ _ _ _ _ D KP)|]. split; [exact VA|]. split; [exact VF|fr_ F].
Qed.
Lemma k_zbl' z ze zg m : zbl_in km s z ze zg -> (forall i, (i < n)%nat -> (ty s i < length (k_atomic_numbers km))%nat) -> cov m bF [(3 * nE)%nat] -> cov m bE [n] ->
  wp top (kk_ZBL z n (f_node_types s) (f_num_neigh s) (f_neigh_types s) (k_atomic_numbers km) (f_r s) (f_xyz s)) m
   (fun _ m' => keep (o_2 bF bE) m m' /\
    (forall q a, (q < nE)%nat -> (a < 3)%nat -> va m' (bF, [(3 * q + a)%nat]) =
       va m (bF, [(3 * q + a)%nat]) - comp (eg s q) a / e_r (eg s q) * zg q)%R /\
    (forall i, (i < n)%nat -> va m' (bE, [i]) = va m (bE, [i]) + rsum (length (es s i)) (fun j => ze (eo s i + j)%nat))%R /\
    (forall i, (n <= i)%nat -> va m' (bE, [i]) = va m (bE, [i])) /\
    (forall x, (3 * nE <= x)%nat -> va m' (bF, [x]) = va m (bF, [x]))).
Proof.
  intros Z T C1 C2. shr bF C1; [apply (KkK5.k_zbl km s z ze zg Z T); shc|].
  cbn beta. intros _ m' (D & (KP & VA & VE & VT) & F). split; [exact (keep_shrink _ _ _ _ _ D KP)|]. split; [exact VA|]. split; [exact VE|]. split; [exact VT|fr_ F].
Qed.
Lemma k_rP1r' nH m : Phi1_in km s nH -> cov m bF [(3 * nE)%nat] -> cov m bR1 [nE; kr_num (k_radial_1 km)] -> cov m bR1d [nE; kr_num (k_radial_1 km)] ->
  cov m bdP1r [n; k_num_lelm1lm2 km; K] -> cov m bY [(nE * L)%nat] -> cov m bYg [(3 * nE * L)%nat] -> cov m bH1 [nH; M; K] -> cov m bH1a [nH; M; K] ->
  wp top (kk_reverse_Phi1r_kernel km n (f_num_neigh s) (f_neigh_indices s) (f_xyz s) (f_r s)) m (fun _ m' => keep o_rP1r m m' /\
    (forall q a, (q < nE)%nat -> (a < 3)%nat -> va m' (bF, [(3 * q + a)%nat]) = va m (bF, [(3 * q + a)%nat]) - rp1_f km s m q a)%R /\
    (forall idx, va m' (bH1a, idx) = va m (bH1a, idx) + rsum n (fun i => rp1_add km s m i (bH1a, idx)))%R /\
    (forall x, (3 * nE <= x)%nat -> va m' (bF, [x]) = va m (bF, [x]))).
Proof.
  intros P C1 C2 C3 C4 C5 C6 C7 C8. shr bF C1; [apply (k_rP1r km s nH P); shc|].
  cbn beta. intros _ m' (D & (KP & VA & VE) & F). split; [exact (keep_shrink _ _ _ _ _ D KP)|]. split; [exact VA|]. split; [exact VE|fr_ F].
Qed.
Hypothesis HI : HH_in km s.
Hypothesis HM : (K * K <= length (k_H2_weights_for_M1 km))%nat.
Lemma k_rH2' m : cov m bH1a [n; M; K] -> cov m bM1a [n; K] -> cov m bH2a [n; K] ->
  wp top (kk_reverse_H2_kernel km n (f_node_types s)) m (fun _ m' => keep o_rH2 m m' /\
    (forall i k, (i < n)%nat -> (k < K)%nat -> va m' (bH1a, [i; 0%nat; k]) =
       va m (bH1a, [i; 0%nat; k]) + rsum K (fun kp => v_val (k_H2_weights_for_H1 km) [ty s i; (k * K + kp)%nat] * va m (bH2a, [i; kp])))%R /\
    (forall i lm k, lm <> 0%nat -> va m' (bH1a, [i; lm; k]) = va m (bH1a, [i; lm; k])) /\
    (forall i k, (i < n)%nat -> (k < K)%nat -> va m' (bM1a, [i; k]) =
       va m (bM1a, [i; k]) + rsum K (fun kp => nth (k * K + kp)%nat (k_H2_weights_for_M1 km) (0:R)%R * va m (bH2a, [i; kp])))%R /\
    (forall i lm k, (n <= i)%nat -> va m' (bH1a, [i; lm; k]) = va m (bH1a, [i; lm; k]))).
Proof.
  intros C1 C2 C3. shr bH1a C1; [apply (k_rH2 km s HI HM); shc|].
  cbn beta. intros _ m' (D & (KP & VA & VB & VE) & F). split; [exact (keep_shrink _ _ _ _ _ D KP)|]. split; [exact VA|]. split; [exact VB|]. split; [exact VE|fr_ F].
Qed.
Lemma k_ro1' m : (K <= length (k_readout_1_weights km))%nat -> cov m bE [n] -> cov m bH1 [n; M; K] -> cov m bH1a [n; M; K] ->
  wp top (kk_readout_1_kernel km n) m (fun _ m' => keep o_ro1 m m' /\
    (forall i, (i < n)%nat -> va m' (bE, [i]) = va m (bE, [i]) + rsum K (fun k => nth k (k_readout_1_weights km) (0:R)%R * va m (bH1, [i; 0%nat; k])))%R /\
    (forall i k, (i < n)%nat -> (k < K)%nat -> va m' (bH1a, [i; 0%nat; k]) = nth k (k_readout_1_weights km) (0:R)%R) /\
    (forall i lm k, lm <> 0%nat -> va m' (bH1a, [i; lm; k]) = va m (bH1a, [i; lm; k])) /\
    (forall i, (n <= i)%nat -> va m' (bE, [i]) = va m (bE, [i])) /\
    (forall i lm k, (n <= i)%nat -> va m' (bH1a, [i; lm; k]) = va m (bH1a, [i; lm; k]))).
Proof.
  intros HW C1 C2 C3. shr bH1a C3; [apply (k_ro1 km s HM); shc|].
  cbn beta. intros _ m' (D & (KP & VA & VB & VE & VT) & F). split; [exact (keep_shrink _ _ _ _ _ D KP)|]. split; [exact VA|]. split; [exact VB|]. split; [exact VE|]. split; [exact VT|fr_ F].
Qed.
End K.
