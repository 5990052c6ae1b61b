(** The Kokkos classes of splines compute what the CPU classes compute.  Used in proofs only. *)
From Coq Require Import List Arith ZArith Bool Lia Reals Lra FunctionalExtensionality.
From Verif Require Import Base BaseLemmas Segs Instances RSums SplineModel SplineProofs.
From Verif Require Import KkSem KkSound KkWp KkWp2 KkModel KkHost KkTac KkSpec MpKk SplKkModel SplKkSpec.
Import ListNotations.
Local Open Scope R_scope.

(** ** parallel loops whose iterations store cells given by [own], and leave the rest *)
Lemma kd_rd pi own i c : own c = None -> can_read (pi c) = true -> can_read (kd pi own none_ i c) = true.
Proof. unfold kd, none_. intros ->. destruct (pi c); auto. Qed.
Lemma wp_fillo pi own (Sp : cell -> R -> Prop) n body m (Q : unit -> rmem -> Prop) :
  (forall i, (i < n)%nat -> wp (kd pi own none_ i) (body i) m (fun _ m' => forall c, pi c = POwn -> own c = Some i -> Sp c (va m' c))) ->
  (forall m', dims m' = dims m -> (forall c i, pi c = POwn -> own c = Some i -> (i < n)%nat -> Sp c (va m' c)) ->
     (forall c i, pi c = POwn -> own c = Some i -> (n <= i)%nat -> va m' c = va m c) ->
     (forall c, own c = None -> va m' c = va m c) -> Q tt m') ->
  wp pi (par_for (N:=RNum) n body) m Q.
Proof.
  intros HB HQ. apply (wp_pfor pi own none_ Sp nadd_).
  - intros i Hi. eapply wp_conseq; [apply HB; auto|]. cbn beta. intros _ m' H. apply kpost_own. exact H.
  - intros m' (D & P1 & P2 & _ & P4). apply HQ; auto. intros c Hc. apply P4. unfold idle, none_. destruct (pi c); auto.
Qed.
Lemma wp_fills pi own (Sp : cell -> R -> Prop) n (body : nat -> unit -> rprog unit) m (Q : unit -> rmem -> Prop) :
  (forall i, (i < n)%nat -> wp (kd pi own none_ i) (body i tt) m (fun _ m' => forall c, pi c = POwn -> own c = Some i -> Sp c (va m' c))) ->
  (forall m', dims m' = dims m -> (forall c i, pi c = POwn -> own c = Some i -> (i < n)%nat -> Sp c (va m' c)) ->
     (forall c, own c = None -> va m' c = va m c) -> Q tt m') ->
  wp pi (for_p (N:=RNum) n body tt) m Q.
Proof.
  intros HB HQ. apply (wp_sfor pi own none_ Sp nadd_).
  - intros i Hi. eapply wp_conseq; [apply HB; auto|]. cbn beta. intros _ m' H. apply kpost_own. exact H.
  - intros m' (D & P1 & P2 & _ & P4). apply HQ; auto. intros c Hc. apply P4. unfold idle, none_. destruct (pi c); auto.
Qed.

(** allocation *)
Lemma alN (m : rmem) b ds idx : dims m b = ds -> inP ds idx -> alloc m (b, idx) = true.
Proof.
  intros D H. assert (I : inb (dims m b) idx = true) by (rewrite D; apply inP_inb; auto).
  unfold alloc. cbn [fst snd]. destruct b; auto.
Qed.
Lemma view_tab (m : rmem) b k (f : nat -> R) : dims m b = [k] -> (forall i, (i < k)%nat -> va m (b, [i]) = f i) -> kk_view m b = tab k f.
Proof.
  intros D H. unfold kk_view, extent. rewrite D. cbn [nth]. unfold tab. apply map_ext_in. intros i Hi. apply in_seq in Hi. apply H. lia.
Qed.

(** ** CubicSplineKokkos *)
Definition cown (c : cell) : option nat := match c with (bNv 0, [x]) => Some (x / 4)%nat | _ => None end.
Lemma cown_at i q : (q < 4)%nat -> cown (sC, [(4 * i + q)%nat]) = Some i.
Proof. intros H. unfold cown, sC. f_equal. replace (4 * i + q)%nat with (i * 4 + q)%nat by lia. apply divL. auto. Qed.
Lemma cown_inv c i : cown c = Some i -> exists q, (q < 4)%nat /\ c = (sC, [(4 * i + q)%nat]).
Proof.
  destruct c as [b idx]. unfold cown. destruct b; try discriminate. destruct l; try discriminate.
  destruct idx as [|x [|? ?]]; try discriminate. intros H. injection H as <-. exists (x mod 4)%nat.
  split; [apply Nat.mod_upper_bound; lia|]. unfold sC. do 3 f_equal. apply Nat.div_mod. lia.
Qed.
Lemma kernel_wp h n m (v d : nat -> R) (Q : unit -> rmem -> Prop) :
  dims m sV = [n] -> dims m sD = [n] -> dims m sC = [(4 * (n - 1))%nat] ->
  (forall i, (i < n)%nat -> va m (sV, [i]) = v i) -> (forall i, (i < n)%nat -> va m (sD, [i]) = d i) ->
  (forall m', dims m' = dims m -> (forall i q, (i < n - 1)%nat -> (q < 4)%nat -> va m' (sC, [(4 * i + q)%nat]) = hco (N:=RNum) h v d q i) -> Q tt m') ->
  wp top (kcs_kernel (N:=RNum) h n) m Q.
Proof.
  intros DV DD DC HV HD HQ. unfold kcs_kernel.
  apply (wp_fillo top cown (fun c x => forall i q, (i < n - 1)%nat -> (q < 4)%nat -> c = (sC, [(4 * i + q)%nat]) -> x = hco (N:=RNum) h v d q i)).
  - intros i Hi.
    assert (PC : forall q, (q < 4)%nat -> kd top cown none_ i (sC, [(4 * i + q)%nat]) = POwn).
    { intros q Hq. apply kd_own_ok; [reflexivity|apply cown_at; auto]. }
    pose proof (PC 0%nat ltac:(lia)) as P0. rewrite Nat.add_0_r in P0.
    assert (AC : forall (m' : rmem) q, dims m' = dims m -> (q < 4)%nat -> alloc m' (sC, [(4 * i + q)%nat]) = true).
    { intros m' q E Hq. apply (alN m' sC [(4 * (n - 1))%nat]); [congruence|]. cbn. split; auto. lia. }
    pose proof (AC m 0%nat eq_refl ltac:(lia)) as A0. rewrite Nat.add_0_r in A0.
    assert (AV : forall (m' : rmem) k, dims m' = dims m -> (k < n)%nat -> alloc m' (sV, [k]) = true) by (intros; apply (al1 _ sV n); [congruence|auto]).
    assert (AD : forall (m' : rmem) k, dims m' = dims m -> (k < n)%nat -> alloc m' (sD, [k]) = true) by (intros; apply (al1 _ sD n); [congruence|auto]).
    apply wp_get; [reflexivity|apply AV; auto; lia|].
    apply wp_put; [exact P0|exact A0|].
    apply wp_get; [reflexivity|apply AD; auto; lia|].
    apply wp_put; [apply PC; lia|apply AC; auto; lia|].
    apply wp_get; [reflexivity|apply AV; auto; lia|].
    apply wp_get; [reflexivity|apply AD; auto; lia|].
    apply wp_get; [reflexivity|apply AV; auto; lia|].
    apply wp_get; [reflexivity|apply AD; auto; lia|].
    apply wp_put; [apply PC; lia|apply AC; auto; lia|].
    apply wp_get; [reflexivity|apply AV; auto; lia|].
    apply wp_get; [reflexivity|apply AD; auto; lia|].
    apply wp_get; [reflexivity|apply AV; auto; lia|].
    apply wp_get; [reflexivity|apply AD; auto; lia|].
    apply wp_put_; [apply PC; lia|apply AC; auto; lia|].
    repeat rewrite (va_store_ne _ (sC, _) _ (sV, _)) by discriminate.
    repeat rewrite (va_store_ne _ (sC, _) _ (sD, _)) by discriminate.
    rewrite !HV, !HD by lia.
    intros c _ O i' q Hi' Hq ->. rewrite cown_at in O by auto. injection O as ->.
    destruct q as [|[|[|[|q]]]]; [rewrite Nat.add_0_r| | | |exfalso; lia];
      repeat first [rewrite va_store_eq; reflexivity | rewrite va_store_ne by (intros E; injection E as E; lia)].
  - intros m' D P1 _ _. apply HQ; auto. intros i q Hi Hq. refine (P1 (sC, [(4 * i + q)%nat]) i eq_refl _ Hi i q Hi Hq eq_refl). apply cown_at. auto.
Qed.

(** what the evaluators need *)
Definition is_spline (h : R) (vs ds : list R) (m : rmem) : Prop :=
  dims m sC = [(4 * (length vs - 1))%nat] /\
  forall i q, (i < length vs - 1)%nat -> (q < 4)%nat -> va m (sC, [(4 * i + q)%nat]) = hco (N:=RNum) h (vfun (N:=RNum) vs) (vfun (N:=RNum) ds) q i.
Lemma nb_dec (a b : buf) : a <> b -> (if buf_dec a b then true else false) = false.
Proof. destruct (buf_dec a b); congruence. Qed.
Lemma kcs_new_hok h vs ds m : (1 <= length vs)%nat -> length ds = length vs ->
  hok (kcs_new (N:=RNum) h vs ds) m (is_spline h vs ds).
Proof.
  intros Hv Hd. unfold kcs_new, as_view.
  eapply hok_op. { destruct (Nat.eqb_spec (length vs) 0); [lia|reflexivity]. }
  apply hok_hop. apply hok_hop. apply hok_run.
  apply (kernel_wp h (length vs) _ (vfun (N:=RNum) vs) (vfun (N:=RNum) ds)); try reflexivity.
  - change ([length ds] = [length vs]). congruence.
  - intros m' D H. apply hok_nil. split; [rewrite D; reflexivity|exact H].
Qed.
Lemma kcs_new_views_hok h n m : (1 <= n)%nat -> dims m sV = [n] -> dims m sD = [n] ->
  hok (kcs_new_views (N:=RNum) h n) m (is_spline h (kk_view m sV) (kk_view m sD)).
Proof.
  intros Hn D1 D2. unfold kcs_new_views. eapply hok_op. { destruct (Nat.eqb_spec n 0); [lia|reflexivity]. }
  assert (LV : length (kk_view m sV) = n) by (unfold kk_view, extent; rewrite map_length, seq_length, D1; reflexivity).
  assert (E : forall b, dims m b = [n] -> forall i, (i < n)%nat -> va m (b, [i]) = vfun (N:=RNum) (kk_view m b) i).
  { intros b Db i Hi. rewrite (view_tab m b n (fun i => va m (b, [i]))) by auto. unfold vfun. exact (eq_sym (nth_tab n (fun i => va m (b, [i])) i 0 Hi)). }
  apply hok_run. apply (kernel_wp h n _ (vfun (N:=RNum) (kk_view m sV)) (vfun (N:=RNum) (kk_view m sD))); auto.
  - intros i Hi. rewrite <- E by auto. reflexivity.
  - intros i Hi. rewrite <- E by auto. reflexivity.
  - intros m' D H. apply hok_nil. split; [rewrite D, LV; reflexivity|rewrite LV; exact H].
Qed.

Lemma h_c_at (host : bool) h vs ds m i q : is_spline h vs ds m -> (i < length vs - 1)%nat -> (q < 4)%nat ->
  h_c (N:=RNum) host m (Z.of_nat (4 * i + q)) = Some (if host then hco (N:=RNum) h (vfun (N:=RNum) vs) (vfun (N:=RNum) ds) q i else 0).
Proof.
  intros (D & V) Hi Hq. unfold h_c. unfold zidx. destruct (Z.ltb_spec (Z.of_nat (4 * i + q)) 0); [lia|]. cbn [bind]. rewrite Nat2Z.id.
  rewrite D. rewrite inP_inb by (cbn; split; auto; lia). destruct host; auto. f_equal. apply V; auto.
Qed.
Lemma kcs_num_eq h vs ds m : is_spline h vs ds m -> kcs_num (N:=RNum) m = (4 * (length vs - 1))%nat /\ (kcs_num (N:=RNum) m / 4 = length vs - 1)%nat.
Proof. intros (D & _). unfold kcs_num, extent. rewrite D. cbn [nth]. split; auto. rewrite Nat.mul_comm. apply Nat.div_mul. lia. Qed.
Lemma kcs_eval_in (host : bool) h vs ds m r i : is_spline h vs ds m -> ntrunc (n:=RNum) (r / h) = Z.of_nat i -> (i < length vs - 1)%nat ->
  let x := r - h * IZR (Z.of_nat i) in let c q := if host then hco (N:=RNum) h (vfun (N:=RNum) vs) (vfun (N:=RNum) ds) q i else 0 in
  let y := c 0%nat + c 1%nat * x + c 2%nat * (x * x) + c 3%nat * (x * x * x) in
  let y' := c 1%nat + 2 * c 2%nat * x + 3 * c 3%nat * (x * x) in
  kcs_evaluate (N:=RNum) host h m r = SplineModel.Ret y /\
  kcs_evaluate_deriv (N:=RNum) host h m r = SplineModel.Ret (y, y') /\
  kcs_evaluate_deriv_divided (N:=RNum) host h m r = SplineModel.Ret (y, y' / r).
Proof.
  intros H E Hi x c y y'. destruct (kcs_num_eq _ _ _ _ H) as [N1 N2].
  unfold kcs_evaluate, kcs_evaluate_deriv, kcs_evaluate_deriv_divided. rewrite N2, N1.
  change (ndiv (n:=RNum) r h) with (r / h). rewrite E.
  replace (Z.of_nat i <? 0)%Z with false by (symmetry; apply Z.ltb_ge; lia).
  replace (Z.of_nat (length vs - 1) <=? Z.of_nat i)%Z with false by (symmetry; apply Z.leb_gt; lia).
  replace (Z.of_nat (length vs - 1) <? Z.of_nat i)%Z with false by (symmetry; apply Z.ltb_ge; lia).
  replace (Z.of_nat (4 * (length vs - 1)) <? Z.of_nat i)%Z with false by (symmetry; apply Z.ltb_ge; lia).
  cbn [orb].
  replace (4 * Z.of_nat i)%Z with (Z.of_nat (4 * i + 0)) by lia.
  replace (Z.of_nat (4 * i + 0) + 1)%Z with (Z.of_nat (4 * i + 1)) by lia.
  replace (Z.of_nat (4 * i + 0) + 2)%Z with (Z.of_nat (4 * i + 2)) by lia.
  replace (Z.of_nat (4 * i + 0) + 3)%Z with (Z.of_nat (4 * i + 3)) by lia.
  rewrite !(h_c_at host h vs ds) by (auto; lia). cbn [bind of_option]. auto.
Qed.
Lemma kcs_eval_out h vs ds m (r : R) (host : bool) :
  is_spline h vs ds m -> (ntrunc (n:=RNum) (r / h)%R < 0 \/ Z.of_nat (length vs - 1) <= ntrunc (n:=RNum) (r / h)%R)%Z ->
  kcs_evaluate (N:=RNum) host h m r = Throws.
Proof.
  intros H E. destruct (kcs_num_eq _ _ _ _ H) as [N1 N2]. unfold kcs_evaluate. rewrite N2. change (ndiv (n:=RNum) r h) with (r / h).
  replace ((ntrunc (n:=RNum) (r / h)%R <? 0) || (Z.of_nat (length vs - 1) <=? ntrunc (n:=RNum) (r / h)%R))%Z%bool with true; auto.
  symmetry. apply orb_true_iff. rewrite Z.ltb_lt, Z.leb_le. lia.
Qed.
Lemma kcs_eval_neg h vs ds m (r : R) (host : bool) :
  is_spline h vs ds m -> (ntrunc (n:=RNum) (r / h)%R < 0)%Z ->
  kcs_evaluate_deriv (N:=RNum) host h m r = Throws /\ kcs_evaluate_deriv_divided (N:=RNum) host h m r = Throws.
Proof.
  intros H E. unfold kcs_evaluate_deriv, kcs_evaluate_deriv_divided. change (ndiv (n:=RNum) r h) with (r / h).
  replace (ntrunc (n:=RNum) (r / h)%R <? 0)%Z with true by (symmetry; apply Z.ltb_lt; auto). auto.
Qed.

(** ** CubicSplineSetKokkos *)
(** the object *)
Definition is_set (h : R) (vs ds : list (list R)) (n : nat) (m : rmem) : Prop :=
  dims m sC = [(n - 1)%nat; 4%nat; length vs] /\
  forall i q j, (i < n - 1)%nat -> (q < 4)%nat -> (j < length vs)%nat ->
    va m (sC, [i; q; j]) = hco (N:=RNum) h (srow (N:=RNum) vs j) (srow (N:=RNum) ds j) q i.
Definition own3 (p : nat) (b : buf) (c : cell) : option nat :=
  if buf_dec b (fst c) then match snd c with [i; _; j] => Some (if (p =? 0)%nat then i else j) | _ => None end else None.
Lemma own3_at p b i q j : own3 p b (b, [i; q; j]) = Some (if (p =? 0)%nat then i else j).
Proof. unfold own3. cbn [fst snd]. destruct (buf_dec b b); congruence. Qed.
Lemma own3_inv p b c x : own3 p b c = Some x -> exists i q j, c = (b, [i; q; j]) /\ x = (if (p =? 0)%nat then i else j).
Proof.
  unfold own3. destruct c as [b' idx]. cbn [fst snd]. destruct (buf_dec b b') as [<-|]; [|discriminate].
  destruct idx as [|i [|q [|j [|? ?]]]]; try discriminate. intros H. injection H as <-. eauto.
Qed.
Lemma own3_ne p b c : fst c <> b -> own3 p b c = None.
Proof. unfold own3. destruct (buf_dec b (fst c)); congruence. Qed.
Lemma at2_ok (t : list (list R)) n j i : rect (N:=RNum) t n -> (j < length t)%nat -> (i < n)%nat -> at2 (N:=RNum) t j i = Some (srow (N:=RNum) t j i).
Proof.
  intros H Hj Hi. unfold at2. destruct (rect_rd (N:=RNum) t n j H Hj) as [-> L]. cbn [bind]. unfold srow.
  apply (rd_some (A:=R)). change (i < length (nth j t []))%nat. rewrite <- L in Hi. exact Hi.
Qed.
Lemma fill_wp h vs ds n b m (Q : unit -> rmem -> Prop) : length ds = length vs -> rect (N:=RNum) vs n -> rect (N:=RNum) ds n ->
  dims m b = [(n - 1)%nat; 4%nat; length vs] ->
  (forall m', dims m' = dims m -> (forall c, fst c <> b -> va m' c = va m c) ->
     (forall i q j, (i < n - 1)%nat -> (q < 4)%nat -> (j < length vs)%nat ->
       va m' (b, [i; q; j]) = hco (N:=RNum) h (srow (N:=RNum) vs j) (srow (N:=RNum) ds j) q i) -> Q tt m') ->
  wp top (kss_fill (N:=RNum) (mkKss (N:=RNum) h n (length vs)) vs ds b) m Q.
Proof.
  intros Ld Rv Rd Db HQ. unfold kss_fill. cbn [ks_h ks_nodes ks_num].
  set (Sp := fun (c : cell) (x : R) => forall i q j, (i < n - 1)%nat -> (q < 4)%nat -> (j < length vs)%nat -> c = (b, [i; q; j]) ->
     x = hco (N:=RNum) h (srow (N:=RNum) vs j) (srow (N:=RNum) ds j) q i).
  apply (wp_fills top (own3 0 b) Sp).
  - intros i Hi. apply (wp_fills _ (own3 1 b) Sp).
    + intros j Hj.
      assert (PC : forall q, kd (kd top (own3 0 b) none_ i) (own3 1 b) none_ j (b, [i; q; j]) = POwn).
      { intros q. apply kd_own_ok; [apply kd_own_ok; [reflexivity|]|]; apply own3_at. }
      assert (AC : forall (m' : rmem) q, dims m' = dims m -> (q < 4)%nat -> alloc m' (b, [i; q; j]) = true).
      { intros m' q E Hq. apply (alN m' b [(n - 1)%nat; 4%nat; length vs]); [congruence|]. cbn. auto. }
      eapply wp_lift; [apply (at2_ok vs n); [exact Rv|exact Hj|lia]|]. apply wp_put; [apply PC|apply AC; auto; lia|].
      eapply wp_lift; [apply (at2_ok ds n); [exact Rd|exact (eq_ind_r (fun k => (j < k)%nat) Hj Ld)|lia]|]. apply wp_put; [apply PC|apply AC; auto; lia|].
      eapply wp_lift; [apply (at2_ok vs n); [exact Rv|exact Hj|lia]|]. eapply wp_lift; [apply (at2_ok ds n); [exact Rd|exact (eq_ind_r (fun k => (j < k)%nat) Hj Ld)|lia]|].
      apply wp_put; [apply PC|apply AC; auto; lia|]. apply wp_put_; [apply PC|apply AC; auto; lia|].
      intros c P O i' q' j' Hi' Hq' Hj' ->. apply kd_own in P. destruct P as [_ P]. rewrite own3_at in P, O. cbn in P, O.
      injection P as ->. injection O as ->.
      destruct q' as [|[|[|[|q']]]]; [| | | |exfalso; lia];
        repeat first [rewrite va_store_eq; reflexivity | rewrite va_store_ne by (intros E; injection E as E; lia)].
    + intros m' D P1 _. intros c P O i' q' j' Hi' Hq' Hj' ->. apply (P1 (b, [i'; q'; j']) j'); auto.
      * apply kd_own_ok; auto.
      * apply own3_at.
  - intros m' D P1 P2. apply HQ; auto.
    + intros c Hc. apply P2. apply own3_ne. auto.
    + intros i q j Hi Hq Hj. refine (P1 (b, [i; q; j]) i eq_refl _ Hi i q j Hi Hq Hj eq_refl). apply own3_at.
Qed.
Lemma kss_new_hok host h vs ds n m : (1 <= n)%nat -> length ds = length vs -> rect (N:=RNum) vs n -> rect (N:=RNum) ds n ->
  hok (kss_new (N:=RNum) host (mkKss (N:=RNum) h n (length vs)) vs ds) m (is_set h vs ds n).
Proof.
  intros Hn Ld Rv Rd. unfold kss_new. cbn [ks_nodes ks_num].
  eapply hok_op. { destruct (Nat.eqb_spec n 0); [lia|reflexivity]. }
  destruct host.
  - apply hok_run. apply (fill_wp h vs ds n sC); auto. intros m' D _ V. apply hok_nil. split; [rewrite D; reflexivity|exact V].
  - apply hok_hop. apply hok_run. apply (fill_wp h vs ds n sH); auto. intros m' D O V.
    assert (D1 : dims m' sC = [(n - 1)%nat; 4%nat; length vs]) by (rewrite D; reflexivity).
    assert (D2 : dims m' sH = [(n - 1)%nat; 4%nat; length vs]) by (rewrite D; reflexivity).
    eapply hok_op. { unfold copy_view. rewrite D1, D2. destruct (list_eq_dec _ _ _); [reflexivity|congruence]. }
    apply hok_nil. split; [reflexivity|]. intros i q j Hi Hq Hj. exact (V i q j Hi Hq Hj).
Qed.

(** evaluators *)
Section Eval.
Variables (h : R) (vs ds : list (list R)) (n : nat).
Notation num := (length vs).
Notation s := (mkKss (N:=RNum) h n num).
Notation S := (splset (N:=RNum) h vs ds n).
Notation hc i q j := (hco (N:=RNum) h (srow (N:=RNum) vs j) (srow (N:=RNum) ds j) q i).

Lemma c_at_ok B pi m (f : R -> rprog B) i q j Q : is_set h vs ds n m -> (forall c, fst c = sC -> can_read (pi c) = true) ->
  (i < n - 1)%nat -> (q < 4)%nat -> (j < num)%nat -> wp pi (f (hc i q j)) m Q ->
  wp pi (pbind (c_at (N:=RNum) (Z.of_nat i) q j) f) m Q.
Proof.
  intros (D & V) HR Hi Hq Hj H. unfold c_at. unfold zidx. destruct (Z.ltb_spec (Z.of_nat i) 0); [lia|]. rewrite Nat2Z.id. cbn [lift pbind].
  apply wp_get; [apply HR; reflexivity|apply (alN m sC _ _ D); cbn; auto|]. rewrite V by auto. exact H.
Qed.
Lemma is_set_dims m m' : is_set h vs ds n m -> dims m' = dims m -> (forall idx, va m' (sC, idx) = va m (sC, idx)) -> is_set h vs ds n m'.
Proof. intros (D & V) E HV. split; [congruence|]. intros. rewrite HV. auto. Qed.

(** two views, one cell of each per iteration *)
Definition own12 (b bd : buf) (c : cell) : option nat :=
  if buf_dec b (fst c) then match snd c with [i] => Some i | _ => None end else own1 bd c.
Lemma own12_at b bd i : own12 b bd (b, [i]) = Some i.
Proof. unfold own12. cbn. destruct (buf_dec b b); congruence. Qed.
Lemma own12_at2 b bd i : own12 b bd (bd, [i]) = Some i.
Proof. unfold own12. cbn. destruct (buf_dec b bd); auto. apply own1_eq. Qed.
Lemma own12_ne b bd c : fst c <> b -> fst c <> bd -> own12 b bd c = None.
Proof. intros H1 H2. unfold own12. destruct (buf_dec b (fst c)); [congruence|]. apply own1_ne. auto. Qed.
Lemma own12_inv b bd c i : own12 b bd c = Some i -> c = (b, [i]) \/ c = (bd, [i]).
Proof.
  unfold own12. destruct c as [b' idx]. cbn [fst snd]. destruct (buf_dec b b') as [<-|].
  - destruct idx as [|x [|? ?]]; try discriminate. intros H. injection H as <-. auto.
  - intros H. apply own1_inv in H. auto.
Qed.

Lemma evaluate_wp r i b k m (Q : unit -> rmem -> Prop) : is_set h vs ds n m -> ntrunc (n:=RNum) (r / h) = Z.of_nat i -> (i < n - 1)%nat ->
  b <> sC -> dims m b = [k] -> (num <= k)%nat ->
  (forall m', is_set h vs ds n m' -> dims m' = dims m -> (forall c, fst c <> b -> va m' c = va m c) ->
    (forall j, (j < num)%nat -> va m' (b, [j]) = pval (N:=RNum) h (srow (N:=RNum) vs j) (srow (N:=RNum) ds j) i (r - h * INR i)) ->
    (forall j, (num <= j)%nat -> va m' (b, [j]) = va m (b, [j])) -> Q tt m') ->
  wp top (kss_evaluate (N:=RNum) s r b) m Q.
Proof.
  intros IS E Hi Hb Db Hk HQ. unfold kss_evaluate. cbn [ks_h ks_num]. change (ndiv (n:=RNum) r h) with (r / h). rewrite E.
  apply (wp_fill1 b num _ (fun j => pval (N:=RNum) h (srow (N:=RNum) vs j) (srow (N:=RNum) ds j) i (r - h * INR i))).
  - intros j pi Hj PR PO.
    assert (PC : forall c, fst c = sC -> can_read (pi c) = true) by (intros c Hc; apply PR; congruence).
    do 4 (apply c_at_ok; auto; try lia). apply wp_put_; [exact PO|apply (al1 m b k); auto; lia|].
    rewrite INR_IZR_INZ. reflexivity.
  - intros m' D V O T. apply HQ; auto. eapply is_set_dims; eauto.
Qed.
Lemma derivs_wp r i b bd k kd_ m (Q : unit -> rmem -> Prop) : is_set h vs ds n m -> ntrunc (n:=RNum) (r / h) = Z.of_nat i -> (i < n - 1)%nat ->
  b <> sC -> bd <> sC -> b <> bd -> dims m b = [k] -> dims m bd = [kd_] -> (num <= k)%nat -> (num <= kd_)%nat ->
  (forall m', is_set h vs ds n m' -> dims m' = dims m -> (forall c, fst c <> b -> fst c <> bd -> va m' c = va m c) ->
    (forall j, (j < num)%nat -> va m' (b, [j]) = sval (N:=RNum) h (srow (N:=RNum) vs j) (srow (N:=RNum) ds j) i (r - h * INR i)) ->
    (forall j, (num <= j)%nat -> va m' (b, [j]) = va m (b, [j])) ->
    (forall j, (j < num)%nat -> va m' (bd, [j]) = sder (N:=RNum) h (srow (N:=RNum) vs j) (srow (N:=RNum) ds j) i (r - h * INR i)) ->
    (forall j, (num <= j)%nat -> va m' (bd, [j]) = va m (bd, [j])) -> Q tt m') ->
  wp top (kss_evaluate_derivs (N:=RNum) s r b bd) m Q.
Proof.
  intros IS E Hi Hb Hbd Hbb Db Dbd Hk Hkd HQ. unfold kss_evaluate_derivs. cbn [ks_h ks_num]. change (ndiv (n:=RNum) r h) with (r / h). rewrite E.
  apply (wp_fillo top (own12 b bd) (fun c x => forall j, (j < num)%nat ->
    (c = (b, [j]) -> x = sval (N:=RNum) h (srow (N:=RNum) vs j) (srow (N:=RNum) ds j) i (r - h * INR i)) /\
    (c = (bd, [j]) -> x = sder (N:=RNum) h (srow (N:=RNum) vs j) (srow (N:=RNum) ds j) i (r - h * INR i)))).
  - intros j Hj.
    assert (PC : forall c, fst c = sC -> can_read (kd top (own12 b bd) none_ j c) = true).
    { intros c Hc. apply kd_rd; [apply own12_ne; congruence|reflexivity]. }
    do 4 (apply c_at_ok; auto; try lia).
    apply wp_put; [apply kd_own_ok; [reflexivity|apply own12_at]|apply (al1 m b k); auto; lia|].
    apply wp_put_; [apply kd_own_ok; [reflexivity|apply own12_at2]|apply (al1 _ bd kd_); auto; lia|].
    intros c _ O j' Hj'. split; intros ->.
    + rewrite own12_at in O. injection O as ->. rewrite va_store_ne by congruence. rewrite va_store_eq. unfold sval. rewrite INR_IZR_INZ. cbn. ring.
    + rewrite own12_at2 in O. injection O as ->. rewrite va_store_eq. unfold sder. rewrite INR_IZR_INZ. cbn. ring.
  - intros m' D P1 P2 P3. apply HQ; auto.
    + eapply is_set_dims; eauto. intros idx. apply P3. apply own12_ne; cbn; congruence.
    + intros c H1 H2. apply P3. apply own12_ne; auto.
    + intros j Hj. refine (proj1 (P1 (b, [j]) j eq_refl _ Hj j Hj) eq_refl). apply own12_at.
    + intros j Hj. refine (P2 (b, [j]) j eq_refl _ Hj). apply own12_at.
    + intros j Hj. refine (proj2 (P1 (bd, [j]) j eq_refl _ Hj j Hj) eq_refl). apply own12_at2.
    + intros j Hj. refine (P2 (bd, [j]) j eq_refl _ Hj). apply own12_at2.
Qed.

(** the lanes of one team: a loop that changes cells [i, j] of one view *)
Definition own2 (p : nat) (b : buf) (c : cell) : option nat :=
  if buf_dec b (fst c) then match snd c with [i; j] => Some (if (p =? 0)%nat then i else j) | _ => None end else None.
Lemma own2_at p b i j : own2 p b (b, [i; j]) = Some (if (p =? 0)%nat then i else j).
Proof. unfold own2. cbn [fst snd]. destruct (buf_dec b b); congruence. Qed.
Lemma own2_ne p b c : fst c <> b -> own2 p b c = None.
Proof. unfold own2. destruct (buf_dec b (fst c)); congruence. Qed.
Lemma lanes_wp pi b i (body : nat -> rprog unit) (f : nat -> R) m (Q : unit -> rmem -> Prop) :
  b <> sC -> is_set h vs ds n m -> (forall c, fst c = sC -> can_read (pi c) = true) -> (forall j, pi (b, [i; j]) = POwn) ->
  (forall j pj, (j < num)%nat -> (forall c, fst c = sC -> can_read (pj c) = true) -> pj (b, [i; j]) = POwn ->
     wp pj (body j) m (fun _ m' => va m' (b, [i; j]) = f j)) ->
  (forall m', is_set h vs ds n m' -> dims m' = dims m -> (forall c, fst c <> b -> va m' c = va m c) ->
     (forall j, (j < num)%nat -> va m' (b, [i; j]) = f j) ->
     (forall j, (num <= j)%nat -> va m' (b, [i; j]) = va m (b, [i; j])) -> Q tt m') ->
  wp pi (par_for (N:=RNum) num body) m Q.
Proof.
  intros Hb IS PC PO HB HQ.
  apply (wp_fillo pi (own2 1 b) (fun c x => forall j, c = (b, [i; j]) -> x = f j)).
  - intros j Hj. eapply wp_conseq.
    + apply (HB j); auto.
      * intros c Hc. apply kd_rd; auto. apply own2_ne. congruence.
      * apply kd_own_ok; auto. apply own2_at.
    + cbn beta. intros _ m' E c P O j' ->. rewrite own2_at in O. cbn in O. injection O as ->. exact E.
  - intros m' D P1 P2 P3. apply HQ; auto.
    + eapply is_set_dims; eauto. intros idx. apply P3. apply own2_ne. cbn. congruence.
    + intros c Hc. apply P3. apply own2_ne. auto.
    + intros j Hj. refine (P1 (b, [i; j]) j (PO j) _ Hj j eq_refl). apply own2_at.
    + intros j Hj. refine (P2 (b, [i; j]) j (PO j) _ Hj). apply own2_at.
Qed.

Definition ownm (c : cell) : option nat := match own2 0 sOv c with Some i => Some i | None => own2 0 sOd c end.
Lemma ownm_v i j : ownm (sOv, [i; j]) = Some i. Proof. reflexivity. Qed.
Lemma ownm_d i j : ownm (sOd, [i; j]) = Some i. Proof. reflexivity. Qed.
Lemma ownm_ne c : fst c <> sOv -> fst c <> sOd -> ownm c = None.
Proof. intros A B. unfold ownm. rewrite (own2_ne 0 sOv), (own2_ne 0 sOd) by auto. reflexivity. Qed.
Notation x_ r i := (r - h * INR i).
Notation sv r i j := (sval (N:=RNum) h (srow (N:=RNum) vs j) (srow (N:=RNum) ds j) i (x_ r i)).
Notation sd r i j := (sder (N:=RNum) h (srow (N:=RNum) vs j) (srow (N:=RNum) ds j) i (x_ r i)).
Lemma many_wp rs (cel : nat -> nat) k w m (Q : unit -> rmem -> Prop) : is_set h vs ds n m ->
  (forall i, (i < length rs)%nat -> ntrunc (n:=RNum) (nth i rs 0 / h) = Z.of_nat (cel i) /\ (cel i < n - 1)%nat) ->
  dims m sOv = [k; w] -> dims m sOd = [k; w] -> (length rs <= k)%nat -> (num <= w)%nat ->
  (forall m', is_set h vs ds n m' -> dims m' = dims m ->
    (forall i j, (i < length rs)%nat -> (j < num)%nat -> va m' (sOv, [i; j]) = sv (nth i rs 0) (cel i) j /\ va m' (sOd, [i; j]) = sd (nth i rs 0) (cel i) j) ->
    (forall i j, (length rs <= i)%nat \/ (num <= j)%nat -> va m' (sOv, [i; j]) = va m (sOv, [i; j]) /\ va m' (sOd, [i; j]) = va m (sOd, [i; j])) ->
    Q tt m') ->
  wp top (kss_evaluate_many (N:=RNum) s rs) m Q.
Proof.
  intros IS HC Dv Dd Hk Hw HQ. unfold kss_evaluate_many. cbn [ks_h ks_num].
  apply (wp_fillo top ownm (fun c x => forall i j,
    (c = (sOv, [i; j]) -> ((j < num)%nat -> x = sv (nth i rs 0) (cel i) j) /\ ((num <= j)%nat -> x = va m c)) /\
    (c = (sOd, [i; j]) -> ((j < num)%nat -> x = sd (nth i rs 0) (cel i) j) /\ ((num <= j)%nat -> x = va m c)))).
  - intros i Hi. destruct (HC i Hi) as [E Hc]. eapply wp_lift; [apply (rd_some (A:=R) rs i 0); exact Hi|].
    change (ndiv (n:=RNum) (nth i rs 0) h) with (nth i rs 0 / h). rewrite E.
    set (pi := kd top ownm none_ i).
    assert (PC : forall c, fst c = sC -> can_read (pi c) = true).
    { intros c H. apply kd_rd; [apply ownm_ne; rewrite H; discriminate|reflexivity]. }
    assert (PV : forall j, pi (sOv, [i; j]) = POwn) by (intros j; apply kd_own_ok; reflexivity).
    assert (PD : forall j, pi (sOd, [i; j]) = POwn) by (intros j; apply kd_own_ok; reflexivity).
    assert (AV : forall (m' : rmem) j, dims m' = dims m -> (j < num)%nat -> alloc m' (sOv, [i; j]) = true).
    { intros m' j D Hj. apply (alN m' sOv [k; w]); [congruence|]. split; [exact (Nat.lt_le_trans _ _ _ Hi Hk)|split; [exact (Nat.lt_le_trans _ _ _ Hj Hw)|exact I]]. }
    assert (AD : forall (m' : rmem) j, dims m' = dims m -> (j < num)%nat -> alloc m' (sOd, [i; j]) = true).
    { intros m' j D Hj. apply (alN m' sOd [k; w]); [congruence|]. split; [exact (Nat.lt_le_trans _ _ _ Hi Hk)|split; [exact (Nat.lt_le_trans _ _ _ Hj Hw)|exact I]]. }
    set (x := nth i rs 0 - h * IZR (Z.of_nat (cel i))).
    set (q := cel i) in *.
    apply wp_bind. apply (lanes_wp pi sOv i _ (fun j => hc q 0 j)); auto; [discriminate| |].
    { intros j pj Hj C P. apply c_at_ok; auto; try lia. apply wp_put_; auto. apply va_store_eq. }
    intros m1 I1 D1 O1 V1 T1.
    apply wp_bind. apply (lanes_wp pi sOv i _ (fun j => hc q 0 j + hc q 1 j * x)); auto; [discriminate| |].
    { intros j pj Hj C P. apply c_at_ok; auto; try lia. apply wp_plus_; auto. rewrite va_store_eq, V1 by auto. reflexivity. }
    intros m2 I2 D2 O2 V2 T2. rewrite D1 in D2.
    apply wp_bind. apply (lanes_wp pi sOv i _ (fun j => hc q 0 j + hc q 1 j * x + hc q 2 j * (x * x))); auto; [discriminate| |].
    { intros j pj Hj C P. apply c_at_ok; auto; try lia. apply wp_plus_; auto. rewrite va_store_eq, V2 by auto. reflexivity. }
    intros m3 I3 D3 O3 V3 T3. rewrite D2 in D3.
    apply wp_bind. apply (lanes_wp pi sOv i _ (fun j => hc q 0 j + hc q 1 j * x + hc q 2 j * (x * x) + hc q 3 j * (x * x * x))); auto; [discriminate| |].
    { intros j pj Hj C P. apply c_at_ok; auto; try lia. apply wp_plus_; auto. rewrite va_store_eq, V3 by auto. reflexivity. }
    intros m4 I4 D4 O4 V4 T4. rewrite D3 in D4.
    apply wp_bind. apply (lanes_wp pi sOd i _ (fun j => hc q 1 j)); auto; [discriminate| |].
    { intros j pj Hj C P. apply c_at_ok; auto; try lia. apply wp_put_; auto. apply va_store_eq. }
    intros m5 I5 D5 O5 V5 T5. rewrite D4 in D5.
    apply wp_bind. apply (lanes_wp pi sOd i _ (fun j => hc q 1 j + hc q 2 j * (2 * x))); auto; [discriminate| |].
    { intros j pj Hj C P. apply c_at_ok; auto; try lia. apply wp_plus_; auto. rewrite va_store_eq, V5 by auto. reflexivity. }
    intros m6 I6 D6 O6 V6 T6. rewrite D5 in D6.
    apply (lanes_wp pi sOd i _ (fun j => hc q 1 j + hc q 2 j * (2 * x) + hc q 3 j * (3 * (x * x)))); auto; [discriminate| |].
    { intros j pj Hj C P. apply c_at_ok; auto; try lia. apply wp_plus_; auto. rewrite va_store_eq, V6 by auto. reflexivity. }
    intros m7 I7 D7 O7 V7 T7. rewrite D6 in D7.
    assert (NV : forall j, fst (sOv, [i; j]) <> sOd) by (intros j; discriminate).
    assert (ND : forall j, fst (sOd, [i; j]) <> sOv) by (intros j; discriminate).
    intros c _ O i' j. split; intros ->; injection O as ->; split; intros Hj.
    + rewrite O7, O6, O5, V4 by auto. unfold sval, x, q. rewrite INR_IZR_INZ. cbn. ring.
    + rewrite O7, O6, O5, T4, T3, T2, T1 by auto. reflexivity.
    + rewrite V7 by auto. unfold sder, x, q. rewrite INR_IZR_INZ. cbn. ring.
    + rewrite T7, T6, T5, O4, O3, O2, O1 by auto. reflexivity.
  - intros m' D P1 P2 P3. apply HQ; auto.
    + eapply is_set_dims; eauto.
    + intros i j Hi Hj. split.
      * exact (proj1 (proj1 (P1 (sOv, [i; j]) i eq_refl eq_refl Hi i j) eq_refl) Hj).
      * exact (proj1 (proj2 (P1 (sOd, [i; j]) i eq_refl eq_refl Hi i j) eq_refl) Hj).
    + intros i j H. destruct (le_lt_dec (length rs) i) as [Hi|Hi].
      * split; [exact (P2 (sOv, [i; j]) i eq_refl eq_refl Hi)|exact (P2 (sOd, [i; j]) i eq_refl eq_refl Hi)].
      * destruct H as [H|H]; [exfalso; lia|]. split.
        -- exact (proj2 (proj1 (P1 (sOv, [i; j]) i eq_refl eq_refl Hi i j) eq_refl) H).
        -- exact (proj2 (proj2 (P1 (sOd, [i; j]) i eq_refl eq_refl Hi i j) eq_refl) H).
Qed.
End Eval.
