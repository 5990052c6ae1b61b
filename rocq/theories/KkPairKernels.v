(** The kernels of the Kokkos pair style that add up energies, forces and virial.  Used in proofs only. *)
From Coq Require Import List Arith ZArith Bool Lia Reals Lra FunctionalExtensionality.
From Verif Require Import Base BaseLemmas Segs Instances RSums MaceModel Sys SysLoops MacePure MaceStages1 AseGrad PairModel PairTally.
From Verif Require Import KkSem KkSound KkWp KkWp2 KkModel KkHost KkTac KkK1 KkK2 KkK3 KkPairModel.
Import ListNotations.
Local Open Scope R_scope.

Lemma nodup6 (c : list nat) : NoDup [c ++ [0]; c ++ [1]; c ++ [2]; c ++ [3]; c ++ [4]; c ++ [5]]%nat.
Proof.
  change (NoDup (map (fun q => c ++ [q]) [0; 1; 2; 3; 4; 5]%nat)).
  apply FinFun.Injective_map_NoDup; [intros a b E; apply app_inv_head in E; congruence|].
  repeat (constructor; [cbn; lia|]). constructor.
Qed.
Lemma wp_red6 (pi : perms) own acc Sp add c n body (f : nat -> nat -> R) m (Q : R * R * R * (R * R * R) -> rmem -> Prop) :
  let cs := [c ++ [0]; c ++ [1]; c ++ [2]; c ++ [3]; c ++ [4]; c ++ [5]]%nat in
  (forall q, (q < 6)%nat -> pi (bScr, c ++ [q]) = POwn /\ own (bScr, c ++ [q]) = None /\ acc (bScr, c ++ [q]) = false) ->
  (forall j, (j < n)%nat -> wp (kd (hide cs pi) own acc j) (body j) (puts0 cs m) (fun v m' =>
     v = (f j 0%nat, f j 1%nat, f j 2%nat, (f j 3%nat, f j 4%nat, f j 5%nat)) /\ kpost (hide cs pi) own acc Sp add m j m')) ->
  (forall m', rpost pi own acc Sp add cs m n m' ->
     let t q := rsum n (fun j => f j q) in Q (t 0%nat, t 1%nat, t 2%nat, (t 3%nat, t 4%nat, t 5%nat)) m') ->
  wp pi (par_reduce6 (N:=RNum) c n body) m Q.
Proof.
  intros cs P HB HQ. unfold par_reduce6.
  destruct (P 0%nat ltac:(lia)) as (P0 & O0 & A0). destruct (P 1%nat ltac:(lia)) as (P1 & O1 & A1).
  destruct (P 2%nat ltac:(lia)) as (P2 & O2 & A2). destruct (P 3%nat ltac:(lia)) as (P3 & O3 & A3).
  destruct (P 4%nat ltac:(lia)) as (P4 & O4 & A4). destruct (P 5%nat ltac:(lia)) as (P5 & O5 & A5).
  do 6 (apply wp_put; auto).
  apply wp_bind.
  match goal with |- wp _ _ _ ?K_ =>
  change (wp pi (par_for (N:=RNum) n (fun j => pbind (body j) (fun v => adds_ cs [fst (fst (fst v)); snd (fst (fst v)); snd (fst v); fst (fst (snd v)); snd (fst (snd v)); snd (snd v)]))) (puts0 cs m) K_) end.
  apply (wp_reduce_gen (R * R * R * (R * R * R)) pi own acc Sp add cs n body
    (fun v => [fst (fst (fst v)); snd (fst (fst v)); snd (fst v); fst (fst (snd v)); snd (fst (snd v)); snd (snd v)])
    (fun j x => f j (last x 0%nat))).
  - apply nodup6.
  - intros x [<-|[<-|[<-|[<-|[<-|[<-|[]]]]]]]; auto.
  - intros j Hj. eapply wp_conseq; [apply HB; auto|]. intros v m' [-> H]. split; auto.
    unfold cs. cbn [map fst snd]. rewrite !last_last. reflexivity.
  - intros m' D V1 S1 S2 S3.
    apply wp_get; auto; [rewrite P0; auto|]. apply wp_get; auto; [rewrite P1; auto|]. apply wp_get; auto; [rewrite P2; auto|].
    apply wp_get; auto; [rewrite P3; auto|]. apply wp_get; auto; [rewrite P4; auto|]. apply wp_get; auto; [rewrite P5; auto|].
    apply wp_ret.
    assert (V : forall q, (q < 6)%nat -> va m' (bScr, c ++ [q]) = rsum n (fun j => f j q)).
    { intros q Hq. rewrite (V1 (c ++ [q]%nat)); [rewrite last_last; reflexivity|]. unfold cs.
      destruct q as [|[|[|[|[|[|]]]]]]; try lia; cbn [In]; auto 8. }
    rewrite !V by lia. apply (HQ m'). repeat split; auto; apply S2 || apply S3.
Qed.

(** the result of a reduction stays in its scratch cell *)
Lemma wp_red1c (pi : perms) c n body (f : nat -> R) m (Q : R -> rmem -> Prop) :
  pi (bScr, c) = POwn ->
  (forall j, (j < n)%nat -> wp (kd (hide [c] pi) nown none_ j) (body j) (puts0 [c] m) (fun v _ => v = f j)) ->
  (forall m', dims m' = dims m -> va m' (bScr, c) = rsum n f -> (forall x, scrs [c] x = false -> va m' x = va m x) -> Q (rsum n f) m') ->
  wp pi (par_reduce (N:=RNum) c n body) m Q.
Proof.
  intros P HB HQ. unfold par_reduce. apply wp_put; auto.
  apply wp_bind.
  change (wp pi (par_for (N:=RNum) n (fun j => pbind (body j) (fun v => adds_ [c] [v]))) (puts0 [c] m)
    (fun _ m' => wp pi (get (N:=RNum) bScr c) m' Q)).
  apply (wp_reduce_gen R pi nown none_ tsp nadd_ [c] n body (fun v => [v]) (fun j _ => f j)).
  - repeat constructor; auto.
  - intros x [<-|[]]. auto.
  - intros j Hj. eapply wp_conseq; [apply HB; auto|]. intros v m' ->. split; auto. apply kpost_none.
  - intros m' D V1 S1 S2 S3. apply wp_get_; auto.
    + rewrite P. auto.
    + rewrite (V1 c) by (left; auto). apply HQ; auto. rewrite (V1 c) by (left; auto). reflexivity.
      intros x Hx. apply S3; auto. apply idle_none.
Qed.

Section Tal.
Variables (n : nat) (NI NN NJ : list nat) (X : list RNum) (na : nat).
Notation eo ii := (list_sum (firstn ii NN)).
Notation E := (list_sum NN).
Hypothesis HNI : length NI = n.
Hypothesis HNN : length NN = n.
Hypothesis HNJ : length NJ = E.
Hypothesis HX : length X = (3 * E)%nat.
Hypothesis HI : forall i, In i NI -> (i < na)%nat.
Hypothesis HJ : forall j, In j NJ -> (j < na)%nat.
Notation FN := (tab n (fun ii => list_sum (firstn ii NN))).
Notation nn ii := (nth ii NN 0%nat).

Lemma rsum_blocks g : rsum E g = rsum n (fun ii => rsum (nn ii) (fun jj => g (eo ii + jj)%nat)).
Proof.
  clear HNI HNJ HX HI HJ. assert (G : forall k, (k <= n)%nat -> rsum (eo k) g = rsum k (fun ii => rsum (nn ii) (fun jj => g (eo ii + jj)%nat))).
  { induction k as [|k IH]; intros Hk; [reflexivity|]. rewrite psum_S by lia. rewrite rsum_add, IH, rsum_S by lia. reflexivity. }
  rewrite <- G by lia. rewrite firstn_all2 by lia. reflexivity.
Qed.
Lemma q_in ii jj : (ii < n)%nat -> (jj < nn ii)%nat -> (eo ii + jj < E)%nat.
Proof. intros Hi Hj. pose proof (psum_le NN ii ltac:(lia)). lia. Qed.

(** ** energy *)
Lemma k_energy m ne : cov m bE [ne] ->
  wp top (energy_reduction (N:=RNum) ne) m (fun _ m' => keep (o_1 bScr) m m' /\ va m' (bScr, []) = rsum ne (fun i => va m (bE, [i]))).
Proof.
  intros C. unfold energy_reduction. apply wp_bind.
  apply (wp_red1c top [] ne _ (fun i => va m (bE, [i]))).
  - reflexivity.
  - intros j Hj. apply wp_get_; [look|al|]. vap. reflexivity.
  - intros m' D V F. apply wp_ret. split; [|exact V]. split; [exact D|]. intros b idx Hb. apply F. destruct b; try discriminate Hb; reflexivity.
Qed.

(** ** energies of the atoms *)
Definition ae_own (c : cell) : option nat := match c with (bLe, [i]) => Some i | _ => None end.
Definition ae_sp (m : rmem) (c : cell) (v : R) : Prop := match c with (bLe, [i]) => v = va m (bLe, [i]) + va m (bE, [i]) | _ => True end.
Lemma k_eatom m ne : cov m bE [ne] -> cov m bLe [ne] ->
  wp top (atomic_energies (N:=RNum) ne) m (fun _ m' => keep (o_1 bLe) m m' /\
    (forall i, (i < ne)%nat -> va m' (bLe, [i]) = va m (bLe, [i]) + va m (bE, [i])) /\
    (forall i, (ne <= i)%nat -> va m' (bLe, [i]) = va m (bLe, [i])) /\ va m' (bScr, []) = va m (bScr, [])).
Proof.
  intros C1 C2. unfold atomic_energies. apply (wp_pfor top ae_own none_ (ae_sp m) nadd_).
  - intros i Hi. apply wp_get; [look|al|]. apply wp_plus_; [look|al|]. apply kpost_own. intros c P O.
    cell1 c O x. apply some_inj in O. subst x. unfold ae_sp. rewrite va_store_eq. reflexivity.
  - intros m' (D & P1 & P2 & _ & P4). split; [keepv P4|]. split.
    + intros i Hi. apply (P1 (bLe, [i]) i); auto.
    + split; [intros i Hi; apply (P2 (bLe, [i]) i); auto|]. apply P4. split; reflexivity.
Qed.

(** ** forces *)
Notation F m p := (va m (bF, [p%nat])).
Definition fr_own (c : cell) : option nat := match c with (bScr, i :: _) => Some i | _ => None end.
Definition fr_acc (c : cell) : bool := match c with (bLf, _) => true | _ => false end.
Definition fr_add2 (m : rmem) (q : nat) (c : cell) : R :=
  at_cell c (bLf, [nth q NJ 0%nat; 0%nat]) (F m (3 * q)) + at_cell c (bLf, [nth q NJ 0%nat; 1%nat]) (F m (3 * q + 1)) +
  at_cell c (bLf, [nth q NJ 0%nat; 2%nat]) (F m (3 * q + 2)).
Definition fr_add (m : rmem) (ii : nat) (c : cell) : R :=
  rsum (nn ii) (fun jj => fr_add2 m (eo ii + jj) c) +
  (at_cell c (bLf, [nth ii NI 0%nat; 0%nat]) (- rsum (nn ii) (fun jj => F m (3 * (eo ii + jj)))) +
   at_cell c (bLf, [nth ii NI 0%nat; 1%nat]) (- rsum (nn ii) (fun jj => F m (3 * (eo ii + jj) + 1))) +
   at_cell c (bLf, [nth ii NI 0%nat; 2%nat]) (- rsum (nn ii) (fun jj => F m (3 * (eo ii + jj) + 2)))).
Lemma fr_inv c : fr_acc c = true -> exists idx, c = (bLf, idx).
Proof. destruct c as [b idx]; destruct b; try discriminate. eauto. Qed.
Lemma k_force0 m : cov m bF [(3 * E)%nat] -> cov m bLf [na; 3%nat] ->
  wp top (force_reduction (N:=RNum) n NI NN FN NJ) m (fun _ m' => keep (o_1 bLf) m m' /\
    va m' (bScr, []) = va m (bScr, []) /\
    forall idx, va m' (bLf, idx) = va m (bLf, idx) + rsum n (fun ii => fr_add m ii (bLf, idx))).
Proof.
  intros C1 C2. unfold force_reduction.
  apply (wp_pfor top fr_own fr_acc tsp (fr_add m)).
  - intros ii Hii. assert (Bi : (nth ii NI 0 < na)%nat) by (apply HI, nth_In; lia).
    eapply wp_lift; [apply (rd_some NI ii 0%nat); lia|]. eapply wp_lift; [apply (rd_some NN ii 0%nat); lia|].
    apply wp_bind.
    apply (wp_red3 _ nown fr_acc tsp (fun jj => fr_add2 m (eo ii + jj)) [ii] (nn ii) _
      (fun jj => F m (3 * (eo ii + jj))) (fun jj => F m (3 * (eo ii + jj) + 1)) (fun jj => F m (3 * (eo ii + jj) + 2))).
    + intros q Hq. split; [look|]. split; reflexivity.
    + intros jj Hjj. eapply wp_lift; [apply rd_tab; exact Hii|]. cbv zeta. set (q := (eo ii + jj)%nat).
      assert (Hq : (q < E)%nat) by (apply q_in; auto). assert (Bj : (nth q NJ 0 < na)%nat) by (apply HJ, nth_In; lia).
      eapply wp_lift; [apply (rd_some NJ q 0%nat); lia|].
      apply wp_get; [look|al|]. apply wp_get; [look|al|]. apply wp_get; [look|al|]. apply wp_get; [look|al|].
      apply wp_add; [look|al|]. apply wp_get; [look|al|]. apply wp_add; [look|al|]. apply wp_get; [look|al|]. apply wp_add; [look|al|].
      apply wp_ret. split.
      * vap. reflexivity.
      * split; [intros; exact Logic.I|]. intros c [Ac _]. destruct (fr_inv c Ac) as (idx & ->).
        rewrite !(va_add_at _ _ _ (bLf, idx)). rewrite !va_store_ne by discriminate. vap. unfold fr_add2. rewrite !Rplus_assoc. reflexivity.
    + intros m2 (D2 & _ & A2 & _).
      apply wp_add; [look|al|]. apply wp_add; [look|al|]. apply wp_add_; [look|al|].
      split; [intros; exact Logic.I|]. intros c [Ac _]. destruct (fr_inv c Ac) as (idx & ->).
      rewrite !va_add_at. rewrite A2 by (split; [reflexivity|left; reflexivity]). unfold fr_add.
      change (@nopp RNum) with Ropp. rewrite !Rplus_assoc. reflexivity.
  - intros m' (D & _ & _ & A1 & P4). split.
    + split; [assumption|]. intros b idx Hb. apply P4. unfold idle. lcbn. destruct b; try discriminate Hb; split; reflexivity.
    + split; [apply P4; split; reflexivity|]. intros idx. apply A1. split; [reflexivity|right; split; reflexivity].
Qed.

Lemma at_row k c j d v : at_cell (bLf, [k; c]) (bLf, [j; d]) v = v * (ind d c * ind j k).
Proof.
  unfold ind. destruct (Nat.eqb_spec d c) as [->|H1]; [destruct (Nat.eqb_spec j k) as [->|H2]|].
  - rewrite at_eq. ring.
  - rewrite at_ne by congruence. ring.
  - rewrite at_ne by congruence. ring.
Qed.
Lemma k_force m : cov m bF [(3 * E)%nat] -> cov m bLf [na; 3%nat] ->
  wp top (force_reduction (N:=RNum) n NI NN FN NJ) m (fun _ m' => keep (o_1 bLf) m m' /\
    va m' (bScr, []) = va m (bScr, []) /\
    forall k c, (c < 3)%nat -> va m' (bLf, [k; c]) = va m (bLf, [k; c]) +
      rsum E (fun q => F m (3 * q + c) * (ind (nth q NJ 0%nat) k - ind (nth q (eow NI NN) 0%nat) k))).
Proof.
  intros C1 C2. eapply wp_conseq; [apply k_force0; auto|]. cbn beta. intros _ m' (KP & KS & V). split; [exact KP|]. split; [exact KS|].
  intros k c Hc. rewrite V. f_equal. rewrite rsum_blocks. apply rsum_ext. intros ii Hii. unfold fr_add, fr_add2.
  rewrite !at_row.
  transitivity (rsum (nn ii) (fun jj => F m (3 * (eo ii + jj) + c) * ind (nth (eo ii + jj) NJ 0%nat) k)
     - rsum (nn ii) (fun jj => F m (3 * (eo ii + jj) + c)) * ind (nth ii NI 0%nat) k).
  - unfold Rminus. f_equal.
    + apply rsum_ext. intros jj _. rewrite !at_row. destruct c as [|[|[|]]]; [| | |lia]; unfold ind at 1 3 5; cbn [Nat.eqb]; rewrite ?Nat.add_0_r; ring.
    + destruct c as [|[|[|]]]; [| | |lia]; unfold ind at 1 3 5; cbn [Nat.eqb].
      * rewrite (rsum_ext _ (fun jj => F m (3 * (eo ii + jj) + 0)) (fun jj => F m (3 * (eo ii + jj)))) by (intros; rewrite Nat.add_0_r; reflexivity). ring.
      * ring.
      * ring.
  - rewrite <- rsum_scal_r, <- rsum_minus. apply rsum_ext. intros jj Hjj. rewrite nth_eow by lia. ring.
Qed.

(** ** virial *)
Definition vt (m : rmem) (q k : nat) : R :=
  let x c := nth (3 * q + c) X 0 in let f c := F m (3 * q + c) in
  match k with
  | 0%nat => x 0%nat * f 0%nat | 1%nat => x 1%nat * f 1%nat | 2%nat => x 2%nat * f 2%nat
  | 3%nat => / 2 * (x 0%nat * f 1%nat + x 1%nat * f 0%nat)
  | 4%nat => / 2 * (x 0%nat * f 2%nat + x 2%nat * f 0%nat)
  | _ => / 2 * (x 1%nat * f 2%nat + x 2%nat * f 1%nat)
  end.
Definition vi_acc (c : cell) : bool := match c with (bLv, _) => true | _ => false end.
Definition vi_add (m : rmem) (ii : nat) (c : cell) : R :=
  let t k := rsum (nn ii) (fun jj => vt m (eo ii + jj) k) in
  at_cell c (bLv, [0%nat]) (t 0%nat) + (at_cell c (bLv, [1%nat]) (t 1%nat) + (at_cell c (bLv, [2%nat]) (t 2%nat) +
  (at_cell c (bLv, [3%nat]) (t 3%nat) + (at_cell c (bLv, [4%nat]) (t 4%nat) + at_cell c (bLv, [5%nat]) (t 5%nat))))).
Lemma vi_inv c : vi_acc c = true -> exists idx, c = (bLv, idx).
Proof. destruct c as [b idx]; destruct b; try discriminate. eauto. Qed.
Lemma half : nlit (n:=RNum) 1 2 = / 2.
Proof. change (nlit (n:=RNum) 1 2) with (IZR 1 / IZR (Z.pos 2)). apply Rmult_1_l. Qed.
Lemma k_virial m : cov m bF [(3 * E)%nat] -> cov m bLv [6%nat] ->
  wp top (virial_reduction (N:=RNum) n NI NN FN X) m (fun _ m' => keep (o_1 bLv) m m' /\
    va m' (bScr, []) = va m (bScr, []) /\
    forall k, (k < 6)%nat -> va m' (bLv, [k]) = va m (bLv, [k]) + rsum E (fun q => vt m q k)).
Proof.
  intros C1 C2. unfold virial_reduction.
  apply (wp_pfor top fr_own vi_acc tsp (vi_add m)).
  - intros ii Hii.
    eapply wp_lift; [apply (rd_some NI ii 0%nat); lia|]. eapply wp_lift; [apply (rd_some NN ii 0%nat); lia|].
    apply wp_bind.
    apply (wp_red6 _ nown none_ tsp nadd_ [ii] (nn ii) _ (fun jj k => vt m (eo ii + jj) k)).
    + intros q Hq. split; [look|]. split; reflexivity.
    + intros jj Hjj. eapply wp_lift; [apply rd_tab; exact Hii|]. cbv zeta. set (q := (eo ii + jj)%nat).
      assert (Hq : (q < E)%nat) by (apply q_in; auto).
      eapply wp_lift; [apply (rd_some X (3 * q) (0:R)); lia|]. eapply wp_lift; [apply (rd_some X (3 * q + 1) (0:R)); lia|].
      eapply wp_lift; [apply (rd_some X (3 * q + 2) (0:R)); lia|].
      apply wp_get; [look|al|]. apply wp_get; [look|al|]. apply wp_get; [look|al|].
      apply wp_ret. split; [|apply kpost_none].
      rewrite half. vap. unfold vt. rewrite !Nat.add_0_r. reflexivity.
    + intros m2 (D2 & _ & _ & V2).
      assert (F2 : forall idx, va m2 (bLv, idx) = va m (bLv, idx)) by (intros; apply V2; [apply idle_none|reflexivity]).
      cbv zeta.
      apply wp_add; [look|al|]. apply wp_add; [look|al|]. apply wp_add; [look|al|].
      apply wp_add; [look|al|]. apply wp_add; [look|al|]. apply wp_add_; [look|al|].
      split; [intros; exact Logic.I|]. intros c [Ac _]. destruct (vi_inv c Ac) as (idx & ->).
      rewrite !va_add_at, F2. unfold vi_add. rewrite !Rplus_assoc. reflexivity.
  - intros m' (D & _ & _ & A1 & P4). split.
    + split; [assumption|]. intros b idx Hb. apply P4. unfold idle. lcbn. destruct b; try discriminate Hb; split; reflexivity.
    + split; [apply P4; split; reflexivity|]. intros k Hk. rewrite A1 by (split; [reflexivity|right; split; reflexivity]). f_equal. rewrite rsum_blocks. apply rsum_ext. intros ii _.
      unfold vi_add. destruct k as [|[|[|[|[|[|]]]]]]; [| | | | | |lia]; rewrite at_eq, ?at_ne by congruence; ring.
Qed.
End Tal.
