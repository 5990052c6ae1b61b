(** Splines over the reals: interpolation, differentiability across knots, domain. *)
From Coq Require Import List Arith ZArith Reals Lia Lra Bool.
From Coquelicot Require Import Coquelicot.
From Verif Require Import Base BaseLemmas Segs Instances SplineModel SplineProofs.
Import ListNotations.
Local Open Scope R_scope.

(** ** truncation *)
Lemma Int_part_unique x z : IZR z <= x < IZR z + 1 -> Int_part x = z.
Proof.
  intros [H1 H2]. destruct (base_Int_part x) as [A B].
  assert (Int_part x < z + 1)%Z by (apply lt_IZR; rewrite plus_IZR; lra).
  assert (z < Int_part x + 1)%Z by (apply lt_IZR; rewrite plus_IZR; lra). lia.
Qed.

Lemma Rtrunc_nonneg x : 0 <= x -> Rtrunc x = Int_part x.
Proof. intros H. unfold Rtrunc. destruct (Rle_dec 0 x); auto. contradiction. Qed.

Lemma trunc_cell h r i : 0 < h -> h * INR i <= r < h * INR (i + 1) -> Rtrunc (r / h) = Z.of_nat i.
Proof.
  intros Hh [H1 H2]. rewrite plus_INR in H2. simpl in H2.
  assert (Hx : INR i <= r / h < INR i + 1).
  { split; [apply Rle_div_r; lra | apply Rlt_div_l; lra]. }
  rewrite Rtrunc_nonneg by (pose proof (pos_INR i); lra).
  apply Int_part_unique. rewrite <- INR_IZR_INZ. exact Hx.
Qed.

Lemma cell_exists h r : 0 < h -> 0 <= r -> exists i, h * INR i <= r < h * INR (i + 1).
Proof.
  intros Hh Hr. assert (Hx : 0 <= r / h) by (apply Rle_div_r; lra).
  destruct (base_Int_part (r / h)) as [A B].
  assert (Hz : (-1 < Int_part (r / h))%Z) by (apply lt_IZR; simpl; lra).
  exists (Z.to_nat (Int_part (r / h))). rewrite plus_INR. simpl.
  rewrite INR_IZR_INZ, Z2Nat.id by lia.
  set (z := IZR (Int_part (r / h))) in *.
  assert (E : r = r / h * h) by (field; lra). split; nra.
Qed.

Lemma cell_lt h r i n : 0 < h -> h * INR i <= r < h * INR (i + 1) -> r < h * INR n -> (i < n)%nat.
Proof. intros Hh [H1 _] H2. apply INR_lt. nra. Qed.

(** ** the mathematical pieces *)
Definition piece (h : R) (v d : nat -> R) (i : nat) (r : R) : R := pval (N:=RNum) h v d i (r - h * INR i).
Definition dpiece (h : R) (v d : nat -> R) (i : nat) (r : R) : R := pder (N:=RNum) h v d i (r - h * INR i).

Ltac rnum := cbn [nadd nsub nmul ndiv nopp carrier RNum nlit] in *; unfold nofZ, nofnat, nzero, none in *;
  cbn [nlit RNum] in *.

Lemma piece_derive h v d i r : derivable_pt_lim (piece h v d i) r (dpiece h v d i r).
Proof.
  apply is_derive_Reals. unfold piece, dpiece, pval, pder.
  set (a0 := hco (N:=RNum) h v d 0 i). set (a1 := hco (N:=RNum) h v d 1 i).
  set (a2 := hco (N:=RNum) h v d 2 i). set (a3 := hco (N:=RNum) h v d 3 i).
  clearbody a0 a1 a2 a3. rnum. auto_derive; auto. field.
Qed.

Lemma piece_left h v d i : h <> 0 ->
  piece h v d i (h * INR i) = v i /\ dpiece h v d i (h * INR i) = d i.
Proof.
  intros Hh. unfold piece, dpiece, pval, pder, hco. rnum.
  replace (h * INR i - h * INR i) with 0 by ring. split; field; auto.
Qed.

Lemma piece_right h v d i : h <> 0 ->
  piece h v d i (h * INR (i + 1)) = v (i+1)%nat /\ dpiece h v d i (h * INR (i + 1)) = d (i+1)%nat.
Proof.
  intros Hh. unfold piece, dpiece, pval, pder, hco. rnum.
  rewrite plus_INR. simpl INR.
  replace (h * (INR i + 1) - h * INR i) with h by ring. split; field; auto.
Qed.

Lemma derivable_glue f g1 g2 a l del :
  0 < del ->
  (forall t, a - del < t <= a -> f t = g1 t) ->
  (forall t, a <= t < a + del -> f t = g2 t) ->
  derivable_pt_lim g1 a l -> derivable_pt_lim g2 a l -> derivable_pt_lim f a l.
Proof.
  intros Hd E1 E2 H1 H2 eps Heps.
  destruct (H1 eps Heps) as [d1 D1]. destruct (H2 eps Heps) as [d2 D2].
  assert (Hm : 0 < Rmin del (Rmin d1 d2)).
  { repeat apply Rmin_pos; auto; apply cond_pos. }
  exists (mkposreal _ Hm). intros x Hx Hlt. simpl in Hlt.
  assert (Hx1 : Rabs x < del) by (eapply Rlt_le_trans; [exact Hlt|apply Rmin_l]).
  assert (Hx2 : Rabs x < Rmin d1 d2) by (eapply Rlt_le_trans; [exact Hlt|apply Rmin_r]).
  assert (Hx3 : Rabs x < d1) by (eapply Rlt_le_trans; [exact Hx2|apply Rmin_l]).
  assert (Hx4 : Rabs x < d2) by (eapply Rlt_le_trans; [exact Hx2|apply Rmin_r]).
  apply Rabs_def2 in Hx1.
  destruct (Rle_dec 0 x) as [Hp|Hn].
  - rewrite (E2 (a + x)), (E2 a) by lra. apply D2; auto.
  - rewrite (E1 (a + x)), (E1 a) by lra. apply D1; auto.
Qed.

(** [f] is the spline on [0,m*h): on every cell it is the corresponding piece *)
Definition is_spline_on (h : R) (v d : nat -> R) (m : nat) (f : R -> R) : Prop :=
  forall i r, (i < m)%nat -> h * INR i <= r < h * INR (i + 1) -> f r = piece h v d i r.

Lemma spline_derivable h v d m f i r :
  0 < h -> is_spline_on h v d m f -> (i < m)%nat -> h * INR i <= r < h * INR (i + 1) -> 0 < r ->
  derivable_pt_lim f r (dpiece h v d i r).
Proof.
  intros Hh Hf Hi [Hr1 Hr2] Hpos.
  assert (Hi1 : INR (i+1) = INR i + 1) by (rewrite plus_INR; simpl; lra).
  destruct (Rle_lt_or_eq_dec _ _ Hr1) as [Hlt|Heq].
  - (* interior of the cell *)
    apply derivable_glue with (g1 := piece h v d i) (g2 := piece h v d i)
       (del := Rmin (r - h * INR i) (h * INR (i+1) - r)).
    + apply Rmin_pos; lra.
    + intros t Ht. apply Hf; auto.
      pose proof (Rmin_l (r - h * INR i) (h * INR (i+1) - r)). lra.
    + intros t Ht. apply Hf; auto.
      pose proof (Rmin_r (r - h * INR i) (h * INR (i+1) - r)). lra.
    + apply piece_derive.
    + apply piece_derive.
  - (* knot *)
    destruct i as [|i]; [simpl in Heq; lra|].
    apply derivable_glue with (g1 := piece h v d i) (g2 := piece h v d (S i)) (del := h).
    + auto.
    + intros t Ht. rewrite S_INR in *.
      destruct (Rle_lt_or_eq_dec _ _ (proj2 Ht)) as [Ht'|Ht'].
      * apply Hf; [lia|]. rewrite plus_INR. simpl. nra.
      * rewrite (Hf (S i)); auto.
        -- rewrite Ht', <- Heq. rewrite <- S_INR.
           rewrite (proj1 (piece_left h v d (S i) ltac:(lra))).
           pose proof (proj1 (piece_right h v d i ltac:(lra))) as P.
           replace (i+1)%nat with (S i) in P by lia. rewrite P. reflexivity.
        -- rewrite plus_INR, S_INR. simpl. nra.
    + intros t Ht. apply Hf; auto. rewrite plus_INR, S_INR in *. simpl. nra.
    + replace (dpiece h v d (S i) r) with (dpiece h v d i r).
      * apply piece_derive.
      * rewrite <- Heq. rewrite (proj2 (piece_left h v d (S i) ltac:(lra))).
        pose proof (proj2 (piece_right h v d i ltac:(lra))) as P.
        replace (i+1)%nat with (S i) in P by lia. rewrite P. reflexivity.
    + apply piece_derive.
Qed.

(** ** scalar splines *)
Lemma spl_ret (h : R) (vs ds : list R) (r : R) i : 0 < h ->
  h * INR i <= r < h * INR (i + 1) -> (i < length vs - 1)%nat ->
  let v := vfun (N:=RNum) vs in let d := vfun (N:=RNum) ds in
  cs_evaluate (N:=RNum) (spl (N:=RNum) h vs ds) r = Ret (piece h v d i r) /\
  cs_evaluate_deriv (N:=RNum) (spl (N:=RNum) h vs ds) r = Ret (piece h v d i r, dpiece h v d i r) /\
  cs_evaluate_deriv_divided (N:=RNum) (spl (N:=RNum) h vs ds) r = Ret (piece h v d i r, dpiece h v d i r / r).
Proof.
  intros Hh Hc Hi v d.
  pose proof (cs_all_ok (N:=RNum) h vs ds r i (trunc_cell h r i Hh Hc) Hi) as H.
  cbv zeta in H. rewrite RNum_ofnat in H. exact H.
Qed.

Lemma vfun_R (l : list R) i : vfun (N:=RNum) l i = nth i l 0.
Proof. unfold vfun. rewrite RNum_zero. reflexivity. Qed.

Lemma srow_R (l : list (list R)) j i : srow (N:=RNum) l j i = nth i (nth j l []) 0.
Proof. unfold srow. rewrite RNum_zero. reflexivity. Qed.

Lemma sval_pval (h : R) v d i x : sval (N:=RNum) h v d i x = pval (N:=RNum) h v d i x.
Proof. unfold sval, pval. rnum. ring. Qed.

Lemma sder_pder (h : R) v d i x : sder (N:=RNum) h v d i x = pder (N:=RNum) h v d i x.
Proof. unfold sder, pder. rnum. ring. Qed.

(** pieces are continuous: used for the left limits *)
Lemma piece_cont h v d i r : continuity_pt (piece h v d i) r.
Proof. apply derivable_continuous_pt. exists (dpiece h v d i r). apply piece_derive. Qed.

Lemma dpiece_cont h v d i r : continuity_pt (dpiece h v d i) r.
Proof.
  apply derivable_continuous_pt.
  unfold dpiece, pder.
  set (a1 := hco (N:=RNum) h v d 1 i).
  set (a2 := hco (N:=RNum) h v d 2 i). set (a3 := hco (N:=RNum) h v d 3 i).
  exists (2 * a2 + 6 * a3 * (r - h * INR i)).
  apply is_derive_Reals. clearbody a1 a2 a3. rnum. auto_derive; auto. field.
Qed.

Lemma cont_left f a l : f a = l -> continuity_pt f a ->
  forall eps, 0 < eps -> exists del, 0 < del /\ forall t, a - del < t < a -> Rabs (f t - l) < eps.
Proof.
  intros E H eps He. destruct (H eps He) as (del & Hd & Hb). exists del. split; auto.
  intros t Ht. rewrite <- E. apply (Hb t). split.
  - split; [exact I | lra].
  - unfold dist; simpl. unfold R_dist. rewrite Rabs_left by lra. lra.
Qed.

Ltac rlia := change (carrier RNum) with R in *; lia.

(** ** statements used by the property file *)
Definition ret_value (o : outcome R) : R := match o with Ret y => y | _ => 0 end.

Lemma spl_is_spline h vs ds : 0 < h ->
  is_spline_on h (vfun (N:=RNum) vs) (vfun (N:=RNum) ds) (length vs - 1)
    (fun t => ret_value (cs_evaluate (N:=RNum) (spl (N:=RNum) h vs ds) t)).
Proof.
  intros Hh i r Hi Hr. rewrite (proj1 (spl_ret h vs ds r i Hh Hr Hi)). reflexivity.
Qed.

Lemma lemma_C11 (h : R) (vs ds : list R) :
  0 < h -> (2 <= length vs)%nat -> length ds = length vs ->
  exists s, make_spline (N:=RNum) h vs ds = Some s /\
  (forall i, (i < length vs - 1)%nat ->
     cs_evaluate (N:=RNum) s (h * INR i) = Ret (nth i vs 0) /\
     cs_evaluate_deriv (N:=RNum) s (h * INR i) = Ret (nth i vs 0, nth i ds 0)) /\
  (forall i, (0 < i <= length vs - 1)%nat -> forall eps, 0 < eps ->
     exists del, 0 < del /\ forall r, h * INR i - del < r < h * INR i ->
       exists y y', cs_evaluate (N:=RNum) s r = Ret y /\
         cs_evaluate_deriv (N:=RNum) s r = Ret (y, y') /\
         Rabs (y - nth i vs 0) < eps /\ Rabs (y' - nth i ds 0) < eps).
Proof.
  intros Hh Hn Hd. exists (spl (N:=RNum) h vs ds).
  split; [apply make_spline_spec; rlia|]. split.
  - intros i Hi.
    assert (Hc : h * INR i <= h * INR i < h * INR (i + 1)) by (rewrite plus_INR; simpl; nra).
    destruct (spl_ret h vs ds _ i Hh Hc Hi) as (E1 & E2 & _).
    destruct (piece_left h (vfun (N:=RNum) vs) (vfun (N:=RNum) ds) i ltac:(lra)) as [P1 P2].
    rewrite E1, E2, P1, P2, !vfun_R. auto.
  - intros i Hi eps He. destruct i as [|i]; [rlia|].
    pose proof (piece_right h (vfun (N:=RNum) vs) (vfun (N:=RNum) ds) i ltac:(lra)) as [P1 P2].
    replace (i+1)%nat with (S i) in P1, P2 by rlia. rewrite vfun_R in P1, P2.
    destruct (cont_left _ _ _ P1 (piece_cont h _ _ i _) eps He) as (d1 & Hd1 & B1).
    destruct (cont_left _ _ _ P2 (dpiece_cont h _ _ i _) eps He) as (d2 & Hd2 & B2).
    exists (Rmin h (Rmin d1 d2)). split; [repeat apply Rmin_pos; auto|].
    intros r Hr.
    pose proof (Rmin_l h (Rmin d1 d2)). pose proof (Rmin_r h (Rmin d1 d2)).
    pose proof (Rmin_l d1 d2). pose proof (Rmin_r d1 d2).
    assert (Hc : h * INR i <= r < h * INR (i + 1)).
    { rewrite S_INR in Hr. rewrite plus_INR. simpl. nra. }
    destruct (spl_ret h vs ds _ i Hh Hc ltac:(rlia)) as (E1 & E2 & _).
    eexists; eexists. split; [exact E1|]. split; [exact E2|]. split.
    + apply B1. lra.
    + apply B2. lra.
Qed.

Lemma lemma_C12_scalar (h : R) (vs ds : list R) (r : R) :
  0 < h -> (2 <= length vs)%nat -> length ds = length vs -> 0 < r < h * INR (length vs - 1) ->
  exists s y y', make_spline (N:=RNum) h vs ds = Some s /\
    cs_evaluate_deriv (N:=RNum) s r = Ret (y, y') /\
    derivable_pt_lim (fun t => ret_value (cs_evaluate (N:=RNum) s t)) r y'.
Proof.
  intros Hh Hn Hd Hr. exists (spl (N:=RNum) h vs ds).
  destruct (cell_exists h r Hh ltac:(lra)) as (i & Hc).
  assert (Hi : (i < length vs - 1)%nat) by (apply (cell_lt h r); auto; lra).
  destruct (spl_ret h vs ds r i Hh Hc Hi) as (E1 & E2 & _).
  eexists; eexists. split; [apply make_spline_spec; rlia|]. split; [exact E2|].
  eapply spline_derivable; eauto; [apply spl_is_spline; auto|lra].
Qed.

Definition set_values (o : option (list R * list R)) : list R :=
  match o with Some (v, _) => v | None => [] end.

Lemma css_ret (h : R) (vs ds : list (list R)) n r i (a b : list R) :
  0 < h -> h * INR i <= r < h * INR (i + 1) -> (i < n - 1)%nat ->
  length a = length vs -> length b = length vs ->
  css_evaluate_derivs (N:=RNum) (splset (N:=RNum) h vs ds n) r a 0 b 0 =
  Some (tab (length vs) (fun j => piece h (srow (N:=RNum) vs j) (srow (N:=RNum) ds j) i r),
        tab (length vs) (fun j => dpiece h (srow (N:=RNum) vs j) (srow (N:=RNum) ds j) i r)).
Proof.
  intros Hh Hc Hi Ha Hb.
  pose proof (css_evaluate_derivs_ok (N:=RNum) h vs ds n r i [] a [] [] b []
     (trunc_cell h r i Hh Hc) Hi Ha Hb) as H.
  cbv zeta in H. cbn [app length] in H. rewrite !app_nil_r in H. rewrite H.
  rewrite RNum_ofnat. do 2 f_equal; apply tab_ext; intros j Hj.
  - apply sval_pval.
  - apply sder_pder.
Qed.

Lemma lemma_C12_set (h : R) (vs ds : list (list R)) n (r : R) (a b : list R) :
  0 < h -> (2 <= n)%nat -> (1 <= length vs)%nat -> length ds = length vs ->
  rect (N:=RNum) vs n -> rect (N:=RNum) ds n -> 0 < r < h * INR (n - 1) ->
  length a = length vs -> length b = length vs ->
  exists s V D, make_spline_set (N:=RNum) h vs ds = Some s /\
    css_evaluate_derivs (N:=RNum) s r a 0 b 0 = Some (V, D) /\
    length V = length vs /\ length D = length vs /\
    forall j, (j < length vs)%nat ->
      derivable_pt_lim (fun t => nth j (set_values (css_evaluate_derivs (N:=RNum) s t a 0 b 0)) 0) r (nth j D 0).
Proof.
  intros Hh Hn Hm Hd Hrv Hrd Hr Ha Hb. exists (splset (N:=RNum) h vs ds n).
  destruct (cell_exists h r Hh ltac:(lra)) as (i & Hc).
  assert (Hi : (i < n - 1)%nat) by (apply (cell_lt h r); auto; lra).
  eexists; eexists. split; [apply make_spline_set_spec; auto; rlia|].
  split; [apply css_ret; eauto|]. rewrite !length_tab. split; auto. split; auto.
  intros j Hj. rewrite nth_tab by auto.
  eapply spline_derivable with (m := (n-1)%nat); eauto; [|lra].
  intros i' r' Hi' Hc'. rewrite (css_ret h vs ds n r' i') by auto. cbn [set_values].
  rewrite nth_tab by auto. reflexivity.
Qed.

Lemma lemma_C13_gen {N : Num} (s : cubic_spline (N:=N)) (r : N) :
  match cs_evaluate_deriv s r with
  | Ret (y, d) => cs_evaluate s r = Ret y /\ cs_evaluate_deriv_divided s r = Ret (y, ndiv d r)
  | Throws => cs_evaluate s r = Throws /\ cs_evaluate_deriv_divided s r = Throws
  | UB => cs_evaluate s r = UB /\ cs_evaluate_deriv_divided s r = UB
  end.
Proof.
  unfold cs_evaluate, cs_evaluate_deriv, cs_evaluate_deriv_divided. cbv zeta.
  destruct (_ || _)%bool; auto.
  repeat match goal with |- context [rdZ ?l ?i] => destruct (rdZ l i); cbn [bind of_option]; auto end.
Qed.

Lemma lemma_C13_set (h : R) (vs ds : list (list R)) n (r : R) (a b : list R) j :
  0 < h -> (2 <= n)%nat -> length ds = length vs ->
  rect (N:=RNum) vs n -> rect (N:=RNum) ds n -> 0 <= r < h * INR (n - 1) ->
  length a = length vs -> length b = length vs -> (j < length vs)%nat ->
  exists S s V D V', make_spline_set (N:=RNum) h vs ds = Some S /\
    make_spline (N:=RNum) h (nth j vs []) (nth j ds []) = Some s /\
    css_evaluate_derivs (N:=RNum) S r a 0 b 0 = Some (V, D) /\
    css_evaluate (N:=RNum) S r a 0 = Some V' /\
    cs_evaluate (N:=RNum) s r = Ret (nth j V' 0) /\
    cs_evaluate_deriv (N:=RNum) s r = Ret (nth j V 0, nth j D 0).
Proof.
  intros Hh Hn Hd Hrv Hrd Hr Ha Hb Hj.
  destruct (cell_exists h r Hh ltac:(lra)) as (i & Hc).
  assert (Hi : (i < n - 1)%nat) by (apply (cell_lt h r); auto; lra).
  destruct (rect_rd (N:=RNum) vs n j Hrv Hj) as [_ Hlv].
  destruct (rect_rd (N:=RNum) ds n j Hrd ltac:(rlia)) as [_ Hld].
  exists (splset (N:=RNum) h vs ds n), (spl (N:=RNum) h (nth j vs []) (nth j ds [])).
  do 3 eexists. split; [apply make_spline_set_spec; auto; rlia|].
  split; [apply make_spline_spec; rlia|].
  split; [apply css_ret; eauto|].
  pose proof (css_evaluate_ok (N:=RNum) h vs ds n r i [] a []
     (trunc_cell h r i Hh Hc) Hi Ha) as H.
  cbv zeta in H. cbn [app length] in H. rewrite !app_nil_r in H. split; [exact H|].
  rewrite !nth_tab by auto.
  destruct (spl_ret h (nth j vs []) (nth j ds []) r i Hh Hc) as (E1 & E2 & _).
  { cbn [carrier RNum] in *. rlia. }
  rewrite E1, E2. rewrite RNum_ofnat. split; reflexivity.
Qed.

(** ** domain *)
Lemma trunc_small_neg h r : 0 < h -> - h < r < 0 -> Rtrunc (r / h) = 0%Z.
Proof.
  intros Hh Hr. unfold Rtrunc.
  assert (Hx : -1 < r / h < 0).
  { split; [apply Rlt_div_r; lra | apply Rlt_div_l; lra]. }
  destruct (Rle_dec 0 (r/h)); [lra|].
  rewrite (Int_part_unique _ 0); [reflexivity|simpl; lra].
Qed.

Lemma trunc_big_neg h r : 0 < h -> r <= - h -> (Rtrunc (r / h) < 0)%Z.
Proof.
  intros Hh Hr. unfold Rtrunc.
  assert (Hx : r / h <= -1) by (apply Rle_div_l; lra).
  destruct (Rle_dec 0 (r/h)); [lra|].
  destruct (base_Int_part (- (r/h))) as [A B].
  assert (0 < Int_part (- (r/h)))%Z by (apply lt_IZR; simpl; lra). rlia.
Qed.

Lemma trunc_ge h r m : 0 < h -> h * INR m <= r -> (Z.of_nat m <= Rtrunc (r / h))%Z.
Proof.
  intros Hh Hr. pose proof (pos_INR m).
  destruct (cell_exists h r Hh ltac:(nra)) as (i & Hc).
  rewrite (trunc_cell h r i Hh Hc).
  assert (m < i + 1)%nat by (apply INR_lt; nra). rlia.
Qed.

Lemma lemma_C14 (h : R) (vs ds : list R) (r : R) :
  0 < h -> (2 <= length vs)%nat -> length ds = length vs ->
  exists s, make_spline (N:=RNum) h vs ds = Some s /\
    (0 <= r < h * INR (length vs - 1) -> exists y, cs_evaluate (N:=RNum) s r = Ret y) /\
    (r <= - h \/ h * INR (length vs - 1) <= r -> cs_evaluate (N:=RNum) s r = Throws) /\
    cs_evaluate (N:=RNum) s r <> UB /\ cs_evaluate_deriv (N:=RNum) s r <> UB /\
    cs_evaluate_deriv_divided (N:=RNum) s r <> UB.
Proof.
  intros Hh Hn Hd. exists (spl (N:=RNum) h vs ds). split; [apply make_spline_spec; rlia|].
  assert (Hin : forall i, Rtrunc (r / h) = Z.of_nat i -> (i < length vs - 1)%nat ->
     (exists y, cs_evaluate (N:=RNum) (spl (N:=RNum) h vs ds) r = Ret y) /\
     cs_evaluate (N:=RNum) (spl (N:=RNum) h vs ds) r <> UB /\
     cs_evaluate_deriv (N:=RNum) (spl (N:=RNum) h vs ds) r <> UB /\
     cs_evaluate_deriv_divided (N:=RNum) (spl (N:=RNum) h vs ds) r <> UB).
  { intros i E Hi. destruct (cs_all_ok (N:=RNum) h vs ds r i E Hi) as (E1 & E2 & E3).
    rewrite E1, E2, E3. repeat split; try congruence. eexists; reflexivity. }
  assert (Hout : (Rtrunc (r / h) < 0 \/ Z.of_nat (length vs - 1) <= Rtrunc (r / h))%Z ->
     cs_evaluate (N:=RNum) (spl (N:=RNum) h vs ds) r = Throws /\
     cs_evaluate_deriv (N:=RNum) (spl (N:=RNum) h vs ds) r = Throws /\
     cs_evaluate_deriv_divided (N:=RNum) (spl (N:=RNum) h vs ds) r = Throws).
  { intros H. apply (cs_throws (N:=RNum)). exact H. }
  split; [|split].
  - intros Hr. destruct (cell_exists h r Hh ltac:(lra)) as (i & Hc).
    assert (Hi : (i < length vs - 1)%nat) by (apply (cell_lt h r); auto; lra).
    apply (proj1 (Hin i (trunc_cell h r i Hh Hc) Hi)).
  - intros Hr. apply Hout. destruct Hr as [Hr|Hr].
    + left. apply trunc_big_neg; auto.
    + right. apply trunc_ge; auto.
  - destruct (Z_lt_dec (Rtrunc (r / h)) 0) as [Hneg|Hpos].
    { destruct (Hout (or_introl Hneg)) as (-> & -> & ->). repeat split; congruence. }
    destruct (Z_le_dec (Z.of_nat (length vs - 1)) (Rtrunc (r / h))) as [Hbig|Hsm].
    { destruct (Hout (or_intror Hbig)) as (-> & -> & ->). repeat split; congruence. }
    apply (proj2 (Hin (Z.to_nat (Rtrunc (r/h))) ltac:(rlia) ltac:(rlia))).
Qed.

Lemma lemma_C14_neg (h : R) (vs ds : list R) (r : R) :
  0 < h -> (2 <= length vs)%nat -> length ds = length vs -> - h < r < 0 ->
  exists s y, make_spline (N:=RNum) h vs ds = Some s /\ cs_evaluate (N:=RNum) s r = Ret y.
Proof.
  intros Hh Hn Hd Hr. exists (spl (N:=RNum) h vs ds). eexists.
  split; [apply make_spline_spec; rlia|].
  apply (cs_all_ok (N:=RNum) h vs ds r 0 (trunc_small_neg h r Hh Hr)). rlia.
Qed.

Lemma rdZ_out {A} (l : list A) i : (i < 0 \/ Z.of_nat (length l) <= i)%Z -> rdZ l i = None.
Proof.
  intros H. unfold rdZ. destruct (Z.ltb_spec i 0); auto.
  apply nth_error_None. rlia.
Qed.

Lemma length_splset_c (h : R) vs ds n :
  length (css_c (splset (N:=RNum) h vs ds n)) = ((n - 1) * (4 * length vs))%nat.
Proof.
  cbn [splset css_c]. rewrite length_flat_map_const with (c := (4 * length vs)%nat).
  - rewrite seq_length. reflexivity.
  - intros. rewrite hset_tab, length_tab. reflexivity.
Qed.

Lemma lemma_C14_set (h : R) (vs ds : list (list R)) n (r : R) (a b : list R) :
  0 < h -> (2 <= n)%nat -> (1 <= length vs)%nat -> length ds = length vs ->
  rect (N:=RNum) vs n -> rect (N:=RNum) ds n -> h * INR (n - 1) <= r ->
  exists s, make_spline_set (N:=RNum) h vs ds = Some s /\
    css_evaluate (N:=RNum) s r a 0 = None /\
    css_evaluate_derivs (N:=RNum) s r a 0 b 0 = None.
Proof.
  intros Hh Hn Hm Hd Hrv Hrd Hr. exists (splset (N:=RNum) h vs ds n).
  split; [apply make_spline_set_spec; auto; rlia|].
  pose proof (trunc_ge h r (n-1) Hh Hr) as Ht.
  unfold css_evaluate, css_evaluate_derivs. cbv zeta.
  change (css_num (splset (N:=RNum) h vs ds n)) with (length vs).
  assert (E : exists m', length vs = S m') by (destruct (length vs) as [|m'] eqn:E; [rlia|eauto]).
  destruct E as [m' E].
  match goal with |- (bind (for_ ?n ?b a) _) = None /\ _ => assert (F : for_ n b a = None) end.
  { unfold for_. rewrite E at 1. cbn [for_from].
    rewrite rdZ_out; [reflexivity|]. right. rewrite length_splset_c.
    cbn [css_h splset ndiv ntrunc RNum]. change (carrier RNum) with R in *.
    set (t := Rtrunc (r / h)) in *. clearbody t.
    rewrite Nat2Z.inj_mul, Nat2Z.inj_mul. set (z := Z.of_nat (n - 1)) in *. clearbody z.
    assert (0 < Z.of_nat (length vs))%Z by lia. set (q := Z.of_nat (length vs)) in *. clearbody q.
    change (Z.of_nat 4) with 4%Z. change (Z.of_nat 0) with 0%Z. nia. }
  split.
  - rewrite F. reflexivity.
  - match goal with |- bind ?x _ = None => replace x with (@None (list R)) end. reflexivity.
Qed.

(** ** Kokkos guards *)

Lemma lemma_C45_ok (h : R) (vs ds : list R) (r : R) :
  0 < h -> (2 <= length vs)%nat -> length ds = length vs ->
  exists s, make_spline (N:=RNum) h vs ds = Some s /\ csk_evaluate (N:=RNum) s r <> UB /\
   (r < h * INR (length vs - 1) ->
     csk_evaluate_deriv (N:=RNum) s r <> UB /\ csk_evaluate_deriv_divided (N:=RNum) s r <> UB).
Proof.
  intros Hh Hn Hd. destruct (lemma_C14 h vs ds r Hh Hn Hd) as (s & Hs & _ & _ & N1 & N2 & N3).
  exists s. split; auto. split; [exact N1|]. intros Hr.
  assert (s = spl (N:=RNum) h vs ds) as ->.
  { rewrite make_spline_spec in Hs by rlia. congruence. }
  unfold csk_evaluate_deriv, csk_evaluate_deriv_divided, cs_evaluate_deriv, cs_evaluate_deriv_divided in *.
  cbv zeta in *. rewrite !length_spl_c4 in *.
  destruct (Z.ltb_spec (ntrunc (ndiv r (cs_h (spl (N:=RNum) h vs ds)))) 0) as [Hneg|Hpos].
  { cbn [orb]. split; congruence. }
  cbn [orb] in *.
  assert (Hlt : (ntrunc (ndiv r (cs_h (spl (N:=RNum) h vs ds))) < Z.of_nat (length vs - 1))%Z).
  { cbn [spl cs_h ndiv ntrunc RNum] in *.
    destruct (Rle_dec 0 r) as [H0|H0].
    - destruct (cell_exists h r Hh H0) as (i & Hc). rewrite (trunc_cell h r i Hh Hc).
      pose proof (cell_lt h r i _ Hh Hc Hr). rlia.
    - destruct (Rle_dec r (-h)) as [H1|H1].
      + pose proof (trunc_big_neg h r Hh H1). rlia.
      + rewrite (trunc_small_neg h r Hh) by lra. rlia. }
  assert (Hle := proj2 (Z.leb_gt _ _) Hlt). change (carrier RNum) with R in *.
  rewrite Hle in N2. rewrite Hle in N3.
  replace (Z.of_nat (length vs - 1) <? _)%Z with false by (symmetry; apply Z.ltb_ge; rlia).
  replace (Z.of_nat (length (cs_c (spl (N:=RNum) h vs ds))) <? _)%Z with false.
  - split; [exact N2|exact N3].
  - symmetry; apply Z.ltb_ge. cbn [spl cs_c]. rewrite length_hblocks. rlia.
Qed.

Lemma lemma_C45_bad (h : R) (vs ds : list R) (r : R) :
  0 < h -> (2 <= length vs)%nat -> length ds = length vs ->
  h * INR (length vs - 1) <= r < h * INR (length vs) ->
  exists s, make_spline (N:=RNum) h vs ds = Some s /\
    csk_evaluate (N:=RNum) s r = Throws /\
    csk_evaluate_deriv (N:=RNum) s r = UB /\ csk_evaluate_deriv_divided (N:=RNum) s r = UB.
Proof.
  intros Hh Hn Hd Hr. exists (spl (N:=RNum) h vs ds). split; [apply make_spline_spec; rlia|].
  assert (Ht : Rtrunc (r / h) = Z.of_nat (length vs - 1)).
  { apply trunc_cell; auto. replace (length vs - 1 + 1)%nat with (length vs) by rlia. exact Hr. }
  unfold csk_evaluate, csk_evaluate_deriv, csk_evaluate_deriv_divided. cbv zeta.
  rewrite !length_spl_c4.
  replace (ntrunc (ndiv r (cs_h (spl (N:=RNum) h vs ds)))) with (Z.of_nat (length vs - 1)) by (symmetry; exact Ht).
  replace (Z.of_nat (length vs - 1) <? 0)%Z with false by (symmetry; apply Z.ltb_ge; rlia).
  rewrite Z.leb_refl, Z.ltb_irrefl. cbn [orb].
  replace (Z.of_nat (length (cs_c (spl (N:=RNum) h vs ds))) <? Z.of_nat (length vs - 1))%Z with false.
  2:{ symmetry; apply Z.ltb_ge. cbn [spl cs_c]. rewrite length_hblocks. rlia. }
  rewrite rdZ_out.
  - auto.
  - right. cbn [spl cs_c]. rewrite length_hblocks. rlia.
Qed.

Lemma lemma_C13_set_bits {N : Num} (h : N) (vs ds : list (list N)) n (r : N) (a : list N) j i :
  length ds = length vs -> rect vs n -> rect ds n ->
  ntrunc (ndiv r h) = Z.of_nat i -> (i < n - 1)%nat ->
  length a = length vs -> (j < length vs)%nat ->
  exists S s V y, make_spline_set h vs ds = Some S /\
    make_spline h (nth j vs []) (nth j ds []) = Some s /\
    css_evaluate S r a 0 = Some V /\ nth_error V j = Some y /\ cs_evaluate s r = Ret y.
Proof.
  intros Hd Hrv Hrd Ht Hi Ha Hj.
  destruct (rect_rd vs n j Hrv Hj) as [_ Hlv].
  destruct (rect_rd ds n j Hrd ltac:(lia)) as [_ Hld].
  exists (splset h vs ds n), (spl h (nth j vs []) (nth j ds [])).
  do 2 eexists. split; [apply make_spline_set_spec; auto; lia|].
  split; [apply make_spline_spec; lia|].
  pose proof (css_evaluate_ok h vs ds n r i [] a [] Ht Hi Ha) as H.
  cbv zeta in H. cbn [app length] in H. rewrite !app_nil_r in H. split; [exact H|].
  split; [apply rd_tab; exact Hj|].
  apply (cs_all_ok h (nth j vs []) (nth j ds []) r i Ht). lia.
Qed.
