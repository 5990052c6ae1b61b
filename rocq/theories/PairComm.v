(** Ghost communication: forward brings every ghost its owner's data, reverse adds every ghost's adjoint to its owner. *)
From Coq Require Import List Arith ZArith Reals Lia Lra Bool Permutation.
From Verif Require Import Base BaseLemmas Instances RSums MaceGradSpec MaceForces AseGrad PairModel PairMpiModel PairCommSpec PairTally.
Import ListNotations.
Local Open Scope nat_scope.

Section Gen.
Context {N : Num}.
Variable W : nat.
Variable d : N.

Lemma idx_lt i k n : k < W -> i < n -> i * W + k < n * W.
Proof. nia. Qed.
Lemma idx_eq i k j m : k < W -> m < W -> i * W + k = j * W + m -> i = j /\ k = m.
Proof.
  intros Hk Hm E. assert (i = j).
  { replace i with ((i * W + k) / W) by (rewrite Nat.div_add_l, Nat.div_small by lia; lia).
    replace j with ((j * W + m) / W) by (rewrite Nat.div_add_l, Nat.div_small by lia; lia). rewrite E. reflexivity. }
  subst. split; [reflexivity|lia].
Qed.

(** copy rows: [dst] row [g ii] := [src] row [f ii] for all [ii < n] *)
Lemma copy_rows (f g : nat -> nat) (src : list N) n : (forall ii, ii < n -> (f ii + 1) * W <= length src) ->
  (forall a b, a < n -> b < n -> g a = g b -> a = b) ->
  forall dst, (forall ii, ii < n -> (g ii + 1) * W <= length dst) ->
  exists dst', for_ n (fun ii dst => for_ W (fun k dst => v <- rd src (f ii * W + k) ;; wr dst (g ii * W + k) v) dst) dst = Some dst' /\
    length dst' = length dst /\
    (forall ii k, ii < n -> k < W -> nth (g ii * W + k) dst' d = nth (f ii * W + k) src d) /\
    (forall s k, k < W -> (forall ii, ii < n -> g ii <> s) -> nth (s * W + k) dst' d = nth (s * W + k) dst d).
Proof.
  intros Hs Hinj dst0 Hd.
  destruct (for_inv (fun m dst => length dst = length dst0 /\
      (forall ii k, ii < m -> k < W -> nth (g ii * W + k) dst d = nth (f ii * W + k) src d) /\
      (forall s k, k < W -> (forall ii, ii < m -> g ii <> s) -> nth (s * W + k) dst d = nth (s * W + k) dst0 d)) n
    (fun ii dst => for_ W (fun k dst => v <- rd src (f ii * W + k) ;; wr dst (g ii * W + k) v) dst) dst0) as (dst' & E & H1 & H2 & H3).
  - repeat split; auto. intros; lia.
  - intros m dst Hm (L & A & B).
    destruct (for_inv (fun q dst' => length dst' = length dst0 /\
       (forall k, k < q -> nth (g m * W + k) dst' d = nth (f m * W + k) src d) /\
       (forall p, (forall k, k < q -> p <> g m * W + k) -> nth p dst' d = nth p dst d)) W
      (fun k dst => v <- rd src (f m * W + k) ;; wr dst (g m * W + k) v) dst) as (dst' & E & H1 & H2 & H3).
    + repeat split; auto. intros; lia.
    + intros q e Hq (Le & Ae & Be). pose proof (Hs m Hm). pose proof (Hd m Hm).
      rewrite (rd_some _ _ d) by nia. cbn [bind]. rewrite wr_some by nia. eexists. split; [reflexivity|].
      rewrite length_upd. split; [exact Le|]. split.
      * intros k Hk. rewrite nth_upd by nia. destruct (Nat.eqb_spec (g m * W + q) (g m * W + k)) as [E|Ne].
        -- assert (q = k) by lia. subst. reflexivity.
        -- apply Ae. assert (k <> q) by (intros ->; apply Ne; reflexivity). lia.
      * intros p Hp. rewrite nth_upd by nia. destruct (Nat.eqb_spec (g m * W + q) p) as [E|Ne].
        -- exfalso. apply (Hp q); lia.
        -- apply Be. intros k Hk. apply Hp. lia.
    + exists dst'. split; [exact E|]. split; [exact H1|]. split.
      * intros ii k Hii Hk. destruct (Nat.eq_dec ii m) as [->|Ne]; [apply H2; exact Hk|].
        rewrite H3; [apply A; lia|]. intros k' Hk' E'. apply idx_eq in E'; auto. destruct E' as [E' _]. apply Hinj in E'; lia.
      * intros s k Hk Hs'. rewrite H3; [apply B; auto; intros; apply Hs'; lia|]. intros k' Hk' E'. apply idx_eq in E'; auto. destruct E' as [E' _].
        apply (Hs' m); [lia|]. symmetry. exact E'.
  - exists dst'. auto.
Qed.

Lemma for_body_ext {St} n (b1 b2 : nat -> St -> option St) s : (forall k s', k < n -> b1 k s' = b2 k s') -> for_ n b1 s = for_ n b2 s.
Proof. apply for_ext. Qed.

Lemma rows_le (h : list N) n i : length h = n * W -> i < n -> (i + 1) * W <= length h.
Proof. intros -> H. nia. Qed.

(** one message *)
Variable size : list nat.
Lemma forward_one_ok g hs : arrays_ok W size hs -> g_src g < length size -> g_dst g < length size ->
  (forall k i, nth_error (g_list g) k = Some i -> i < nth (g_src g) size 0 /\ g_first g + k < nth (g_dst g) size 0) ->
  exists hs', forward_one W g hs = Some hs' /\ arrays_ok W size hs' /\
    (forall m i k, nth_error (g_list g) m = Some i -> k < W -> at_slot W d hs' (g_dst g, g_first g + m) k = at_slot W d hs (g_src g, i) k) /\
    (forall z k, k < W -> ~ In z (dests g) -> at_slot W d hs' z k = at_slot W d hs z k).
Proof.
  intros [Lh Lr] Hsrc Hdst Hg. unfold forward_one. set (n := length (g_list g)).
  rewrite (rd_some _ _ []) by lia. cbn [bind]. set (h := nth (g_src g) hs []).
  assert (Hn : forall m, m < n -> nth_error (g_list g) m = Some (nth m (g_list g) 0)) by (intros; apply nth_error_nth'; auto).
  assert (Lsrc : length h = nth (g_src g) size 0 * W) by (apply Lr; exact Hsrc).
  destruct (copy_rows (fun ii => nth ii (g_list g) 0) (fun ii => ii) h n) with (dst := repeat (@nzero N) (n * W)) as (buf & E1 & Lb & B1 & _).
  { intros ii Hii. apply (rows_le h _ _ Lsrc). apply (Hg ii). apply Hn. exact Hii. } { auto. }
  { intros ii Hii. rewrite repeat_length. nia. }
  assert (E1' : pack_forward_comm W h n (g_list g) (repeat nzero (n * W)) = Some (buf, n * W)).
  { unfold pack_forward_comm. erewrite for_body_ext; [rewrite E1; reflexivity|]. intros ii s Hii. rewrite (rd_some _ _ 0) by exact Hii. reflexivity. }
  rewrite E1'. cbn [bind]. rewrite (rd_some _ _ []) by lia. cbn [bind]. set (h' := nth (g_dst g) hs []).
  assert (Ldst : length h' = nth (g_dst g) size 0 * W) by (apply Lr; exact Hdst).
  destruct (copy_rows (fun ii => ii) (fun ii => g_first g + ii) buf n) with (dst := h') as (h2 & E2 & L2 & B2 & B3).
  { intros ii Hii. rewrite Lb, repeat_length. nia. } { intros; lia. }
  { intros ii Hii. apply (rows_le h' _ _ Ldst). apply (Hg ii _ (Hn ii Hii)). }
  unfold unpack_forward_comm. rewrite E2. cbn [bind]. rewrite wr_some by lia. exists (upd hs (g_dst g) h2). split; [reflexivity|]. split; [|split].
  - split; [rewrite length_upd; exact Lh|]. intros r Hr. rewrite nth_upd by lia. destruct (Nat.eqb_spec (g_dst g) r) as [<-|]; [congruence|apply Lr; exact Hr].
  - intros m i k Hm Hk. unfold at_slot. cbn [fst snd]. rewrite nth_upd by lia. rewrite Nat.eqb_refl.
    assert (m < n) by (apply nth_error_Some; congruence).
    rewrite B2 by auto. rewrite B1 by auto. rewrite (nth_error_nth _ _ 0 Hm). reflexivity.
  - intros [r s] k Hk Hz. unfold at_slot. cbn [fst snd]. rewrite nth_upd by lia. destruct (Nat.eqb_spec (g_dst g) r) as [<-|]; [|reflexivity].
    apply B3; [exact Hk|]. intros ii Hii E. apply Hz. unfold dests. apply in_map_iff. exists ii. subst s. split; [reflexivity|]. apply in_seq. lia.
Qed.

Variable own : slot -> slot.
Lemma in_dests g z : In z (dests g) -> exists m i, nth_error (g_list g) m = Some i /\ z = (g_dst g, g_first g + m).
Proof.
  unfold dests. intros H. apply in_map_iff in H. destruct H as (m & <- & H). apply in_seq in H. exists m, (nth m (g_list g) 0). split; [apply nth_error_nth'; lia|reflexivity].
Qed.

Lemma forward_comm_ok gs : forall known hs, plan_ok size own known gs -> arrays_ok W size hs ->
  exists hs', forward_comm W gs hs = Some hs' /\ arrays_ok W size hs' /\
    (forall z k, k < W -> In z known -> at_slot W d hs' z k = at_slot W d hs z k) /\
    (forall z k, k < W -> (forall g, In g gs -> ~ In z (dests g)) -> at_slot W d hs' z k = at_slot W d hs z k) /\
    (forall g z, In g gs -> In z (dests g) -> exists z0, In z0 known /\ own z0 = own z /\ forall k, k < W -> at_slot W d hs' z k = at_slot W d hs z0 k).
Proof.
  induction gs as [|g gs IH]; intros known hs HP HA; cbn [forward_comm plan_ok] in *.
  - exists hs. split; [reflexivity|]. split; [exact HA|]. split; [auto|]. split; [auto|]. intros g z [].
  - destruct HP as (P1 & P2 & P3 & P4).
    destruct (forward_one_ok g hs HA P1 P2) as (h1 & E1 & A1 & B1 & B2). { intros k i Hk. destruct (P3 k i Hk) as (Q1 & Q2 & _). auto. }
    destruct (IH (known ++ dests g) h1 P4 A1) as (h2 & E2 & A2 & C1 & C2 & C3).
    exists h2. rewrite E1. cbn [bind]. split; [exact E2|]. split; [exact A2|].
    assert (K1 : forall z k, k < W -> In z known -> at_slot W d h1 z k = at_slot W d hs z k).
    { intros z k Hk Hz. apply B2; [exact Hk|]. intros HD. apply in_dests in HD. destruct HD as (m & i & Hm & ->). destruct (P3 m i Hm) as (_ & _ & _ & Q & _). contradiction. }
    split; [|split].
    + intros z k Hk Hz. rewrite C1; [apply K1; auto|exact Hk|apply in_or_app; auto].
    + intros z k Hk Hz. rewrite C2; [apply B2; [exact Hk|apply Hz; left; reflexivity]|exact Hk|intros g' Hg'; apply Hz; right; exact Hg'].
    + assert (KD : forall z, In z (dests g) -> exists z0, In z0 known /\ own z0 = own z /\ forall k, k < W -> at_slot W d h1 z k = at_slot W d hs z0 k).
      { intros z HD. apply in_dests in HD. destruct HD as (m & i & Hm & ->). destruct (P3 m i Hm) as (_ & _ & Q3 & _ & Q5). exists (g_src g, i).
        split; [exact Q3|]. split; [exact Q5|]. intros k Hk. apply B1; auto. }
      intros g' z [<-|Hg'] Hz.
      * destruct (KD z Hz) as (z0 & Z1 & Z2 & Z3). exists z0. split; [exact Z1|]. split; [exact Z2|]. intros k Hk. rewrite C1; [apply Z3; exact Hk|exact Hk|apply in_or_app; auto].
      * destruct (C3 g' z Hg' Hz) as (z1 & Z1 & Z2 & Z3). apply in_app_or in Z1. destruct Z1 as [Z1|Z1].
        -- exists z1. split; [exact Z1|]. split; [exact Z2|]. intros k Hk. rewrite Z3 by exact Hk. apply K1; auto.
        -- destruct (KD z1 Z1) as (z0 & Y1 & Y2 & Y3). exists z0. split; [exact Y1|]. split; [congruence|]. intros k Hk. rewrite Z3 by exact Hk. apply Y3. exact Hk.
Qed.

Lemma locals_in nloc r i : In (r, i) (locals nloc) <-> r < length nloc /\ i < nth r nloc 0.
Proof.
  unfold locals. rewrite in_flat_map. split.
  - intros (q & Hq & H). apply in_map_iff in H. destruct H as (j & E & Hj). injection E as -> ->. apply in_seq in Hq. apply in_seq in Hj. lia.
  - intros [H1 H2]. exists r. split; [apply in_seq; lia|]. apply in_map. apply in_seq. lia.
Qed.

(** every ghost's data becomes its owner's; the local atoms keep theirs *)
Lemma forward_ok nloc gs hs : comm_ok nloc size own gs -> arrays_ok W size hs ->
  exists hs', forward_comm W gs hs = Some hs' /\ arrays_ok W size hs' /\
    (forall z k, In z (atoms size) -> k < W -> at_slot W d hs' z k = at_slot W d hs (own z) k) /\
    (forall z k, In z (locals nloc) -> k < W -> at_slot W d hs' z k = at_slot W d hs z k).
Proof.
  intros [C1 C2 C3 C4 C5 C6] HA. destruct (forward_comm_ok gs (locals nloc) hs C5 HA) as (hs' & E & A & B1 & _ & B3).
  exists hs'. split; [exact E|]. split; [exact A|]. split; [|intros; apply B1; auto].
  intros z k Hz Hk. destruct (C6 z Hz) as [Hl|(g & Hg & Hd)].
  - rewrite (C3 z Hl). apply B1; auto.
  - destruct (B3 g z Hg Hd) as (z0 & Z1 & Z2 & Z3). rewrite Z3 by exact Hk. f_equal. rewrite <- Z2. symmetry. apply C3. exact Z1.
Qed.
End Gen.

Local Open Scope R_scope.
Section Rev.
Variable W : nat.
Variable size : list nat.
Variable own : slot -> slot.

Lemma slot_eqb_spec a b : reflect (a = b) (slot_eqb a b).
Proof.
  destruct a as [a1 a2], b as [b1 b2]. unfold slot_eqb. cbn [fst snd]. destruct (Nat.eqb_spec a1 b1), (Nat.eqb_spec a2 b2); cbn; constructor; congruence.
Qed.
Definition osum (o : slot) (v : slot -> R) (l : list slot) : R := total (map (fun z => if slot_eqb (own z) o then v z else 0) l).
Lemma total_app a b : total (a ++ b) = total a + total b.
Proof. unfold total. induction a as [|x a IH]; cbn; [lra|]. rewrite IH. lra. Qed.
Lemma osum_app o v a b : osum o v (a ++ b) = osum o v a + osum o v b.
Proof. unfold osum. rewrite map_app. apply total_app. Qed.
Lemma osum_ext o v w l : (forall z, In z l -> v z = w z) -> osum o v l = osum o w l.
Proof. intros H. unfold osum. f_equal. apply map_ext_in. intros z Hz. rewrite (H z Hz). reflexivity. Qed.
Lemma osum_plus o v w l : osum o (fun z => v z + w z) l = osum o v l + osum o w l.
Proof. unfold osum, total. induction l as [|z l IH]; cbn; [lra|]. rewrite IH. destruct slot_eqb; lra. Qed.
Lemma osum_filter o v l : osum o v l = total (map v (filter (fun z => slot_eqb (own z) o) l)).
Proof. unfold osum, total. induction l as [|z l IH]; [reflexivity|]. cbn [map filter]. destruct slot_eqb; cbn; rewrite IH; lra. Qed.
Lemma osum_perm o v a b : Permutation.Permutation a b -> osum o v a = osum o v b.
Proof. intros H. unfold osum, total. induction H; cbn; lra. Qed.

(** contributions of the entries of a list *)
Lemma osum_hits o (known : list slot) (n : nat) (src : nat -> slot) (w : nat -> R) : NoDup known -> (forall m, (m < n)%nat -> In (src m) known) ->
  osum o (fun z => rsum n (fun m => if slot_eqb (src m) z then w m else 0)) known = rsum n (fun m => if slot_eqb (own (src m)) o then w m else 0).
Proof.
  intros ND. induction n as [|n IH]; intros H.
  - cbn [rsum]. unfold osum. clear. induction known as [|z l IH]; cbn; [reflexivity|]. unfold total in IH. rewrite IH. destruct slot_eqb; lra.
  - cbn [rsum]. rewrite osum_plus, IH by auto. apply Rplus_eq_compat_l. clear IH. specialize (H n ltac:(lia)).
    induction known as [|z l IH]; [destruct H|]. inversion_clear ND. unfold osum in *. cbn [map total fold_right].
    destruct (slot_eqb_spec (src n) z) as [E|Ne].
    + rewrite (map_ext_in _ (fun _ => 0)).
      * rewrite <- E. replace (fold_right Rplus 0 (map (fun _ => 0) l)) with 0; [destruct slot_eqb; lra|]. clear. induction l; cbn; lra.
      * intros z' Hz'. destruct (slot_eqb_spec (src n) z') as [E'|]; [exfalso; congruence|]. destruct (slot_eqb (own z') o); reflexivity.
    + destruct H as [H|H]; [congruence|]. unfold total in IH. rewrite IH by auto. destruct (slot_eqb (own z) o); lra.
Qed.

Lemma add_rows (f : nat -> nat) (buf : list R) n : (n * W <= length buf)%nat ->
  forall dst, (forall ii, (ii < n)%nat -> ((f ii + 1) * W <= length dst)%nat) ->
  exists dst', for_ n (fun ii dst => for_ W (fun k dst => v <- rd buf (ii * W + k)%nat ;; addto (N:=RNum) dst (f ii * W + k)%nat v) dst) dst = Some dst' /\
    length dst' = length dst /\
    (forall s k, (k < W)%nat -> nth (s * W + k) dst' 0 = nth (s * W + k) dst 0 + rsum n (fun ii => if (f ii =? s)%nat then nth (ii * W + k) buf 0 else 0)).
Proof.
  intros Hb dst0 Hd.
  destruct (for_inv (fun m (dst : list R) => length dst = length dst0 /\
      (forall s k, (k < W)%nat -> nth (s * W + k) dst 0 = nth (s * W + k) dst0 0 + rsum m (fun ii => if (f ii =? s)%nat then nth (ii * W + k) buf 0 else 0))) n
    (fun ii dst => for_ W (fun k dst => v <- rd buf (ii * W + k)%nat ;; addto (N:=RNum) dst (f ii * W + k)%nat v) dst) dst0) as (dst' & E & H1 & H2).
  - split; [reflexivity|]. intros; cbn [rsum]; symmetry; apply Rplus_0_r.
  - intros m dst Hm (L & A).
    destruct (for_inv (fun q (dst' : list R) => length dst' = length dst0 /\
       (forall s k, (k < W)%nat -> nth (s * W + k) dst' 0 = nth (s * W + k) dst 0 + if ((f m =? s) && (k <? q))%nat%bool then nth (m * W + k) buf 0 else 0)) W
      (fun k dst => v <- rd buf (m * W + k)%nat ;; addto (N:=RNum) dst (f m * W + k)%nat v) dst) as (dst' & E & H1 & H2).
    + split; [exact L|]. intros s k Hk. destruct (f m =? s)%nat; cbn; symmetry; apply Rplus_0_r.
    + intros q e Hq (Le & Ae). pose proof (Hd m Hm). rewrite (rd_some _ _ 0) by nia. cbn [bind].
      rewrite addto_R by nia. eexists. split; [reflexivity|]. rewrite length_bump. split; [exact Le|].
      intros s k Hk. rewrite nth_bump by nia. rewrite Ae by exact Hk. unfold ind.
      destruct (Nat.eqb_spec (f m * W + q) (s * W + k)) as [E|Ne].
      * apply (idx_eq W) in E; auto. destruct E as [-> ->]. rewrite Nat.eqb_refl.
        replace (k <? k)%nat with false by (symmetry; apply Nat.ltb_ge; lia). replace (k <? S k)%nat with true by (symmetry; apply Nat.ltb_lt; lia). cbn [andb]. lra.
      * destruct (Nat.eqb_spec (f m) s) as [E|]; cbn [andb]; [rewrite E in Ne|lra].
        assert (k <> q) by (intros ->; apply Ne; reflexivity).
        destruct (Nat.ltb_spec k q), (Nat.ltb_spec k (S q)); try lia; lra.
    + exists dst'. split; [exact E|]. split; [exact H1|]. intros s k Hk. rewrite H2, A by exact Hk. cbn [rsum].
      replace (k <? W)%nat with true by (symmetry; apply Nat.ltb_lt; exact Hk). rewrite Bool.andb_true_r. lra.
  - exists dst'. auto.
Qed.

Notation val := (at_slot W (0 : R)).

Lemma reverse_one_ok g (hs : list (list R)) : arrays_ok W size hs -> (g_src g < length size)%nat -> (g_dst g < length size)%nat ->
  (forall k i, nth_error (g_list g) k = Some i -> (i < nth (g_src g) size 0)%nat /\ (g_first g + k < nth (g_dst g) size 0)%nat) ->
  exists hs', reverse_one (N:=RNum) W g hs = Some hs' /\ arrays_ok W size hs' /\
    (forall z k, (k < W)%nat -> val hs' z k = val hs z k +
       rsum (length (g_list g)) (fun m => if slot_eqb (g_src g, nth m (g_list g) 0%nat) z then val hs (g_dst g, (g_first g + m)%nat) k else 0)).
Proof.
  intros [Lh Lr] Hsrc Hdst Hg. unfold reverse_one. change (list (carrier RNum)) with (list R). set (n := length (g_list g)).
  rewrite (rd_some hs (g_dst g) ([] : list R)) by (exact (eq_ind_r (fun n => (g_dst g < n)%nat) Hdst Lh)). cbn [bind]. set (h := nth (g_dst g) hs ([] : list R)).
  assert (Hn : forall m, (m < n)%nat -> nth_error (g_list g) m = Some (nth m (g_list g) 0%nat)) by (intros; apply nth_error_nth'; auto).
  assert (Ldst : length h = (nth (g_dst g) size 0 * W)%nat) by (apply Lr; exact Hdst).
  destruct (copy_rows (N:=RNum) W 0 (fun ii => (g_first g + ii)%nat) (fun ii => ii) h n) with (dst := repeat (@nzero RNum) (n * W)) as (buf & E1 & Lb & B1 & _).
  { intros ii Hii. apply (rows_le (N:=RNum) W h _ _ Ldst). apply (Hg ii _ (Hn ii Hii)). } { auto. }
  { intros ii Hii. rewrite repeat_length. nia. }
  unfold pack_reverse_comm. rewrite E1. cbn [bind].
  rewrite (rd_some hs (g_src g) ([] : list R)) by (exact (eq_ind_r (fun n => (g_src g < n)%nat) Hsrc Lh)). cbn [bind]. set (h' := nth (g_src g) hs ([] : list R)).
  assert (Lsrc : length h' = (nth (g_src g) size 0 * W)%nat) by (apply Lr; exact Hsrc).
  rewrite repeat_length in Lb.
  destruct (add_rows (fun ii => nth ii (g_list g) 0%nat) buf n) with (dst := h') as (h2 & E2 & L2 & B2).
  { apply Nat.eq_le_incl. symmetry. exact Lb. } { intros ii Hii. apply (rows_le (N:=RNum) W h' _ _ Lsrc). apply (Hg ii _ (Hn ii Hii)). }
  assert (E2' : unpack_reverse_comm (N:=RNum) W n (g_list g) buf h' = Some h2).
  { unfold unpack_reverse_comm. erewrite for_body_ext; [exact E2|]. intros ii s Hii. rewrite (rd_some _ _ 0%nat) by exact Hii. reflexivity. }
  rewrite E2'. cbn [bind]. rewrite (wr_some hs (g_src g)) by (exact (eq_ind_r (fun n => (g_src g < n)%nat) Hsrc Lh)). exists (upd hs (g_src g) h2). split; [reflexivity|]. split.
  - split; [rewrite length_upd; exact Lh|]. intros r Hr. rewrite nth_upd by (exact (eq_ind_r (fun n => (g_src g < n)%nat) Hsrc Lh)). destruct (Nat.eqb_spec (g_src g) r) as [<-|]; [etransitivity; [exact L2|exact Lsrc]|apply Lr; exact Hr].
  - intros [r s] k Hk. unfold at_slot. cbn [fst snd]. rewrite nth_upd by (exact (eq_ind_r (fun n => (g_src g < n)%nat) Hsrc Lh)). unfold slot_eqb. cbn [fst snd]. destruct (Nat.eqb_spec (g_src g) r) as [<-|]; cbn [andb].
    + rewrite B2 by exact Hk. f_equal. apply rsum_ext. intros m Hm. destruct (_ =? s)%nat; [|reflexivity]. apply B1; auto.
    + rewrite rsum_zero. lra.
Qed.

Lemma nodup_app {A} (a b : list A) : NoDup a -> NoDup b -> (forall z, In z a -> ~ In z b) -> NoDup (a ++ b).
Proof.
  intros Ha Hb. induction Ha as [|x a Hx Ha IH]; intros H; cbn [app]; [exact Hb|]. constructor.
  - intros Hi. apply in_app_or in Hi. destruct Hi as [Hi|Hi]; [contradiction|]. apply (H x); simpl; auto.
  - apply IH. intros z Hz. apply H. right. exact Hz.
Qed.
Lemma NoDup_dests g : NoDup (dests g).
Proof.
  unfold dests. apply FinFun.Injective_map_NoDup; [|apply seq_NoDup]. intros a b E. injection E. lia.
Qed.
Lemma plan_nodup gs : forall known, NoDup known -> plan_ok size own known gs -> NoDup (known ++ flat_map dests gs).
Proof.
  induction gs as [|g gs IH]; intros known ND P; cbn [flat_map].
  - rewrite app_nil_r. exact ND.
  - destruct P as (_ & _ & P3 & P4). rewrite app_assoc. apply IH; [|exact P4].
    apply nodup_app; [exact ND|apply NoDup_dests|].
    intros z Hz Hd. apply in_dests in Hd. destruct Hd as (m & i & Hm & ->). destruct (P3 m i Hm) as (_ & _ & _ & Q & _). contradiction.
Qed.

Lemma reverse_comm_ok gs : forall known (hs : list (list R)), NoDup known -> plan_ok size own known gs -> arrays_ok W size hs ->
  exists hs', reverse_comm (N:=RNum) W gs hs = Some hs' /\ arrays_ok W size hs' /\
    forall o k, (k < W)%nat -> osum o (fun z => val hs' z k) known = osum o (fun z => val hs z k) (known ++ flat_map dests gs).
Proof.
  induction gs as [|g gs IH]; intros known hs ND P HA; cbn [reverse_comm flat_map].
  - exists hs. rewrite app_nil_r. auto.
  - destruct P as (P1 & P2 & P3 & P4).
    assert (ND' : NoDup (known ++ dests g)).
    { apply nodup_app; [exact ND|apply NoDup_dests|].
      intros z Hz Hd. apply in_dests in Hd. destruct Hd as (m & i & Hm & ->). destruct (P3 m i Hm) as (_ & _ & _ & Q & _). contradiction. }
    destruct (IH (known ++ dests g) hs ND' P4 HA) as (h1 & E1 & A1 & B1).
    destruct (reverse_one_ok g h1 A1 P1 P2) as (h2 & E2 & A2 & B2). { intros k i Hk. destruct (P3 k i Hk) as (Q1 & Q2 & _). auto. }
    exists h2. rewrite E1. cbn [bind]. split; [exact E2|]. split; [exact A2|]. intros o k Hk.
    rewrite app_assoc, <- B1 by exact Hk. rewrite osum_app.
    rewrite (osum_ext o (fun z => val h2 z k) (fun z => val h1 z k + rsum (length (g_list g)) (fun m => if slot_eqb (g_src g, nth m (g_list g) 0%nat) z then val h1 (g_dst g, (g_first g + m)%nat) k else 0)))
      by (intros; apply B2; exact Hk).
    rewrite osum_plus. f_equal.
    assert (Hn : forall m, (m < length (g_list g))%nat -> nth_error (g_list g) m = Some (nth m (g_list g) 0%nat)) by (intros; apply nth_error_nth'; auto).
    rewrite (osum_hits o known (length (g_list g)) (fun m => (g_src g, nth m (g_list g) 0%nat)) (fun m => val h1 (g_dst g, (g_first g + m)%nat) k) ND).
    2:{ intros m Hm. destruct (P3 m _ (Hn m Hm)) as (_ & _ & Q & _). exact Q. }
    unfold osum, dests. rewrite map_map. etransitivity; [|symmetry; apply total_tab]. apply rsum_ext. intros m Hm.
    destruct (P3 m _ (Hn m Hm)) as (_ & _ & _ & _ & Q). rewrite Q. reflexivity.
Qed.

Lemma NoDup_slots l : NoDup (locals l).
Proof.
  unfold locals. generalize (length l) as n. induction n as [|n IH]; [constructor|]. rewrite seq_S, flat_map_app'. cbn [flat_map Nat.add]. rewrite app_nil_r.
  apply nodup_app; [exact IH| |].
  - apply FinFun.Injective_map_NoDup; [|apply seq_NoDup]. intros a b E. injection E. auto.
  - intros [r i] H1 H2. apply in_flat_map in H1. destruct H1 as (q & Hq & H1). apply in_map_iff in H1. destruct H1 as (j & E & _). injection E as -> ->.
    apply in_map_iff in H2. destruct H2 as (j & E & _). injection E as -> _. apply in_seq in Hq. lia.
Qed.

(** every adjoint is added to the owner's exactly once *)
Lemma reverse_ok nloc gs (hs : list (list R)) : comm_ok nloc size own gs -> arrays_ok W size hs ->
  exists hs', reverse_comm (N:=RNum) W gs hs = Some hs' /\ arrays_ok W size hs' /\
    forall o k, In o (locals nloc) -> (k < W)%nat -> val hs' o k = total (map (fun z => val hs z k) (owned size own o)).
Proof.
  intros [C1 C2 C3 C4 C5 C6] HA. destruct (reverse_comm_ok gs (locals nloc) hs (NoDup_slots nloc) C5 HA) as (hs' & E & A & B).
  exists hs'. split; [exact E|]. split; [exact A|]. intros o k Ho Hk. specialize (B o k Hk).
  assert (PM : Permutation (locals nloc ++ flat_map dests gs) (atoms size)).
  { apply NoDup_Permutation; [apply plan_nodup; [apply NoDup_slots|exact C5]|apply NoDup_slots|]. intros z. split.
    - intros Hz. apply in_app_or in Hz. destruct Hz as [Hz|Hz].
      + destruct z as [r i]. apply locals_in in Hz. apply (locals_in size). destruct Hz as [Hr Hi]. split; [lia|]. specialize (C2 r ltac:(lia)). lia.
      + clear - C5 Hz. revert C5 Hz. generalize (locals nloc). induction gs as [|g gs IH]; intros known C5 Hz; [destruct Hz|]. cbn [flat_map] in Hz. destruct C5 as (P1 & P2 & P3 & P4).
        apply in_app_or in Hz. destruct Hz as [Hz|Hz]; [|eapply IH; eauto]. apply in_dests in Hz. destruct Hz as (m & i & Hm & ->).
        destruct (P3 m i Hm) as (_ & Q & _). apply (locals_in size). auto.
    - intros Hz. apply in_or_app. destruct (C6 z Hz) as [Hl|(g & Hg & Hd)]; [left; exact Hl|]. right. apply in_flat_map. eauto. }
  rewrite (osum_perm _ _ _ _ PM), (osum_filter o _ (atoms size)) in B. unfold owned. rewrite <- B. clear - C3 Ho.
  assert (ND : NoDup (locals nloc)) by apply NoDup_slots. revert C3 Ho ND. generalize (locals nloc) as l. induction l as [|z l IH]; intros C3 Ho ND; [destruct Ho|].
  inversion_clear ND. unfold osum in *. cbn [map total fold_right]. rewrite (C3 z) by (simpl; auto). destruct (slot_eqb_spec z o) as [->|Ne].
  - rewrite (map_ext_in _ (fun _ => 0)).
    + replace (fold_right Rplus 0 (map (fun _ => 0) l)) with 0; [lra|]. clear. induction l; cbn; lra.
    + intros z' Hz'. rewrite (C3 z') by (simpl; auto). destruct (slot_eqb_spec z' o) as [E'|]; [exfalso; congruence|reflexivity].
  - destruct Ho as [Ho|Ho]; [congruence|]. unfold total in IH. rewrite <- IH by (auto; intros; apply C3; simpl; auto). lra.
Qed.
End Rev.
