(** Host code of the Kokkos evaluator: sizes of the views, and the effect of the host commands.  Used in proofs only. *)
From Coq Require Import List Arith ZArith Bool Lia Reals Lra FunctionalExtensionality.
From Verif Require Import Base BaseLemmas Segs Instances RSums MaceModel Sys SysLoops MacePure MaceStages1.
From Verif Require Import KkSem KkSound KkWp KkWp2 KkModel KkHost KkTac KkK1 KkK2 KkK3.
Import ListNotations.
Local Open Scope R_scope.

(** values of a view with extents at least [A] x [B] x [C] *)
Definition has1 (m : rmem) (b : buf) (A : nat) (f : nat -> R) : Prop :=
  (A <= extent m b 0)%nat /\ forall i, (i < A)%nat -> va m (b, [i]) = f i.
Definition has2 (m : rmem) (b : buf) (A B : nat) (f : nat -> nat -> R) : Prop :=
  (A <= extent m b 0)%nat /\ forall i j, (i < A)%nat -> (j < B)%nat -> va m (b, [i; j]) = f i j.
Definition has3 (m : rmem) (b : buf) (A B C : nat) (f : nat -> nat -> nat -> R) : Prop :=
  (A <= extent m b 0)%nat /\ forall i j k, (i < A)%nat -> (j < B)%nat -> (k < C)%nat -> va m (b, [i; j; k]) = f i j k.
Lemma st_ext m m' b d : st m' b = st m b -> extent m' b d = extent m b d.
Proof. intros H. unfold extent. rewrite (st_dims _ _ _ H). auto. Qed.
Lemma has1_st m m' b A f : st m' b = st m b -> has1 m b A f -> has1 m' b A f.
Proof. intros E [H1 H2]. split; [rewrite (st_ext _ _ _ _ E); auto|]. intros. rewrite (st_va _ _ _ _ E). auto. Qed.
Lemma has2_st m m' b A B f : st m' b = st m b -> has2 m b A B f -> has2 m' b A B f.
Proof. intros E [H1 H2]. split; [rewrite (st_ext _ _ _ _ E); auto|]. intros. rewrite (st_va _ _ _ _ E). auto. Qed.
Lemma has3_st m m' b A B C f : st m' b = st m b -> has3 m b A B C f -> has3 m' b A B C f.
Proof. intros E [H1 H2]. split; [rewrite (st_ext _ _ _ _ E); auto|]. intros. rewrite (st_va _ _ _ _ E). auto. Qed.
Lemma has1_eq m b A f g : (forall i, (i < A)%nat -> f i = g i) -> has1 m b A f -> has1 m b A g.
Proof. intros E [H1 H2]. split; auto. intros. rewrite H2, E; auto. Qed.
Lemma has2_eq m b A B f g : (forall i j, (i < A)%nat -> (j < B)%nat -> f i j = g i j) -> has2 m b A B f -> has2 m b A B g.
Proof. intros E [H1 H2]. split; auto. intros. rewrite H2, E; auto. Qed.
Lemma has3_eq m b A B C f g : (forall i j k, (i < A)%nat -> (j < B)%nat -> (k < C)%nat -> f i j k = g i j k) -> has3 m b A B C f -> has3 m b A B C g.
Proof. intros E [H1 H2]. split; auto. intros. rewrite H2, E; auto. Qed.

(** only the views in [t] changed *)
Definition oth (t : buf -> bool) (m m' : rmem) : Prop := forall b, t b = false -> st m' b = st m b.
Lemma oth_keep t m m' : keep t m m' -> oth t m m'.
Proof. intros H b Hb. eapply keep_st; eauto. Qed.
Lemma oth_trans t m1 m2 m3 : oth t m1 m2 -> oth t m2 m3 -> oth t m1 m3.
Proof. intros A B b H. rewrite (B b H). auto. Qed.
Lemma oth_sub (t t' : buf -> bool) m m' : (forall b, t' b = false -> t b = false) -> oth t m m' -> oth t' m m'.
Proof. intros S H b Hb. apply H. auto. Qed.

Section C.
Variable km : kmace RNum.
Notation K := (k_num_channels km).
Notation L := (k_num_lm km).
Notation M := (k_num_LM km).
Notation C := (k_num_lelm1lm2 km).
Notation NE := (k_num_lme km).

(** extents after the first *)
Definition cx (LM : nat) : nat := match rd (k_M0_poly_coeff km) LM with Some v => coeff_ext1 v | None => 0 end.
Definition shp (b : buf) : list nat := match b with
  | bR0 | bR0d => [((k_l_max km + 1) * K)%nat]
  | bR1 | bR1d => [(length (k_Phi1_l km) * K)%nat]
  | bA0 | bA0a | bA1 | bA1a => [L; K]
  | bA0v | bA0d | bA1v | bA1d => [1%nat]
  | bM0 | bM0a | bH1 | bH1a => [M; K]
  | bM0v LM | bM0j LM => [cx LM; K]
  | bP1r | bdP1r => [C; K]
  | bP1 | bdP1 => [NE; K]
  | bM1 | bM1a | bH2 | bH2a => [K]
  | bM1v => [(L + length (k_M1_poly_spec km))%nat; K]
  | bM1j => [coeff_ext1 (k_M1_poly_coeff km); K]
  | _ => []
  end.
Definition plain (b : buf) : bool := match b with bScr | bNv _ | bNd _ | bLf | bLe | bLv | bLh | bLha => false | _ => true end.
Definition szok (b : buf) (ds : list nat) : Prop := match b with
  | bScr | bLf | bLe | bLv | bLh | bLha => True
  | bNv _ | bNd _ => ds = [] \/ exists x y, ds = [x; y]
  | _ => ds = [] \/ exists e, ds = e :: shp b end.
(** views whose extents are tied to those of another or to the number 3 *)
Definition jnt (b : buf) : bool := match b with
  | bR0 | bR0d | bR1 | bR1d | bA0v | bA0d | bA1v | bA1d | bY | bYg | bYgs | bF => true | _ => false end.
Record good (m : rmem) : Prop := {
  g_sz : forall b, szok b (dims m b);
  g_R0 : dims m bR0d = dims m bR0;
  g_R1 : dims m bR1d = dims m bR1;
  g_A0 : dims m bA0d = dims m bA0v;
  g_A1 : dims m bA1d = dims m bA1v;
  g_Y : (3 * extent m bY 0 = extent m bYg 0)%nat;
  g_Ys : dims m bYgs = dims m bYg;
  g_F : (extent m bF 0 mod 3 = 0)%nat }.

Lemma good_dims m m' : (forall b, dims m' b = dims m b) -> good m -> good m'.
Proof.
  intros E G. destruct G. split; intros; rewrite ?E; auto.
  all: unfold extent in *; rewrite ?E; auto.
Qed.
Lemma good_keep t m m' : keep t m m' -> good m -> good m'.
Proof. intros [D _]. apply good_dims. intros. rewrite D. auto. Qed.
Lemma good_upd m m' b : jnt b = false -> szok b (dims m' b) -> (forall b', b' <> b -> dims m' b' = dims m b') -> good m -> good m'.
Proof.
  intros J S E G. destruct G. assert (X : forall b', jnt b' = true -> dims m' b' = dims m b') by (intros b' Hb'; apply E; congruence).
  split; unfold extent in *; rewrite ?X by reflexivity; auto.
  intros b'. destruct (buf_dec b' b) as [->|N]; auto. rewrite E; auto.
Qed.
Lemma cov_of m b n : good m -> plain b = true -> (n <= extent m b 0)%nat -> cov m b (n :: shp b).
Proof.
  intros G P H. pose proof (g_sz m G b) as S.
  assert (D : dims m b = [] \/ exists e, dims m b = e :: shp b) by (destruct b; try discriminate P; exact S). clear S.
  unfold extent in H. destruct D as [E|(e & E)].
  - rewrite E in H. cbn in H. intros [|i idx] Hi; cbn in Hi; [contradiction|]. lia.
  - rewrite E in H. cbn in H. eapply cov_ext; eauto.
Qed.
Lemma has1_cov m b A f : good m -> plain b = true -> shp b = [] -> has1 m b A f -> cov m b [A].
Proof. intros G P S [H _]. pose proof (cov_of m b A G P H) as X. rewrite S in X. auto. Qed.
Lemma has2_cov m b A B f : good m -> plain b = true -> shp b = [B] -> has2 m b A B f -> cov m b [A; B].
Proof. intros G P S [H _]. pose proof (cov_of m b A G P H) as X. rewrite S in X. auto. Qed.
Lemma has3_cov m b A B D f : good m -> plain b = true -> shp b = [B; D] -> has3 m b A B D f -> cov m b [A; B; D].
Proof. intros G P S [H _]. pose proof (cov_of m b A G P H) as X. rewrite S in X. auto. Qed.

(** ** host commands *)
Definition one (b b' : buf) : bool := if buf_dec b b' then true else false.
Lemma one_ne b b' : one b b' = false -> b <> b'.
Proof. unfold one. destruct (buf_dec b b'); congruence. Qed.

Lemma plain_szok b e : plain b = true -> szok b (e :: shp b).
Proof. intros P. destruct b; try discriminate P; right; eexists; reflexivity. Qed.
Lemma dims_set (m : rmem) b ext v b' : dims (set_view m b ext v) b' = if buf_dec b b' then ext else dims m b'.
Proof. reflexivity. Qed.
Lemma dims_set_eq (m : rmem) b ext v : dims (set_view m b ext v) b = ext.
Proof. rewrite dims_set. destruct (buf_dec b b); congruence. Qed.
Lemma dims_set_ne (m : rmem) b ext v b' : b <> b' -> dims (set_view m b ext v) b' = dims m b'.
Proof. rewrite dims_set. destruct (buf_dec b b'); congruence. Qed.
Lemma va_set_eq (m : rmem) b ext v idx : va (set_view m b ext v) (b, idx) = v idx.
Proof. unfold va, set_view. cbn [KkSem.val fst snd]. destruct (buf_dec b b); congruence. Qed.
Lemma oth_set (m : rmem) b ext v : oth (one b) m (set_view m b ext v).
Proof. intros b' H. apply one_ne in H. rewrite st_set_view. destruct (buf_dec b b'); congruence. Qed.
Lemma oth_refl t m : oth t m m.
Proof. intros b _. reflexivity. Qed.
Lemma good_set m b ext v : jnt b = false -> szok b ext -> good m -> good (set_view m b ext v).
Proof.
  intros J S G. apply (good_upd m _ b J); auto.
  - rewrite dims_set_eq. auto.
  - intros b' H. apply dims_set_ne. auto.
Qed.
(** a conditional reallocation that makes the first extent at least [n] *)
Lemma hok_realloc b n c e v l m Q : jnt b = false -> plain b = true -> good m ->
  (c = false -> (n <= extent m b 0)%nat) -> (n <= e)%nat ->
  (forall m1, good m1 -> oth (one b) m m1 -> (n <= extent m1 b 0)%nat -> hok l m1 Q) ->
  hok (hop (fun m => if c then set_view m b (e :: shp b) v else m) :: l) m Q.
Proof.
  intros J P G Hc He H. apply hok_hop. destruct c.
  - apply H; [apply good_set; auto; apply plain_szok; auto | apply oth_set |]. unfold extent. rewrite dims_set_eq. cbn. auto.
  - apply H; auto. apply oth_refl.
Qed.
Lemma hok_grow b n ext l m Q : jnt b = false -> plain b = true -> ext = n :: shp b -> good m ->
  (forall m1, good m1 -> oth (one b) m m1 -> (n <= extent m1 b 0)%nat -> hok l m1 Q) -> hok (grow b n ext :: l) m Q.
Proof.
  intros J P -> G H. apply (hok_hop (fun m => if (extent m b 0 <? n)%nat then realloc b (n :: shp b) m else m)).
  destruct (Nat.ltb_spec (extent m b 0) n) as [E|E].
  - apply H; [apply good_set; auto; apply plain_szok; auto | apply oth_set |]. unfold extent, realloc. rewrite dims_set_eq. cbn. auto.
  - apply H; auto. apply oth_refl.
Qed.
Lemma hok_grow_u junk b n ext l m Q : jnt b = false -> plain b = true -> ext = n :: shp b -> good m ->
  (forall m1, good m1 -> oth (one b) m m1 -> (n <= extent m1 b 0)%nat -> hok l m1 Q) -> hok (grow_uninit junk b n ext :: l) m Q.
Proof.
  intros J P -> G H. apply (hok_hop (fun m => if (extent m b 0 <? n)%nat then realloc_uninit (junk m) b (n :: shp b) m else m)).
  destruct (Nat.ltb_spec (extent m b 0) n) as [E|E].
  - apply H; [apply good_set; auto; apply plain_szok; auto | apply oth_set |]. unfold extent, realloc_uninit. rewrite dims_set_eq. cbn. auto.
  - apply H; auto. apply oth_refl.
Qed.
Lemma like m b src : good m -> plain src = true -> shp b = shp src -> (0 < extent m src 0)%nat -> dims m src = extent m src 0 :: shp b.
Proof.
  intros G P S H. pose proof (g_sz m G src) as X.
  assert (D : dims m src = [] \/ exists e, dims m src = e :: shp src) by (destruct src; try discriminate P; exact X).
  unfold extent in *. destruct D as [E|(e & E)]; rewrite E in *; cbn in *; [lia|congruence].
Qed.
Lemma hok_grow_like b src l m Q : jnt b = false -> plain b = true -> plain src = true -> shp b = shp src -> good m ->
  (forall m1, good m1 -> oth (one b) m m1 -> (extent m src 0 <= extent m1 b 0)%nat -> hok l m1 Q) -> hok (grow_like b src :: l) m Q.
Proof.
  intros J P Ps S G H. apply (hok_hop (fun m => if (extent m b 0 <? extent m src 0)%nat then realloc b (dims m src) m else m)).
  destruct (Nat.ltb_spec (extent m b 0) (extent m src 0)) as [E|E].
  - apply H; [apply good_set; auto; rewrite (like m b src) by (auto; lia); apply plain_szok; auto | apply oth_set |].
    unfold extent, realloc. rewrite dims_set_eq. auto.
  - apply H; auto. apply oth_refl.
Qed.
(** resize keeps the old entries *)
Lemma hok_resize b need ext l m Q : jnt b = false -> plain b = true -> good m -> ((extent m b 0 < need m)%nat -> ext m = need m :: shp b) ->
  (forall m1, good m1 -> oth (one b) m m1 -> (need m <= extent m1 b 0)%nat ->
     (forall idx, alloc m (b, idx) = true -> va m1 (b, idx) = va m (b, idx)) -> hok l m1 Q) -> hok (grow_resize b need ext :: l) m Q.
Proof.
  intros J P G HE H. apply (hok_hop (fun m => if (extent m b 0 <? need m)%nat then resize_view b (ext m) m else m)).
  destruct (Nat.ltb_spec (extent m b 0) (need m)) as [E|E].
  - rewrite (HE E). apply H.
    + apply good_set; auto; apply plain_szok; auto.
    + apply oth_set.
    + unfold extent, resize_view. rewrite dims_set_eq. cbn. auto.
    + intros idx A. unfold resize_view. rewrite va_set_eq. unfold alloc in A. cbn [fst snd] in A.
      assert (X : inb (dims m b) idx = true) by (destruct b; try discriminate P; exact A). rewrite X. reflexivity.
  - apply H; auto. apply oth_refl.
Qed.
Lemma good_fill b v m : good m -> good (fill_view b v m).
Proof. intros G. apply (good_dims m); auto. intros b'. unfold fill_view. rewrite dims_set. destruct (buf_dec b b'); congruence. Qed.
Lemma hok_zero b l m Q : good m ->
  (forall m1, good m1 -> oth (one b) m m1 -> dims m1 = dims m -> (forall idx, va m1 (b, idx) = 0) -> hok l m1 Q) -> hok (zero b :: l) m Q.
Proof.
  intros G H. apply hok_hop. apply H.
  - apply good_fill. auto.
  - apply oth_set.
  - extensionality b'. unfold fill_view. rewrite dims_set. destruct (buf_dec b b'); congruence.
  - intros idx. unfold fill_view. rewrite va_set_eq. apply RNum_zero.
Qed.
End C.
