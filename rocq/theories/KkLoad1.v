(** [kk_load_from_json] succeeds on a well-formed file and fills its tables with the numbers of the file.  Used in proofs
    only. *)
From Coq Require Import List Arith ZArith Bool Lia Reals Lra Permutation.
From Verif Require Import Base BaseLemmas Segs Instances RSums ToolsModel MpModel MpSpec MpProofs MpCtor MpR SplineModel SplineProofs MaceModel MaceSpec Sys SysLoops
  MacePure MaceStages1 MaceStages7 MlpProofs MaceLoad.
From Verif Require Import KkSem KkWp KkModel KkSpec.
Import ListNotations.
Local Open Scope nat_scope.

(** ** views *)
Lemma inb_indices ext : forall idx, In idx (indices ext) -> inb ext idx = true.
Proof.
  induction ext as [|e ext IH]; cbn [indices]; intros idx H.
  - destruct H as [<-|[]]. reflexivity.
  - apply in_flat_map in H as (i & Hi & H). apply in_map_iff in H as (idx' & <- & H'). apply in_seq in Hi. cbn [inb].
    rewrite IH by auto. rewrite andb_true_r. apply Nat.ltb_lt. lia.
Qed.
Lemma mk_view_ok {N : Num} ext (g : list nat -> option N) : (forall idx, inb ext idx = true -> exists x, g idx = Some x) ->
  exists v, mk_view ext g = Some v /\ v_ext v = ext /\ forall idx x, g idx = Some x -> v_val v idx = x.
Proof.
  intros H. unfold mk_view. eexists. rewrite (proj2 (forallb_forall _ _)).
  - split; [reflexivity|]. split; [reflexivity|]. cbn. intros idx x ->. reflexivity.
  - intros idx Hi. destruct (H idx (inb_indices ext idx Hi)) as [x ->]. reflexivity.
Qed.
Lemma inb2 a b idx : inb [a; b] idx = true -> exists i j, idx = [i; j] /\ i < a /\ j < b.
Proof.
  destruct idx as [|i [|j [|? ?]]]; cbn [inb]; try discriminate; rewrite ?andb_false_r; try discriminate. rewrite !andb_true_iff, !Nat.ltb_lt. intros (A & B & _). eauto.
Qed.
Lemma inb3 a b c idx : inb [a; b; c] idx = true -> exists i j k, idx = [i; j; k] /\ i < a /\ j < b /\ k < c.
Proof.
  destruct idx as [|i [|j [|k [|? ?]]]]; cbn [inb]; rewrite ?andb_false_r; try discriminate. rewrite !andb_true_iff, !Nat.ltb_lt. intros (A & B & D & _). eauto 8.
Qed.
Lemma inb4 a b c d idx : inb [a; b; c; d] idx = true -> exists i j k l, idx = [i; j; k; l] /\ i < a /\ j < b /\ k < c /\ l < d.
Proof.
  destruct idx as [|i [|j [|k [|l [|? ?]]]]]; cbn [inb]; rewrite ?andb_false_r; try discriminate. rewrite !andb_true_iff, !Nat.ltb_lt. intros (A & B & D & E & _). eauto 10.
Qed.
Lemma inb2_t a b i j : i < a -> j < b -> inb [a; b] [i; j] = true.
Proof. intros A B. cbn [inb]. rewrite (proj2 (Nat.ltb_lt _ _) A), (proj2 (Nat.ltb_lt _ _) B). reflexivity. Qed.
Lemma inb3_t a b c i j k : i < a -> j < b -> k < c -> inb [a; b; c] [i; j; k] = true.
Proof. intros A B C. cbn [inb]. rewrite (proj2 (Nat.ltb_lt _ _) A), (proj2 (Nat.ltb_lt _ _) B), (proj2 (Nat.ltb_lt _ _) C). reflexivity. Qed.
Lemma inb4_t a b c d i j k l : i < a -> j < b -> k < c -> l < d -> inb [a; b; c; d] [i; j; k; l] = true.
Proof.
  intros A B C D. cbn [inb]. rewrite (proj2 (Nat.ltb_lt _ _) A), (proj2 (Nat.ltb_lt _ _) B), (proj2 (Nat.ltb_lt _ _) C), (proj2 (Nat.ltb_lt _ _) D).
  reflexivity.
Qed.

(** ** spline tables *)
Section Tab.
Context {N : Num}.
Lemma spline_coeff_ok (h : N) vs ds i q kn : length vs = kn -> length ds = kn -> i < kn - 1 -> q < 4 ->
  spline_coeff h vs ds i q = Some (hco h (vfun vs) (vfun ds) q i).
Proof.
  intros Hv Hd Hi Hq. unfold spline_coeff. rewrite !(rd_some _ _ nzero) by lia. cbn [bind].
  destruct q as [|[|[|q]]]; reflexivity.
Qed.

(** a rectangular stack of tables *)
Definition stack (c kn : nat) (vals ders : list (list (list N))) : Prop :=
  1 <= length vals /\ 1 <= c /\ 1 <= kn /\ length ders = length vals /\
  forall q, q < length vals -> length (nth q vals []) = c /\ length (nth q ders []) = c /\
    (forall row, In row (nth q vals []) -> length row = kn) /\ (forall row, In row (nth q ders []) -> length row = kn).

Lemma stack_rd c kn vals ders q j : stack c kn vals ders -> q < length vals -> j < c ->
  rd vals q = Some (nth q vals []) /\ rd ders q = Some (nth q ders []) /\
  rd (nth q vals []) j = Some (nth j (nth q vals []) []) /\ rd (nth q ders []) j = Some (nth j (nth q ders []) []) /\
  length (nth j (nth q vals []) []) = kn /\ length (nth j (nth q ders []) []) = kn.
Proof.
  intros (_ & _ & _ & Hd & H) Hq Hj. destruct (H q Hq) as (A & B & C & D).
  repeat split; try (apply rd_some; lia); [apply C|apply D]; apply nth_In; lia.
Qed.
Lemma stack_0 c kn vals ders : stack c kn vals ders -> length (nth 0 vals []) = c /\ rd vals 0 = Some (nth 0 vals []) /\
  rd (nth 0 vals []) 0 = Some (nth 0 (nth 0 vals []) []) /\ length (nth 0 (nth 0 vals []) []) = kn.
Proof.
  intros S. pose proof S as (A & B & C & D & E). destruct (stack_rd c kn vals ders 0 0 S) as (X1 & _ & X2 & _ & X3 & _); [lia|lia|].
  destruct (E 0) as (E1 & _); [lia|]. auto.
Qed.

Lemma make_krad_ok (h : N) c kn vals ders : stack c kn vals ders -> exists S, make_krad h vals ders = Some S /\
  kr_h S = h /\ kr_types S = length vals /\ kr_num S = c /\ v_ext (kr_c S) = [length vals; kn - 1; 4; c] /\
  forall a i q j, a < length vals -> i < kn - 1 -> q < 4 -> j < c ->
    v_val (kr_c S) [a; i; q; j] = hco h (vfun (nth j (nth a vals []) [])) (vfun (nth j (nth a ders []) [])) q i.
Proof.
  intros S. destruct (stack_0 _ _ _ _ S) as (E1 & E2 & E3 & E4). unfold make_krad. rewrite E2. cbn [bind]. rewrite E3. cbn [bind]. rewrite E4, E1.
  assert (Hk : 1 <= kn) by apply S. rewrite (proj2 (Nat.leb_le _ _) Hk).
  match goal with |- context [mk_view ?e ?g] => destruct (mk_view_ok e g) as (v & Ev & Xv & Vv) end.
  - intros idx Hi. apply inb4 in Hi as (a & i & q & j & -> & Ha & Hi & Hq & Hj).
    destruct (stack_rd c kn vals ders a j S Ha Hj) as (F1 & F2 & F3 & F4 & F5 & F6). rewrite F1. cbn [bind]. rewrite F3. cbn [bind]. rewrite F2. cbn [bind]. rewrite F4. cbn [bind].
    rewrite (spline_coeff_ok h _ _ i q kn) by auto. eauto.
  - rewrite Ev. cbn [bind]. eexists. split; [reflexivity|]. cbn [kr_h kr_types kr_num kr_c]. repeat split; auto.
    intros a i q j Ha Hi Hq Hj. apply Vv.
    destruct (stack_rd c kn vals ders a j S Ha Hj) as (F1 & F2 & F3 & F4 & F5 & F6). rewrite F1. cbn [bind]. rewrite F3. cbn [bind]. rewrite F2. cbn [bind]. rewrite F4. cbn [bind].
    apply (spline_coeff_ok h _ _ i q kn); auto.
Qed.
End Tab.

Definition pix (T a b : nat) : nat := if a <=? b then tri a T + b else tri b T + a.
(** the table of R0 with the weights multiplied in *)
Lemma kk_R0_table_ok (K lmax T kn : nat) (h : RNum) (vals ders : list (list (list RNum))) (H0 : list RNum) (A0 : list (list (list RNum))) :
  1 <= K -> 1 <= T -> stack (N:=RNum) ((lmax + 1) * K) kn vals ders -> T * (T + 1) / 2 <= length vals -> T * K <= length H0 -> T <= length A0 ->
  (forall t, t < T -> lmax + 1 <= length (nth t A0 []) /\ forall l, l <= lmax -> K * K <= length (nth l (nth t A0 []) [])) ->
  exists v, kk_R0_table (N:=RNum) K lmax T h vals ders H0 A0 = Some v /\ v_ext v = [T * T; kn - 1; 4; (lmax + 1) * K] /\
  forall a b i q l k, a < T -> b < T -> i < kn - 1 -> q < 4 -> l <= lmax -> k < K -> v_val v [a * T + b; i; q; l * K + k] =
    rsum K (fun kp => (nth (kp * K + k) (nth l (nth a A0 []) []) 0 *
      (let x := pix T a b in
       hco (N:=RNum) h (vfun (N:=RNum) (nth (l * K + kp) (nth x vals []) [])) (vfun (N:=RNum) (nth (l * K + kp) (nth x ders []) [])) q i * nth (b * K + kp) H0 0))%R).
Proof.
  intros HK HT S HL HH HA HA'. destruct (stack_0 _ _ _ _ S) as (E1 & E2 & E3 & E4). unfold kk_R0_table. rewrite E2. cbn [bind]. rewrite E3. cbn [bind]. rewrite E4.
  assert (Hk : 1 <= kn) by apply S. rewrite (proj2 (Nat.leb_le _ _) Hk).
  assert (G : forall a b i q l k, a < T -> b < T -> i < kn - 1 -> q < 4 -> l <= lmax -> k < K ->
    (let x := pix T a b in
    va <- rd vals x ;; da <- rd ders x ;; A0_a <- rd A0 a ;; A0_al <- rd A0_a l ;;
    for_ K (fun kp s =>
      vs <- rd va (l*K+kp)%nat ;; ds <- rd da (l*K+kp)%nat ;; c <- spline_coeff (N:=RNum) h vs ds i q ;;
      w0 <- rd H0 (b*K+kp)%nat ;; w <- rd A0_al (kp*K+k)%nat ;; Some (s + w * (c * w0))%num) (@nzero RNum)) =
    Some (rsum K (fun kp => (nth (kp * K + k) (nth l (nth a A0 []) []) 0 *
      (let x := pix T a b in
       hco (N:=RNum) h (vfun (N:=RNum) (nth (l * K + kp) (nth x vals []) [])) (vfun (N:=RNum) (nth (l * K + kp) (nth x ders []) [])) q i * nth (b * K + kp) H0 0))%R))).
  { intros a b i q l k Ha Hb Hi Hq Hl Hkk. cbv zeta. set (x := pix T a b).
    assert (Hx : x < length vals).
    { apply Nat.lt_le_trans with (T * (T + 1) / 2); auto. unfold x, pix, tri. destruct (Nat.leb_spec a b); apply pair_index_lt; lia. }
    assert (Hc : forall kp, kp < K -> l * K + kp < (lmax + 1) * K) by (intros; nia).
    destruct (stack_rd _ _ _ _ x (l * K) S Hx) as (F1 & F2 & _); [specialize (Hc 0); lia|]. rewrite F1, F2. cbn [bind]. clear F1 F2.
    destruct (HA' a Ha) as [HA1 HA2]. rewrite (rd_some A0 a []) by lia. cbn [bind]. rewrite (rd_some _ l []) by lia. cbn [bind].
    match goal with |- for_ K ?bd ?s0 = Some (rsum K ?g) => apply (for_trace (fun i => rsum i g)) end; [apply RNum_zero|reflexivity|].
    intros kp Hkp. destruct (stack_rd _ _ _ _ x (l * K + kp) S Hx (Hc kp Hkp)) as (_ & _ & F3 & F4 & F5 & F6). rewrite F3. cbn [bind]. rewrite F4. cbn [bind].
    rewrite (spline_coeff_ok _ _ _ i q kn) by auto. cbn [bind]. rewrite (rd_some H0 _ 0%R) by nia. cbn [bind]. 
    rewrite (rd_some (nth l (nth a A0 []) []) _ 0%R) by (specialize (HA2 l Hl); nia). cbn [bind]. rewrite rsum_S. reflexivity. }
  match goal with |- context [mk_view ?e ?g] => destruct (mk_view_ok (N:=RNum) e g) as (v & Ev & Xv & Vv) end.
  - intros idx Hi. apply inb4 in Hi as (ab & i & q & lk & -> & Hab & Hi & Hq & Hlk).
    assert (D1 : ab / T < T) by (apply Nat.div_lt_upper_bound; lia). assert (D2 : ab mod T < T) by (apply Nat.mod_upper_bound; lia).
    assert (D3 : lk / K < lmax + 1) by (apply Nat.div_lt_upper_bound; [lia|rewrite Nat.mul_comm; auto]). assert (D4 : lk mod K < K) by (apply Nat.mod_upper_bound; lia).
    specialize (G (ab / T) (ab mod T) i q (lk / K) (lk mod K) D1 D2 Hi Hq). cbv zeta in G |- *. eexists. apply G; lia.
  - rewrite Ev. exists v. split; [reflexivity|]. split; [exact Xv|]. intros a b i q l k Ha Hb Hi Hq Hl Hkk. apply Vv.
    specialize (G a b i q l k Ha Hb Hi Hq Hl Hkk). cbv zeta in G |- *.
    assert (D1 : (a * T + b) / T = a) by (rewrite Nat.div_add_l, Nat.div_small by lia; lia).
    assert (D2 : (a * T + b) mod T = b) by (rewrite Nat.add_comm, Nat.mod_add, Nat.mod_small by lia; lia).
    assert (D3 : (l * K + k) / K = l) by (rewrite Nat.div_add_l, Nat.div_small by lia; lia).
    assert (D4 : (l * K + k) mod K = k) by (rewrite Nat.add_comm, Nat.mod_add, Nat.mod_small by lia; lia).
    rewrite D1, D2, D3, D4. exact G.
Qed.

Lemma monomial_table_ok ms : (forall mo, In mo ms -> length mo <= 3) -> exists t, monomial_table ms = Some t.
Proof.
  intros H. unfold monomial_table.
  assert (G : forall mo, length mo <= 3 -> exists row, for_ (length mo) (fun j row => x <- rd mo j ;; wr row j (Z.of_nat x)) (repeat (-1)%Z 3) = Some row).
  { intros mo Hm. destruct mo as [|a [|b [|c [|? ?]]]]; cbn in Hm |- *; try (eexists; reflexivity). lia. }
  match goal with |- context [for_ ?n ?bd ?s0] => destruct (for_inv (fun (i : nat) (s : list (list Z)) => True) n bd s0) as (t & E & _); auto end; [|eauto].
  intros i s Hi _. rewrite (rd_some ms i []) by auto. cbn [bind]. destruct (G (nth i ms [])) as [row E]; [apply H; apply nth_In; auto|]. rewrite E. cbn [bind]. eauto.
Qed.

Lemma make_kmlp_ok {N : Num} K H (w1 w2 : list N) scale : length w1 = K * H -> length w2 = H ->
  exists p V0 V1, make_kmlp [K; H; 1] [w1; w2] scale = Some p /\ kl_shape p = [K; H; 1] /\ kl_scale p = scale /\ kl_weights p = [V0; V1] /\
    v_ext V0 = [H; K] /\ v_ext V1 = [1; H] /\ (forall i j, i < H -> j < K -> v_val V0 [i; j] = nth (i * K + j) w1 nzero) /\
    (forall i j, i < 1 -> j < H -> v_val V1 [i; j] = nth j w2 nzero).
Proof.
  intros L1 L2. unfold make_kmlp. cbn [length Nat.sub for_ for_from].
  cbn [rd nth_error bind Nat.add].
  match goal with |- context [mk_view [H; K] ?g] => destruct (mk_view_ok [H; K] g) as (V0 & E0 & X0 & F0) end.
  { intros idx Hi. apply inb2 in Hi as (i & j & -> & Hi & Hj). rewrite (rd_some _ _ nzero) by nia. eauto. }
  rewrite E0. cbn [bind].
  match goal with |- context [mk_view [1; H] ?g] => destruct (mk_view_ok [1; H] g) as (V1 & E1 & X1 & F1) end.
  { intros idx Hi. apply inb2 in Hi as (i & j & -> & Hi & Hj). rewrite (rd_some _ _ nzero) by nia. eauto. }
  rewrite E1. cbn [bind app]. eexists _, V0, V1. split; [reflexivity|]. cbn. repeat split; auto.
  - intros i j Hi Hj. apply F0. apply rd_some. nia.
  - intros i j Hi Hj. apply F1. replace (i * H + j) with j by nia. apply rd_some. lia.
Qed.
