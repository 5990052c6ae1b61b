(** Kernels of compute_M0, reverse_M0, compute_M1 and reverse_M1.  Used in proofs only. *)
From Coq Require Import List Arith ZArith Bool Lia Reals Lra FunctionalExtensionality.
From Verif Require Import Base BaseLemmas Segs Instances RSums ToolsModel BlasLemmas MpModel MpProofs MaceModel Sys SysLoops MacePure MaceStages1.
From Verif Require Import KkSem KkSound KkWp KkWp2 KkModel KkHost KkTac KkK1 KkK2.
Import ListNotations.
Local Open Scope R_scope.

(** sums with one term *)
Definition at_cell (c c' : cell) (t : R) : R := if cell_dec c c' then t else 0.
Lemma at_eq c t : at_cell c c t = t.
Proof. unfold at_cell. destruct (cell_dec c c); congruence. Qed.
Lemma at_ne c c' t : c <> c' -> at_cell c c' t = 0.
Proof. unfold at_cell. destruct (cell_dec c c'); congruence. Qed.
Lemma at_rsum c c' n f : rsum n (fun k => at_cell c c' (f k)) = at_cell c c' (rsum n f).
Proof. unfold at_cell. destruct (cell_dec c c'); auto. apply rsum_0. auto. Qed.
Lemma rsum_one n k (f : nat -> R) : (k < n)%nat -> (forall k', (k' < n)%nat -> k' <> k -> f k' = 0) -> rsum n f = f k.
Proof.
  revert k; induction n as [|n IH]; intros k Hk H; [lia|]. rewrite rsum_S. destruct (Nat.eq_dec k n) as [->|E].
  - rewrite rsum_0; [ring|]. intros i Hi. apply H; lia.
  - rewrite (IH k) by (try lia; intros; apply H; lia). rewrite (H n) by lia. ring.
Qed.
Lemma va_add_at (m : rmem) c v c' : va (store m c (va m c + v)) c' = va m c' + at_cell c' c v.
Proof.
  unfold at_cell. destruct (cell_dec c' c) as [->|E]; [apply va_store_eq|]. rewrite va_store_ne by congruence. ring.
Qed.

Section K.
Variable km : kmace RNum.
Variable s : sys RNum.
Notation n := (length s).
Notation nE := (length (epairs s)).
Notation K := (k_num_channels km).
Notation L := (k_num_lm km).
Notation M := (k_num_LM km).
Notation nb i := (length (es s i)).

Section M0.
Variable P0 : nat -> nat -> nat -> @mpoly RNum.
Definition kE LM : list (nat * nat) := nth LM (k_M0_poly_spec km) [].
Definition poly_in (v : view RNum) (E : list (nat * nat)) (t k : nat) (P : @mpoly RNum) : Prop :=
  mp_wf P /\ mp_nvars P = L /\ mp_edges P = E /\
  forall q, (q < L + length E)%nat -> vget v [t; q; k] = Some (nth q (mp_ncoeffs P) 0).
Definition M0_in : Prop := forall LM, (LM < M)%nat -> (LM < length (k_M0_poly_spec km))%nat /\
  exists v, rd (k_M0_poly_coeff km) LM = Some v /\ coeff_ext1 v = (L + length (kE LM))%nat /\
  forall i k, (i < n)%nat -> (k < K)%nat -> poly_in v (kE LM) (ty s i) k (P0 (ty s i) LM k).
Hypothesis HP : M0_in.
Definition kx0 m i k : list R := tab L (fun lm => va m (bA0, [i; lm; k])).
Definition kv0 m i LM k : list R := vlist (P0 (ty s i) LM k) (kx0 m i k) (length (kE LM)).

Definition m0_own1 (c : cell) : option nat := match c with
  | (bM0, [i; LM; _]) => Some (i * M + LM)%nat | (bM0v LM, [i; _; _]) => Some (i * M + LM)%nat | _ => None end.
Definition m0_own2 (c : cell) : option nat := match c with (bM0v _, [_; lm; _]) => Some lm | _ => None end.
Definition m0_own3 (c : cell) : option nat := match c with (bM0v _, [_; _; k]) => Some k | _ => None end.
Definition m0_own4 (c : cell) : option nat := match c with (bM0v _, [_; _; k]) => Some k | (bM0, [_; _; k]) => Some k | _ => None end.
Definition m0_acc (c : cell) : bool := match c with (bM0, _) => true | _ => false end.
Definition m0_sp1 m (c : cell) (v : R) : Prop := match c with (bM0v LM, [i; lm; k]) =>
   (i < n)%nat -> (LM < M)%nat -> (lm < L)%nat -> (k < K)%nat -> v = va m (bA0, [i; lm; k]) | _ => True end.
Definition m0_sp m (c : cell) (v : R) : Prop := match c with
  | (bM0v LM, [i; q; k]) => (i < n)%nat -> (LM < M)%nat -> (q < L + length (kE LM))%nat -> (k < K)%nat -> v = nth q (kv0 m i LM k) 0
  | (bM0, [i; LM; k]) => (i < n)%nat -> (LM < M)%nat -> (k < K)%nat -> v = va m (bM0, [i; LM; k]) + pval (P0 (ty s i) LM k) (kx0 m i k)
  | _ => True end.
Definition o_M0 (b : buf) : bool := match b with bM0 | bM0v _ | bScr => true | _ => false end.

Lemma psum P (x : list R) E : mp_wf P -> mp_edges P = E -> mp_nvars P = L -> length x = L ->
  pval P x = rsum (L + length E) (fun q => nth q (mp_ncoeffs P) 0 * nth q (vlist P x (length E)) 0).
Proof.
  intros W HE HL Hx. unfold pval. rewrite nsum_rsum, (wf_nodes P W), HE, HL. reflexivity.
Qed.
Lemma length_kx0 m i k : length (kx0 m i k) = L. Proof. apply length_tab. Qed.

Lemma k_M0 m : cov m bA0 [n; L; K] -> cov m bM0 [n; M; K] -> (forall LM, (LM < M)%nat -> cov m (bM0v LM) [n; L + length (kE LM); K]%nat) ->
  wp top (kk_M0_kernel km n (f_node_types s)) m (fun _ m' => keep o_M0 m m' /\
    (forall i LM k, (i < n)%nat -> (LM < M)%nat -> (k < K)%nat ->
       va m' (bM0, [i; LM; k]) = va m (bM0, [i; LM; k]) + pval (P0 (ty s i) LM k) (kx0 m i k)) /\
    (forall i LM q k, (i < n)%nat -> (LM < M)%nat -> (q < L + length (kE LM))%nat -> (k < K)%nat ->
       va m' (bM0v LM, [i; q; k]) = nth q (kv0 m i LM k) 0)).
Proof.
  intros C1 C2 C3. unfold kk_M0_kernel.
  apply (wp_pfor2 top m0_own1 none_ (m0_sp m) nadd_).
  - intros i LM Hi HM. cbv zeta. rewrite divL, modL by auto.
    destruct (HP LM HM) as (HS & v & Ev & Ex & HI). pose proof (C3 LM HM) as C3'.
    eapply wp_lift; [exact Ev|]. eapply wp_lift; [exact (rd_some (k_M0_poly_spec km) LM [] HS)|]. fold (kE LM).
    eapply wp_lift; [apply rd_ty; auto|].
    set (x := kx0 m i).
    assert (Hx : forall lm k, (lm < L)%nat -> nth lm (x k) 0 = va m (bA0, [i; lm; k])) by (intros lm k Hl; exact (nth_tab (A:=R) L (fun lm => va m (bA0, [i; lm; k])) lm 0 Hl)).
    set (t1 := fun lm k => nth lm (mp_ncoeffs (P0 (ty s i) LM k)) 0 * va m (bA0, [i; lm; k])).
    apply wp_bind.
    apply (wp_pfor _ m0_own2 m0_acc (m0_sp1 m) (fun lm c => rsum K (fun k => at_cell c (bM0, [i; LM; k]) (t1 lm k)))).
    + intros lm Hl. apply (wp_pfor _ m0_own3 m0_acc (m0_sp1 m) (fun k c => at_cell c (bM0, [i; LM; k]) (t1 lm k))).
      * intros k Hk. destruct (HI i k Hi Hk) as (W & HL & HE & HV).
        apply wp_get; [look|al|]. apply wp_put; [look|al|].
        eapply wp_lift; [apply (HV lm); lia|].
        apply wp_get; [look|al|]. rewrite va_store_eq.
        apply wp_add_; [look|al|]. split.
        -- intros c P O. cell3 c O i' lm' k'. apply some_inj in O. owned2 P P2.
           intros A B C D. destruct (pairL _ _ _ _ _ P B HM) as [-> ->]. subst.
           rewrite va_store_ne by discriminate. apply va_store_eq.
        -- intros c [A B]. rewrite va_add_at. rewrite va_store_ne; [reflexivity|]. intros <-. discriminate A.
      * intros m' (D & P1 & _ & P3 & _). split.
        -- intros c P O. cell3 c O i' lm' k'. apply some_inj in O. subst lm'. owned P. intros A B C E.
           destruct (pairL _ _ _ _ _ P B HM) as [-> ->]. apply (P1 (bM0v LM, [i; lm; k']) k'); auto. look.
        -- intros c [A B]. apply P3. split; auto. left. unfold kd at 1. rewrite A. destruct B as [->|[-> ->]]; reflexivity.
    + intros m1 (D1 & P1 & _ & P3 & _).
      assert (V1 : forall lm k, (lm < L)%nat -> (k < K)%nat -> va m1 (bM0v LM, [i; lm; k]) = nth lm (x k) 0).
      { intros lm k Hl Hk. rewrite Hx by auto. apply (P1 (bM0v LM, [i; lm; k]) lm); auto. look. }
      assert (V2 : forall k, (k < K)%nat -> va m1 (bM0, [i; LM; k]) = va m (bM0, [i; LM; k]) + rsum L (fun lm => t1 lm k)).
      { intros k Hk. rewrite P3. 2: { split; [reflexivity|right; split; [look|reflexivity]]. } f_equal. apply rsum_ext. intros lm Hl.
        rewrite (rsum_one K k) by (auto; intros k' _ Hne; apply at_ne; congruence). apply at_eq. }
      clear P1 P3.
      apply (wp_pfor _ m0_own4 none_ (m0_sp m) nadd_).
      * intros k Hk. destruct (HI i k Hi Hk) as (W & HL & HE & HV).
        set (P := P0 (ty s i) LM k) in *.
        set (I := fun p (_ : unit) (m2 : rmem) => dims m2 = dims m /\
           (forall q, (q < L + p)%nat -> va m2 (bM0v LM, [i; q; k]) = nth q (vlist P (x k) p) 0) /\
           va m2 (bM0, [i; LM; k]) = va m (bM0, [i; LM; k]) + rsum (L + p) (fun q => nth q (mp_ncoeffs P) 0 * nth q (vlist P (x k) p) 0)).
        apply (wp_for _ _ _ _ I).
        -- split; [congruence|]. rewrite !Nat.add_0_r. split; [intros q Hq; apply V1; auto|].
           rewrite V2 by auto. f_equal. apply rsum_ext. intros q Hq. unfold t1. fold P. cbn [vlist]. rewrite Hx by auto. reflexivity.
        -- intros p [] m2 Hp (Dm & I1 & I2).
           assert (Hp2 : (p < length (kE LM))%nat) by exact Hp. assert (Hp' : (p < length (mp_edges P))%nat) by (rewrite HE; exact Hp). destruct (ed_ok P W p Hp') as (Er & H0 & H1). rewrite HE in Er. rewrite HL in H0, H1.
           eapply wp_lift; [exact Er|].
           apply wp_get; [look|al|]. rewrite I1 by auto. apply wp_get; [look|al|]. rewrite I1 by auto.
           apply wp_put; [look|al|].
           eapply wp_lift; [apply HV; lia|].
           apply wp_get; [look|al|]. rewrite va_store_eq.
           apply wp_plus_; [look|al|].
           assert (EL : length (vlist P (x k) p) = (L + p)%nat) by (rewrite length_vlist; f_equal; apply length_tab).
           assert (EN : forall q, (q < L + p)%nat -> nth q (vlist P (x k) (S p)) 0 = nth q (vlist P (x k) p) 0).
           { intros q Hq. cbn [vlist]. rewrite app_nth1; [reflexivity|]. rewrite EL. auto. }
           assert (EO : nth (L + p) (vlist P (x k) (S p)) 0 = nth (fst (ed P p)) (vlist P (x k) p) 0 * nth (snd (ed P p)) (vlist P (x k) p) 0).
           { cbn [vlist]. rewrite <- EL at 1. rewrite app_nth2, Nat.sub_diag by lia. reflexivity. }
           split; [auto|]. rewrite Nat.add_succ_r. split.
           ++ intros q Hq. rewrite va_store_ne by discriminate. destruct (Nat.eq_dec q (L + p)) as [->|Hne].
              ** rewrite va_store_eq, EO. reflexivity.
              ** rewrite va_store_ne by (intros E'; injection E'; lia). rewrite I1, EN by lia. reflexivity.
           ++ rewrite va_store_eq, va_store_ne by discriminate. rewrite I2, rsum_S, EO, Rplus_assoc. f_equal. f_equal.
              apply rsum_ext. intros q Hq. rewrite EN by auto. reflexivity.
        -- intros [] m2 (Dm & I1 & I2). apply kpost_own. intros c Pc O.
           destruct c as [b idx]; destruct b; try discriminate O; idx3 idx O i' q k'; subst k'; owned Pc; intros A B C.
           ++ destruct (pairL _ _ _ _ _ Pc B HM) as [-> ->]. rewrite I2, (psum P _ (kE LM)) by (auto; apply length_kx0). reflexivity.
           ++ intros _. destruct (pairL _ _ _ _ _ Pc B HM) as [-> ->]. apply I1. auto.
      * intros m' (D & P1 & _). apply kpost_own. intros c Pc O.
        destruct c as [b idx]; destruct b; try discriminate O; idx3 idx O i' q k'; intros A B C.
        -- destruct (pairL _ _ _ _ _ O B HM) as [-> ->]. apply (P1 (bM0, [i; LM; k']) k'); auto. look.
        -- intros C'. destruct (pairL _ _ _ _ _ O B HM) as [-> ->]. apply (P1 (bM0v LM, [i; q; k']) k'); auto. look.
  - intros m' (D & P1 & _ & _ & P4). split; [keepv P4|]. split.
    + intros i LM k Hi HM Hk. apply (P1 (bM0, [i; LM; k]) (i * M + LM)%nat); auto. nia.
    + intros i LM q k Hi HM Hq Hk. apply (P1 (bM0v LM, [i; q; k]) (i * M + LM)%nat); auto. nia.
Qed.


(** ** reverse_M0 *)
Lemma row_add (m2 : rmem) (b : buf) i k nn i0 l (t : R) : (i0 < nn)%nat -> length l = nn ->
  (forall q, (q < nn)%nat -> va m2 (b, [i; q; k]) = nth q l 0) ->
  forall q, (q < nn)%nat -> va (store m2 (b, [i; i0; k]) (va m2 (b, [i; i0; k]) + t)) (b, [i; q; k]) = nth q (add_at (N:=RNum) l i0 t) 0.
Proof.
  intros Hi Hl H q Hq. rewrite va_add_at.
  assert (E : nth q (add_at (N:=RNum) l i0 t) 0 = if (i0 =? q)%nat then nth q l 0 + t else nth q l 0)
    by exact (nth_add_at (N:=RNum) l i0 t q 0 (eq_ind_r (fun z => (i0 < z)%nat) Hi Hl)). rewrite E.
  destruct (Nat.eqb_spec i0 q) as [->|Hne].
  - rewrite at_eq, H by auto. reflexivity.
  - rewrite at_ne by congruence. rewrite H by auto. ring.
Qed.
Definition kV0 m i LM k : list R := tab (L + length (kE LM)) (fun q => va m (bM0v LM, [i; q; k])).
Definition kb0 m i LM k : list R := blist (P0 (ty s i) LM k) (kV0 m i LM k) (length (kE LM)).
Definition r0m_own1 (c : cell) : option nat := match c with (bM0j LM, [i; _; _]) => Some (i * M + LM)%nat | _ => None end.
Definition r0m_acc (c : cell) : bool := match c with (bA0a, _) => true | _ => false end.
Definition r0m_own2 (c : cell) : option nat := match c with (bM0j _, [_; lm; _]) => Some lm | _ => None end.
Definition r0m_own3 (c : cell) : option nat := match c with (bM0j _, [_; _; k]) => Some k | _ => None end.
Definition r0m_sp1 (c : cell) (v : R) : Prop := match c with (bM0j LM, [i; q; k]) =>
   (i < n)%nat -> (LM < M)%nat -> (q < L + length (kE LM))%nat -> (k < K)%nat -> v = nth q (mp_ncoeffs (P0 (ty s i) LM k)) 0 | _ => True end.
Definition r0m_sp m (c : cell) (v : R) : Prop := match c with (bM0j LM, [i; q; k]) =>
   (i < n)%nat -> (LM < M)%nat -> (q < L + length (kE LM))%nat -> (k < K)%nat -> v = nth q (kb0 m i LM k) 0 | _ => True end.
Definition r0m_add m (rank : nat) (c : cell) : R := rsum L (fun lm => rsum K (fun k =>
  at_cell c (bA0a, [rank / M; lm; k]%nat) (nth lm (kb0 m (rank / M) (rank mod M) k) 0 * va m (bM0a, [rank / M; rank mod M; k]%nat)))).
Definition o_rM0 (b : buf) : bool := match b with bA0a | bM0j _ | bScr => true | _ => false end.

Lemma k_rM0 m : cov m bA0a [n; L; K] -> cov m bM0a [n; M; K] ->
  (forall LM, (LM < M)%nat -> cov m (bM0v LM) [n; L + length (kE LM); K]%nat) ->
  (forall LM, (LM < M)%nat -> cov m (bM0j LM) [n; L + length (kE LM); K]%nat) ->
  wp top (kk_reverse_M0_kernel km n (f_node_types s)) m (fun _ m' => keep o_rM0 m m' /\
    (forall i lm k, (i < n)%nat -> (lm < L)%nat -> (k < K)%nat ->
       va m' (bA0a, [i; lm; k]) = va m (bA0a, [i; lm; k]) + rsum M (fun LM => nth lm (kb0 m i LM k) 0 * va m (bM0a, [i; LM; k])))).
Proof.
  intros C1 C2 C3 C4. unfold kk_reverse_M0_kernel.
  apply (wp_pfor2 top r0m_own1 r0m_acc (r0m_sp m) (r0m_add m)).
  - intros i LM Hi HM. cbv zeta. rewrite divL, modL by auto.
    destruct (HP LM HM) as (HS & v & Ev & Ex & HI). pose proof (C3 LM HM) as C3'. pose proof (C4 LM HM) as C4'.
    eapply wp_lift; [exact Ev|]. eapply wp_lift; [exact (rd_some (k_M0_poly_spec km) LM [] HS)|].
    change (nth LM (k_M0_poly_spec km) []) with (kE LM).
    eapply wp_lift; [apply rd_ty; auto|]. rewrite Ex.
    apply wp_bind.
    apply (wp_pfor _ r0m_own2 none_ r0m_sp1 nadd_).
    + intros p Hp. apply (wp_pfor _ r0m_own3 none_ r0m_sp1 nadd_).
      * intros k Hk. destruct (HI i k Hi Hk) as (W & HL & HE & HV).
        eapply wp_lift; [apply (HV p); lia|]. apply wp_put_; [look|al|].
        apply kpost_own. intros c Pc O. cell3 c O i' q k'. apply some_inj in O. owned2 Pc P2. intros A B C D.
        destruct (pairL _ _ _ _ _ Pc B HM) as [-> ->]. subst. apply va_store_eq.
      * intros m' (D & P1 & _). apply kpost_own. intros c Pc O. cell3 c O i' q k'. apply some_inj in O. subst q. owned Pc.
        intros A B C D'. destruct (pairL _ _ _ _ _ Pc B HM) as [-> ->]. apply (P1 (bM0j LM, [i; p; k']) k'); auto. look.
    + intros m1 (D1 & P1 & _ & _ & P4).
      assert (V1 : forall q k, (q < L + length (kE LM))%nat -> (k < K)%nat ->
        va m1 (bM0j LM, [i; q; k]) = nth q (mp_ncoeffs (P0 (ty s i) LM k)) 0).
      { intros q k Hq Hk. apply (P1 (bM0j LM, [i; q; k]) q); auto. look. }
      assert (F1 : forall b idx, match b with bM0j _ => False | _ => True end -> va m1 (b, idx) = va m (b, idx)).
      { intros b idx Hb. apply P4. unfold idle, kd, top. destruct b; try contradiction; cbn; auto. }
      clear P1 P4.
      apply wp_bind.
      apply (wp_pfor _ r0m_own3 none_ (r0m_sp m) nadd_).
      * intros k Hk. destruct (HI i k Hi Hk) as (W & HL & HE & HV).
        set (P := P0 (ty s i) LM k) in *. set (V := kV0 m i LM k).
        assert (LV : forall q, (q < L + length (kE LM))%nat -> nth q V 0 = va m (bM0v LM, [i; q; k]))
          by (intros q Hq; exact (nth_tab (A:=R) _ (fun q => va m (bM0v LM, [i; q; k])) q 0 Hq)).
        assert (EB : forall p, length (blist P V p) = (L + length (kE LM))%nat)
          by (intros p; rewrite length_blist, (wf_nodes P W), HL, HE; auto).
        set (I := fun p (_ : unit) (m2 : rmem) => dims m2 = dims m /\
           (forall q, (q < L + length (kE LM))%nat -> va m2 (bM0j LM, [i; q; k]) = nth q (blist P V p) 0) /\
           (forall idx, va m2 (bM0v LM, idx) = va m (bM0v LM, idx))).
        apply (wp_for _ _ _ _ I).
        -- split; [congruence|]. split; [intros q Hq; rewrite V1 by auto; reflexivity|]. intros idx. apply F1. exact Logic.I.
        -- intros p [] m2 Hp (Dm & I1 & I2).
           set (p' := (length (kE LM) - 1 - p)%nat).
           assert (Hp' : (p' < length (kE LM))%nat) by (assert (Hp0 : (p < length (kE LM))%nat) by exact Hp; unfold p'; lia).
           assert (Hp2 : (p' < length (mp_edges P))%nat) by (rewrite HE; exact Hp').
           destruct (ed_ok P W p' Hp2) as (Er & H0 & H1). rewrite HE in Er. rewrite HL in H0, H1.
           eapply wp_lift; [exact Er|].
           assert (EB' : blist P V (S p) = bstep P V p' (blist P V p)) by (cbn [blist]; rewrite HE; reflexivity).
           apply wp_get; [look|al|]. rewrite I1 by lia. apply wp_get; [look|al|]. rewrite I2, <- LV by lia.
           apply wp_plus; [look|al|].
           assert (R1 := row_add m2 (bM0j LM) i k (L + length (kE LM)) (fst (ed P p')) (blist P V p) (nth (L + p') (blist P V p) 0 * nth (snd (ed P p')) V 0)
             ltac:(lia) (EB p) I1).
           match type of R1 with context [store m2 ?c ?v] => set (m3 := store m2 c v) in * end.
           match goal with |- wp _ _ ?mm _ => change mm with m3 end.
           assert (D3 : dims m3 = dims m) by exact Dm.
           apply wp_get; [look|al|]. rewrite R1 by lia. apply wp_get; [look|al|].
           replace (va m3 (bM0v LM, [i; fst (ed P p'); k])) with (nth (fst (ed P p')) V 0)
             by (unfold m3; rewrite va_store_ne by discriminate; rewrite I2, LV by lia; reflexivity).
           apply wp_plus_; [look|al|].
           assert (R2 := row_add m3 (bM0j LM) i k (L + length (kE LM)) (snd (ed P p')) _ 
             (nth (L + p') (add_at (N:=RNum) (blist P V p) (fst (ed P p')) (nth (L + p') (blist P V p) 0 * nth (snd (ed P p')) V 0)) 0 * nth (fst (ed P p')) V 0)
             ltac:(lia) ltac:(rewrite length_add_at; apply EB) R1).
           split; [auto|]. split.
           ++ intros q Hq. refine (eq_trans (R2 q Hq) _). rewrite EB'. unfold bstep. rewrite HL. reflexivity.
           ++ intros idx. unfold m3. rewrite !va_store_ne by discriminate. apply I2.
        -- intros [] m2 (Dm & I1 & I2). apply kpost_own. intros c Pc O.
           cell3 c O i' q k'. apply some_inj in O. subst k'. owned Pc. intros A B C _.
           destruct (pairL _ _ _ _ _ Pc B HM) as [-> ->]. apply I1. auto.
      * intros m2 (D2 & P1 & _ & _ & P4).
        assert (V2 : forall q k, (q < L + length (kE LM))%nat -> (k < K)%nat -> va m2 (bM0j LM, [i; q; k]) = nth q (kb0 m i LM k) 0).
        { intros q k Hq Hk. apply (P1 (bM0j LM, [i; q; k]) k); auto. look. }
        assert (F2 : forall b idx, match b with bM0j _ => False | _ => True end -> va m2 (b, idx) = va m (b, idx)).
        { intros b idx Hb. rewrite <- F1 by auto. apply P4. unfold idle, kd, top. destruct b; try contradiction; cbn; auto. }
        clear P1 P4.
        apply (wp_pfor _ nown r0m_acc tsp (fun lm c => rsum K (fun k => at_cell c (bA0a, [i; lm; k]) (nth lm (kb0 m i LM k) 0 * va m (bM0a, [i; LM; k]))))).
        -- intros lm Hl. apply (wp_pfor _ nown r0m_acc tsp (fun k c => at_cell c (bA0a, [i; lm; k]) (nth lm (kb0 m i LM k) 0 * va m (bM0a, [i; LM; k])))).
           ++ intros k Hk. apply wp_get; [look|al|]. apply wp_get; [look|al|].
              apply wp_add_; [look|al|]. split; [intros c _ O; discriminate O|]. intros c [A B].
              rewrite va_add_at. rewrite V2 by lia. rewrite (F2 bM0a) by exact I. reflexivity.
           ++ intros m' (D & _ & _ & P3 & _). split; [intros c _ O; discriminate O|].
              intros c [A B]. apply P3. split; auto. left. unfold kd at 1. rewrite A. destruct B as [->|[-> ->]]; reflexivity.
        -- intros m' (D & _ & _ & P3 & P4). split.
           ++ intros c Pc O. cell3 c O i' q k'. apply some_inj in O. intros A B C E.
              destruct (pairL _ _ _ _ _ O B HM) as [-> ->].
              rewrite P4 by (unfold idle, kd, top; lcbn; eqbs; auto). apply V2; auto.
           ++ intros c [A B]. rewrite P3.
              ** unfold r0m_add. rewrite divL, modL by auto. f_equal.
                 destruct c as [b idx]. destruct b; try discriminate A. apply F2. exact I.
              ** split; auto. left. unfold kd. destruct B as [B|[B1 B2]]; [discriminate B|]. rewrite B1, B2, A. reflexivity.
  - intros m' (D & P1 & _ & P3 & P4). split; [keepv P4|].
    intros i lm k Hi Hl Hk. rewrite P3 by (split; [reflexivity|right; split; reflexivity]). f_equal.
    rewrite rsum_pair. rewrite (rsum_one n i); auto.
    + apply rsum_ext. intros LM HM. unfold r0m_add. rewrite divL, modL by auto.
      rewrite (rsum_one L lm); auto; [rewrite (rsum_one K k); auto; [apply at_eq|]|].
      * intros k' _ Hne. apply at_ne. congruence.
      * intros lm' _ Hne. apply rsum_0. intros k' _. apply at_ne. congruence.
    + intros i' Hi' Hne. apply rsum_0. intros LM HM. unfold r0m_add. rewrite divL, modL by auto.
      apply rsum_0. intros lm' _. apply rsum_0. intros k' _. apply at_ne. congruence.
Qed.
End M0.

Section M1.
Variable P1 : nat -> nat -> @mpoly RNum.
Notation E1 := (k_M1_poly_spec km).
Definition M1_in : Prop := coeff_ext1 (k_M1_poly_coeff km) = (L + length E1)%nat /\
  forall i k, (i < n)%nat -> (k < K)%nat -> poly_in (k_M1_poly_coeff km) E1 (ty s i) k (P1 (ty s i) k).
Hypothesis HP : M1_in.
Definition kx1 m i k : list R := tab L (fun lm => va m (bA1, [i; lm; k])).
Definition kv1 m i k : list R := vlist (P1 (ty s i) k) (kx1 m i k) (length E1).
Lemma length_kx1 m i k : length (kx1 m i k) = L. Proof. apply length_tab. Qed.

Definition m1_own1 (c : cell) : option nat := match c with
  | (bM1, [i; _]) => Some i | (bM1v, [i; _; _]) => Some i | _ => None end.
Definition m1_own2 (c : cell) : option nat := match c with (bM1v, [_; lm; _]) => Some lm | _ => None end.
Definition m1_own3 (c : cell) : option nat := match c with (bM1v, [_; _; k]) => Some k | _ => None end.
Definition m1_own4 (c : cell) : option nat := match c with (bM1v, [_; _; k]) => Some k | (bM1, [_; k]) => Some k | _ => None end.
Definition m1_acc (c : cell) : bool := match c with (bM1, _) => true | _ => false end.
Definition m1_sp1 m (c : cell) (v : R) : Prop := match c with (bM1v, [i; lm; k]) =>
   (lm < L)%nat -> (k < K)%nat -> v = va m (bA1, [i; lm; k]) | _ => True end.
Definition m1_sp m (c : cell) (v : R) : Prop := match c with
  | (bM1v, [i; q; k]) => (q < L + length E1)%nat -> (k < K)%nat -> v = nth q (kv1 m i k) 0
  | (bM1, [i; k]) => (k < K)%nat -> v = va m (bM1, [i; k]) + pval (P1 (ty s i) k) (kx1 m i k)
  | _ => True end.
Definition o_M1 (b : buf) : bool := match b with bM1 | bM1v | bScr => true | _ => false end.

Lemma k_M1 m : cov m bA1 [n; L; K] -> cov m bM1 [n; K] -> cov m bM1v [n; L + length E1; K]%nat ->
  wp top (kk_M1_kernel km n (f_node_types s)) m (fun _ m' => keep o_M1 m m' /\
    (forall i k, (i < n)%nat -> (k < K)%nat ->
       va m' (bM1, [i; k]) = va m (bM1, [i; k]) + pval (P1 (ty s i) k) (kx1 m i k)) /\
    (forall i q k, (i < n)%nat -> (q < L + length E1)%nat -> (k < K)%nat -> va m' (bM1v, [i; q; k]) = nth q (kv1 m i k) 0)).
Proof.
  destruct HP as [_ HI]. intros C1 C2 C3. unfold kk_M1_kernel.
  apply (wp_pfor top m1_own1 none_ (m1_sp m) nadd_).
  - intros i Hi. cbv zeta.
    eapply wp_lift; [apply rd_ty; auto|].
    set (x := kx1 m i).
    assert (Hx : forall lm k, (lm < L)%nat -> nth lm (x k) 0 = va m (bA1, [i; lm; k])) by (intros lm k Hl; exact (nth_tab (A:=R) L (fun lm => va m (bA1, [i; lm; k])) lm 0 Hl)).
    set (t1 := fun lm k => nth lm (mp_ncoeffs (P1 (ty s i) k)) 0 * va m (bA1, [i; lm; k])).
    apply wp_bind.
    apply (wp_pfor _ m1_own2 m1_acc (m1_sp1 m) (fun lm c => rsum K (fun k => at_cell c (bM1, [i; k]) (t1 lm k)))).
    + intros lm Hl. apply (wp_pfor _ m1_own3 m1_acc (m1_sp1 m) (fun k c => at_cell c (bM1, [i; k]) (t1 lm k))).
      * intros k Hk. destruct (HI i k Hi Hk) as (W & HL & HE & HV).
        apply wp_get; [look|al|]. apply wp_put; [look|al|].
        eapply wp_lift; [apply (HV lm); lia|].
        apply wp_get; [look|al|]. rewrite va_store_eq.
        apply wp_add_; [look|al|]. split.
        -- intros c P O. cell3 c O i' lm' k'. apply some_inj in O. owned2 P P2. subst. intros A B.
           rewrite va_store_ne by discriminate. apply va_store_eq.
        -- intros c [A B]. rewrite va_add_at. rewrite va_store_ne; [reflexivity|]. intros <-. discriminate A.
      * intros m' (D & Q1 & _ & Q3 & _). split.
        -- intros c P O. cell3 c O i' lm' k'. apply some_inj in O. owned P. subst. intros A B. apply (Q1 (bM1v, [i; lm; k']) k'); auto. look.
        -- intros c [A B]. apply Q3. split; auto. left. unfold kd at 1. rewrite A. destruct B as [->|[-> ->]]; reflexivity.
    + intros m1 (D1 & Q1 & _ & Q3 & _).
      assert (V1 : forall lm k, (lm < L)%nat -> (k < K)%nat -> va m1 (bM1v, [i; lm; k]) = nth lm (x k) 0).
      { intros lm k Hl Hk. rewrite Hx by auto. apply (Q1 (bM1v, [i; lm; k]) lm); auto. look. }
      assert (V2 : forall k, (k < K)%nat -> va m1 (bM1, [i; k]) = va m (bM1, [i; k]) + rsum L (fun lm => t1 lm k)).
      { intros k Hk. rewrite Q3. 2: { split; [reflexivity|right; split; [look|reflexivity]]. } f_equal. apply rsum_ext. intros lm Hl.
        rewrite (rsum_one K k) by (auto; intros k' _ Hne; apply at_ne; congruence). apply at_eq. }
      clear Q1 Q3.
      apply (wp_pfor _ m1_own4 none_ (m1_sp m) nadd_).
      * intros k Hk. destruct (HI i k Hi Hk) as (W & HL & HE & HV).
        set (P := P1 (ty s i) k) in *.
        set (I := fun p (_ : unit) (m2 : rmem) => dims m2 = dims m /\
           (forall q, (q < L + p)%nat -> va m2 (bM1v, [i; q; k]) = nth q (vlist P (x k) p) 0) /\
           va m2 (bM1, [i; k]) = va m (bM1, [i; k]) + rsum (L + p) (fun q => nth q (mp_ncoeffs P) 0 * nth q (vlist P (x k) p) 0)).
        apply (wp_for _ _ _ _ I).
        -- split; [congruence|]. rewrite !Nat.add_0_r. split; [intros q Hq; apply V1; auto|].
           rewrite V2 by auto. f_equal. apply rsum_ext. intros q Hq. unfold t1. fold P. cbn [vlist]. rewrite Hx by auto. reflexivity.
        -- intros p [] m2 Hp (Dm & I1 & I2).
           assert (Hp' : (p < length (mp_edges P))%nat) by (rewrite HE; exact Hp). destruct (ed_ok P W p Hp') as (Er & H0 & H1). rewrite HE in Er. rewrite HL in H0, H1.
           eapply wp_lift; [exact Er|].
           apply wp_get; [look|al|]. rewrite I1 by auto. apply wp_get; [look|al|]. rewrite I1 by auto.
           apply wp_put; [look|al|].
           eapply wp_lift; [apply HV; lia|].
           apply wp_get; [look|al|]. rewrite va_store_eq.
           apply wp_plus_; [look|al|].
           assert (EL : length (vlist P (x k) p) = (L + p)%nat) by (rewrite length_vlist; f_equal; apply length_tab).
           assert (EN : forall q, (q < L + p)%nat -> nth q (vlist P (x k) (S p)) 0 = nth q (vlist P (x k) p) 0).
           { intros q Hq. cbn [vlist]. rewrite app_nth1; [reflexivity|]. rewrite EL. auto. }
           assert (EO : nth (L + p) (vlist P (x k) (S p)) 0 = nth (fst (ed P p)) (vlist P (x k) p) 0 * nth (snd (ed P p)) (vlist P (x k) p) 0).
           { cbn [vlist]. rewrite <- EL at 1. rewrite app_nth2, Nat.sub_diag by lia. reflexivity. }
           split; [auto|]. rewrite Nat.add_succ_r. split.
           ++ intros q Hq. rewrite va_store_ne by discriminate. destruct (Nat.eq_dec q (L + p)) as [->|Hne].
              ** rewrite va_store_eq, EO. reflexivity.
              ** rewrite va_store_ne by (intros E'; injection E'; lia). rewrite I1, EN by lia. reflexivity.
           ++ rewrite va_store_eq, va_store_ne by discriminate. rewrite I2, rsum_S, EO, Rplus_assoc. f_equal. f_equal.
              apply rsum_ext. intros q Hq. rewrite EN by auto. reflexivity.
        -- intros [] m2 (Dm & I1 & I2). apply kpost_own. intros c Pc O.
           destruct c as [b idx]; destruct b; try discriminate O; [idx2 idx O i' k'|idx3 idx O i' q k']; subst k'; owned Pc; subst i'.
           ++ intros _. rewrite I2, (psum P _ E1) by (auto; apply length_kx1). reflexivity.
           ++ intros A _. apply I1. auto.
      * intros m' (D & Q1 & _). apply kpost_own. intros c Pc O.
        destruct c as [b idx]; destruct b; try discriminate O; [idx2 idx O i' k'|idx3 idx O i' q k']; subst i'.
        -- intros A. apply (Q1 (bM1, [i; k']) k'); auto. look.
        -- intros A B. apply (Q1 (bM1v, [i; q; k']) k'); auto. look.
  - intros m' (D & Q1 & _ & _ & Q4). split; [keepv Q4|]. split.
    + intros i k Hi Hk. apply (Q1 (bM1, [i; k]) i); auto.
    + intros i q k Hi Hq Hk. apply (Q1 (bM1v, [i; q; k]) i); auto.
Qed.

(** ** reverse_M1 *)
Definition kV1 m i k : list R := tab (L + length E1) (fun q => va m (bM1v, [i; q; k])).
Definition kb1 m i k : list R := blist (P1 (ty s i) k) (kV1 m i k) (length E1).
Definition r1m_own1 (c : cell) : option nat := match c with (bM1j, [i; _; _]) => Some i | (bA1a, [i; _; _]) => Some i | _ => None end.
Definition r1m_own2 (c : cell) : option nat := match c with (bM1j, [_; lm; _]) => Some lm | _ => None end.
Definition r1m_own3 (c : cell) : option nat := match c with (bM1j, [_; _; k]) => Some k | _ => None end.
Definition r1m_own4 (c : cell) : option nat := match c with (bA1a, [_; lm; _]) => Some lm | _ => None end.
Definition r1m_own5 (c : cell) : option nat := match c with (bA1a, [_; _; k]) => Some k | _ => None end.
Definition r1m_sp1 (c : cell) (v : R) : Prop := match c with (bM1j, [i; q; k]) =>
   (q < L + length E1)%nat -> (k < K)%nat -> v = nth q (mp_ncoeffs (P1 (ty s i) k)) 0 | _ => True end.
Definition r1m_sp m (c : cell) (v : R) : Prop := match c with
  | (bM1j, [i; q; k]) => (q < L + length E1)%nat -> (k < K)%nat -> v = nth q (kb1 m i k) 0
  | (bA1a, [i; lm; k]) => (lm < L)%nat -> (k < K)%nat -> v = nth lm (kb1 m i k) 0 * va m (bM1a, [i; k])
  | _ => True end.
Definition o_rM1 (b : buf) : bool := match b with bA1a | bM1j | bScr => true | _ => false end.

Lemma k_rM1 m : cov m bA1a [n; L; K] -> cov m bM1a [n; K] -> cov m bM1v [n; L + length E1; K]%nat -> cov m bM1j [n; L + length E1; K]%nat ->
  wp top (kk_reverse_M1_kernel km n (f_node_types s)) m (fun _ m' => keep o_rM1 m m' /\
    (forall i lm k, (i < n)%nat -> (lm < L)%nat -> (k < K)%nat ->
       va m' (bA1a, [i; lm; k]) = nth lm (kb1 m i k) 0 * va m (bM1a, [i; k]))).
Proof.
  destruct HP as [Ex HI]. intros C1 C2 C3' C4'. unfold kk_reverse_M1_kernel.
  apply (wp_pfor top r1m_own1 none_ (r1m_sp m) nadd_).
  - intros i Hi. cbv zeta.
    eapply wp_lift; [apply rd_ty; auto|]. rewrite Ex.
    apply wp_bind.
    apply (wp_pfor _ r1m_own2 none_ r1m_sp1 nadd_).
    + intros p Hp. apply (wp_pfor _ r1m_own3 none_ r1m_sp1 nadd_).
      * intros k Hk. destruct (HI i k Hi Hk) as (W & HL & HE & HV).
        eapply wp_lift; [apply (HV p); lia|]. apply wp_put_; [look|al|].
        apply kpost_own. intros c Pc O. cell3 c O i' q k'. apply some_inj in O. owned2 Pc P2. subst. intros A B. apply va_store_eq.
      * intros m' (D & Q1 & _). apply kpost_own. intros c Pc O. cell3 c O i' q k'. apply some_inj in O. subst q. owned Pc. subst i'.
        intros A B. apply (Q1 (bM1j, [i; p; k']) k'); auto. look.
    + intros m1 (D1 & Q1 & _ & _ & Q4).
      assert (V1 : forall q k, (q < L + length E1)%nat -> (k < K)%nat ->
        va m1 (bM1j, [i; q; k]) = nth q (mp_ncoeffs (P1 (ty s i) k)) 0).
      { intros q k Hq Hk. apply (Q1 (bM1j, [i; q; k]) q); auto. look. }
      assert (F1 : forall b idx, match b with bM1j | bA1a => False | _ => True end -> va m1 (b, idx) = va m (b, idx)).
      { intros b idx Hb. apply Q4. unfold idle, kd, top. destruct b; try contradiction; cbn; auto. }
      clear Q1 Q4.
      apply wp_bind.
      apply (wp_pfor _ r1m_own3 none_ (r1m_sp m) nadd_).
      * intros k Hk. destruct (HI i k Hi Hk) as (W & HL & HE & HV).
        set (P := P1 (ty s i) k) in *. set (V := kV1 m i k).
        assert (LV : forall q, (q < L + length E1)%nat -> nth q V 0 = va m (bM1v, [i; q; k]))
          by (intros q Hq; exact (nth_tab (A:=R) _ (fun q => va m (bM1v, [i; q; k])) q 0 Hq)).
        assert (EB : forall p, length (blist P V p) = (L + length E1)%nat)
          by (intros p; rewrite length_blist, (wf_nodes P W), HL, HE; auto).
        set (I := fun p (_ : unit) (m2 : rmem) => dims m2 = dims m /\
           (forall q, (q < L + length E1)%nat -> va m2 (bM1j, [i; q; k]) = nth q (blist P V p) 0) /\
           (forall idx, va m2 (bM1v, idx) = va m (bM1v, idx))).
        apply (wp_for _ _ _ _ I).
        -- split; [congruence|]. split; [intros q Hq; rewrite V1 by auto; reflexivity|]. intros idx. apply F1. exact Logic.I.
        -- intros p [] m2 Hp (Dm & I1 & I2).
           set (p' := (length E1 - 1 - p)%nat).
           assert (Hp' : (p' < length E1)%nat) by (unfold p'; lia).
           assert (Hp2 : (p' < length (mp_edges P))%nat) by (rewrite HE; exact Hp').
           destruct (ed_ok P W p' Hp2) as (Er & H0 & H1). rewrite HE in Er. rewrite HL in H0, H1.
           eapply wp_lift; [exact Er|].
           assert (EB' : blist P V (S p) = bstep P V p' (blist P V p)) by (cbn [blist]; rewrite HE; reflexivity).
           apply wp_get; [look|al|]. rewrite I1 by lia. apply wp_get; [look|al|]. rewrite I2, <- LV by lia.
           apply wp_plus; [look|al|].
           assert (R1 := row_add m2 bM1j i k (L + length E1) (fst (ed P p')) (blist P V p) (nth (L + p') (blist P V p) 0 * nth (snd (ed P p')) V 0)
             ltac:(lia) (EB p) I1).
           match type of R1 with context [store m2 ?c ?v] => set (m3 := store m2 c v) in * end.
           match goal with |- wp _ _ ?mm _ => change mm with m3 end.
           assert (D3 : dims m3 = dims m) by exact Dm.
           apply wp_get; [look|al|]. rewrite R1 by lia. apply wp_get; [look|al|].
           replace (va m3 (bM1v, [i; fst (ed P p'); k])) with (nth (fst (ed P p')) V 0)
             by (unfold m3; rewrite va_store_ne by discriminate; rewrite I2, LV by lia; reflexivity).
           apply wp_plus_; [look|al|].
           assert (R2 := row_add m3 bM1j i k (L + length E1) (snd (ed P p')) _ 
             (nth (L + p') (add_at (N:=RNum) (blist P V p) (fst (ed P p')) (nth (L + p') (blist P V p) 0 * nth (snd (ed P p')) V 0)) 0 * nth (fst (ed P p')) V 0)
             ltac:(lia) ltac:(rewrite length_add_at; apply EB) R1).
           split; [auto|]. split.
           ++ intros q Hq. refine (eq_trans (R2 q Hq) _). rewrite EB'. unfold bstep. rewrite HL. reflexivity.
           ++ intros idx. unfold m3. rewrite !va_store_ne by discriminate. apply I2.
        -- intros [] m2 (Dm & I1 & I2). apply kpost_own. intros c Pc O.
           cell3 c O i' q k'. apply some_inj in O. subst k'. owned Pc. subst i'. intros A B. apply I1. auto.
      * intros m2 (D2 & Q1 & _ & _ & Q4).
        assert (V2 : forall q k, (q < L + length E1)%nat -> (k < K)%nat -> va m2 (bM1j, [i; q; k]) = nth q (kb1 m i k) 0).
        { intros q k Hq Hk. apply (Q1 (bM1j, [i; q; k]) k); auto. look. }
        assert (F2 : forall b idx, match b with bM1j | bA1a => False | _ => True end -> va m2 (b, idx) = va m (b, idx)).
        { intros b idx Hb. rewrite <- F1 by auto. apply Q4. unfold idle, kd, top. destruct b; try contradiction; cbn; auto. }
        clear Q1 Q4.
        apply (wp_pfor _ r1m_own4 none_ (r1m_sp m) nadd_).
        -- intros lm Hl. apply (wp_pfor _ r1m_own5 none_ (r1m_sp m) nadd_).
           ++ intros k Hk. apply wp_get; [look|al|]. apply wp_get; [look|al|].
              apply wp_put_; [look|al|]. apply kpost_own. intros c Pc O. cell3 c O i' q k'. apply some_inj in O. owned2 Pc P2. subst.
              intros A B. rewrite va_store_eq. rewrite V2 by lia. rewrite (F2 bM1a) by exact I. reflexivity.
           ++ intros m' (D & Q1 & _). apply kpost_own. intros c Pc O. cell3 c O i' q k'. apply some_inj in O. subst q. owned Pc. subst i'.
              intros A B. apply (Q1 (bA1a, [i; lm; k']) k'); auto. look.
        -- intros m' (D & Q1 & _ & _ & Q4). apply kpost_own. intros c Pc O.
           destruct c as [b idx]; destruct b; try discriminate O; idx3 idx O i' q k'; subst i'; intros A B;
           first [ apply (Q1 (bA1a, [i; q; k']) q); auto; look
                 | rewrite Q4 by (unfold idle, kd, top; lcbn; eqbs; auto); apply V2; auto ].
  - intros m' (D & Q1 & _ & _ & Q4). split; [keepv Q4|].
    intros i lm k Hi Hl Hk. apply (Q1 (bA1a, [i; lm; k]) i); auto.
Qed.
End M1.
End K.
