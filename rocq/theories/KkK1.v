(** Kernels of compute_R0, compute_R1, compute_Y, compute_A0.  Used in proofs only. *)
From Coq Require Import List Arith ZArith Bool Lia Reals Lra FunctionalExtensionality.
From Verif Require Import Base BaseLemmas Segs Instances RSums MaceModel Sys SysLoops MacePure MaceStages1.
From Verif Require Import KkSem KkSound KkWp KkWp2 KkModel KkHost KkTac.
Import ListNotations.
Local Open Scope R_scope.

Lemma vget_some (v : view RNum) idx : inb (v_ext v) idx = true -> vget v idx = Some (v_val v idx).
Proof. unfold vget. intros ->. reflexivity. Qed.

Section K.
Variable km : kmace RNum.
Variable s : sys RNum.
Notation n := (length s).
Notation nE := (length (epairs s)).
Notation K := (k_num_channels km).
Notation L := (k_num_lm km).
Notation nb i := (length (es s i)).

(** ** splines *)
Definition ktij (S : krad RNum) (t u : nat) : nat :=
  let nut := ((Nat.sqrt (8 * kr_types S + 1) - 1) / 2)%nat in
  if (t <=? u)%nat then (tri t nut + u)%nat else (tri u nut + t)%nat.
Definition kq_t (S : krad RNum) q := ktij S (ty s (ow s q)) (e_type (eg s q)).
Definition knz (h : R) q : Z := ntrunc (n:=RNum) (e_r (eg s q) / h).
Definition kx (h : R) q : R := e_r (eg s q) - h * IZR (knz h q).
(** value and derivative from the four coefficients *)
Definition kpv (c : nat -> R) (x : R) : R := c 0%nat + c 1%nat * x + c 2%nat * (x * x) + c 3%nat * (x * x * x).
Definition kpd (c : nat -> R) (x : R) : R := c 1%nat + c 2%nat * (2 * x) + c 3%nat * (3 * (x * x)).
Definition kcoef (S : krad RNum) q k (p : nat) : R := v_val (kr_c S) [kq_t S q; Z.to_nat (knz (kr_h S) q); p; k].
Definition kval S q k := kpv (kcoef S q k) (kx (kr_h S) q).
Definition kder S q k := kpd (kcoef S q k) (kx (kr_h S) q).
Definition krad_in (S : krad RNum) : Prop := forall q, (q < nE)%nat ->
  (let nut := ((Nat.sqrt (8 * kr_types S + 1) - 1) / 2)%nat in
   (if ty s (ow s q) <=? e_type (eg s q) then ty s (ow s q) <? 2 * nut else e_type (eg s q) <? 2 * nut)%nat = true) /\
  (0 <= knz (kr_h S) q)%Z /\
  forall p k, (p < 4)%nat -> (k < kr_num S)%nat -> inb (v_ext (kr_c S)) [kq_t S q; Z.to_nat (knz (kr_h S) q); p; k] = true.

Lemma zidx_ok z : (0 <= z)%Z -> zidx z = Some (Z.to_nat z).
Proof. intros H. unfold zidx. destruct (Z.ltb_spec z 0); auto. lia. Qed.
Lemma rd_ty' q : (q < nE)%nat -> rd (f_node_types s) (ow s q) = Some (ty s (ow s q)).
Proof. intros H. apply rd_ty. apply ow_lt. auto. Qed.
Lemma rd_nty' q : (q < nE)%nat -> rd (f_neigh_types s) q = Some (e_type (eg s q)).
Proof. intros H. eapply rd_nty. apply ep_split. auto. Qed.
Lemma rd_nidx' q : (q < nE)%nat -> rd (f_neigh_indices s) q = Some (e_idx (eg s q)).
Proof. intros H. eapply rd_nidx. apply ep_split. auto. Qed.
Lemma rd_r' q : (q < nE)%nat -> rd (f_r s) q = Some (e_r (eg s q)).
Proof. intros H. eapply rd_rij. apply ep_split. auto. Qed.
Lemma rd_comp' q a k : (q < nE)%nat -> (a < 3)%nat -> k = (3 * q + a)%nat -> rd (f_xyz s) k = Some (comp (eg s q) a).
Proof. intros H Ha ->. eapply rd_comp; [apply ep_split; auto|auto|lia]. Qed.

Definition two {A} (b bd : buf) (x y d : A) (b' : buf) : A := if buf_dec b b' then x else if buf_dec bd b' then y else d.
Definition ev_own1 (b bd : buf) (c : cell) : option nat :=
  two b bd (match snd c with [q; _] => Some q | _ => None end) (match snd c with [q; _] => Some q | _ => None end) None (fst c).
Definition ev_own2 (b bd : buf) (c : cell) : option nat :=
  two b bd (match snd c with [_; q] => Some q | _ => None end) (match snd c with [_; q] => Some q | _ => None end) None (fst c).
Definition ev_sp (b bd : buf) S (c : cell) (v : R) : Prop :=
  two b bd (match snd c with [q; k] => (q < nE)%nat -> (k < kr_num S)%nat -> v = kval S q k | _ => True end)
    (match snd c with [q; k] => (q < nE)%nat -> (k < kr_num S)%nat -> v = kder S q k | _ => True end) True (fst c).
Ltac eval_tac b bd S C1 C2 HS m :=
  unfold kk_evaluate; cbv zeta;
  rewrite length_r; (eapply wp_lift; [apply i_list_ok|]);
  apply (wp_pfor top (ev_own1 b bd) none_ (ev_sp b bd S) nadd_);
  [ let q := fresh "q" in let Hq := fresh "Hq" in
    intros q Hq; destruct (HS q Hq) as (G & Z0 & I);
    (eapply wp_lift; [apply rd_il; auto|]);
    (eapply wp_lift; [apply rd_ty'; auto|]);
    (eapply wp_lift; [apply rd_nty'; auto|]);
    (apply wp_pguard; [exact G|]);
    (eapply wp_lift; [apply rd_r'; auto|]);
    apply (wp_pfor _ (ev_own2 b bd) none_ (ev_sp b bd S) nadd_);
    [ let k := fresh "k" in let Hk := fresh "Hk" in intros k Hk;
      (eapply wp_lift; [apply zidx_ok; exact Z0|]);
      do 4 (eapply wp_lift; [apply vget_some; apply I; [lia|auto]|]);
      (apply wp_put; [look|al|]); (apply wp_put_; [look|al|]);
      apply kpost_own; let c := fresh "c" in let P := fresh "P" in let O := fresh "O" in let x := fresh "x" in let y := fresh "y" in
      intros c P O; cell2 c O x y; injection O as ->; owned P; subst x; intros _ _;
      [rewrite va_store_ne, va_store_eq by discriminate; reflexivity | rewrite va_store_eq; reflexivity]
    | let m' := fresh "m'" in intros m' (D & P1 & _); apply kpost_own;
      let c := fresh "c" in let P := fresh "P" in let O := fresh "O" in let x := fresh "x" in let y := fresh "y" in
      intros c P O; cell2 c O x y; injection O as ->; intros A B;
      [apply (P1 (b, [q; y]) y); auto; look | apply (P1 (bd, [q; y]) y); auto; look] ]
  | let m' := fresh "m'" in intros m' (D & P1 & _ & _ & P4); split; [keepv P4|];
    let q := fresh "q" in let k := fresh "k" in intros q k Hq Hk;
    split; [apply (P1 (b, [q; k]) q); auto | apply (P1 (bd, [q; k]) q); auto] ].

Definition o_R1 (b : buf) : bool := match b with bR1 | bR1d | bScr => true | _ => false end.
Lemma k_R1 S m : krad_in S -> cov m bR1 [nE; kr_num S] -> cov m bR1d [nE; kr_num S] ->
  wp top (kk_evaluate S n (f_node_types s) (f_num_neigh s) (f_neigh_types s) (f_r s) bR1 bR1d) m (fun _ m' =>
    keep o_R1 m m' /\ forall q k, (q < nE)%nat -> (k < kr_num S)%nat ->
      va m' (bR1, [q; k]) = kval S q k /\ va m' (bR1d, [q; k]) = kder S q k).
Proof. intros HS C1 C2. eval_tac bR1 bR1d S C1 C2 HS m. Qed.
Definition o_A0v (b : buf) : bool := match b with bA0v | bA0d | bScr => true | _ => false end.
Lemma k_A0v S m : krad_in S -> cov m bA0v [nE; kr_num S] -> cov m bA0d [nE; kr_num S] ->
  wp top (kk_evaluate S n (f_node_types s) (f_num_neigh s) (f_neigh_types s) (f_r s) bA0v bA0d) m (fun _ m' =>
    keep o_A0v m m' /\ forall q k, (q < nE)%nat -> (k < kr_num S)%nat ->
      va m' (bA0v, [q; k]) = kval S q k /\ va m' (bA0d, [q; k]) = kder S q k).
Proof. intros HS C1 C2. eval_tac bA0v bA0d S C1 C2 HS m. Qed.
Definition o_A1v (b : buf) : bool := match b with bA1v | bA1d | bScr => true | _ => false end.
Lemma k_A1v S m : krad_in S -> cov m bA1v [nE; kr_num S] -> cov m bA1d [nE; kr_num S] ->
  wp top (kk_evaluate S n (f_node_types s) (f_num_neigh s) (f_neigh_types s) (f_r s) bA1v bA1d) m (fun _ m' =>
    keep o_A1v m m' /\ forall q k, (q < nE)%nat -> (k < kr_num S)%nat ->
      va m' (bA1v, [q; k]) = kval S q k /\ va m' (bA1d, [q; k]) = kder S q k).
Proof. intros HS C1 C2. eval_tac bA1v bA1d S C1 C2 HS m. Qed.

(** compute_R0 *)
Definition k0_t q : nat := (ty s (ow s q) * length (k_atomic_numbers km) + e_type (eg s q))%nat.
Definition k0coef q k (p : nat) : R := v_val (k_R0_coeff km) [k0_t q; Z.to_nat (knz (k_R0_spline_h km) q); p; k].
Definition k0val q k := kpv (k0coef q k) (kx (k_R0_spline_h km) q).
Definition k0der q k := kpd (k0coef q k) (kx (k_R0_spline_h km) q).
Notation C0 := ((k_l_max km + 1) * K)%nat.
Definition R0_in : Prop := forall q, (q < nE)%nat -> (0 <= knz (k_R0_spline_h km) q)%Z /\
  forall p k, (p < 4)%nat -> (k < C0)%nat ->
    inb (v_ext (k_R0_coeff km)) [k0_t q; Z.to_nat (knz (k_R0_spline_h km) q); p; k] = true.
Definition r0_own1 (c : cell) : option nat := match c with (bR0, [q; _]) => Some q | (bR0d, [q; _]) => Some q | _ => None end.
Definition r0_own2 (c : cell) : option nat := match c with (bR0, [_; k]) => Some k | (bR0d, [_; k]) => Some k | _ => None end.
Definition r0_sp (c : cell) (v : R) : Prop := match c with
  | (bR0, [q; k]) => (q < nE)%nat -> (k < C0)%nat -> v = k0val q k
  | (bR0d, [q; k]) => (q < nE)%nat -> (k < C0)%nat -> v = k0der q k | _ => True end.
Definition o_R0 (b : buf) : bool := match b with bR0 | bR0d | bScr => true | _ => false end.
Lemma k_R0 m : R0_in -> cov m bR0 [nE; C0] -> cov m bR0d [nE; C0] ->
  wp top (kk_R0_kernel km n (f_node_types s) (f_num_neigh s) (f_neigh_types s) (f_r s)) m (fun _ m' =>
    keep o_R0 m m' /\ forall q k, (q < nE)%nat -> (k < C0)%nat ->
      va m' (bR0, [q; k]) = k0val q k /\ va m' (bR0d, [q; k]) = k0der q k).
Proof.
  intros HS C1 C2. unfold kk_R0_kernel. rewrite length_r. eapply wp_lift; [apply i_list_ok|]. cbv zeta.
  apply (wp_pfor top r0_own1 none_ r0_sp nadd_).
  - intros q Hq. destruct (HS q Hq) as (Z0 & I).
    eapply wp_lift; [apply rd_il; auto|].
    eapply wp_lift; [apply rd_ty'; auto|].
    eapply wp_lift; [apply rd_nty'; auto|].
    eapply wp_lift; [apply rd_r'; auto|].
    apply (wp_pfor _ r0_own2 none_ r0_sp nadd_).
    + intros k Hk. eapply wp_lift; [apply zidx_ok; exact Z0|].
      do 4 (eapply wp_lift; [apply vget_some; apply I; [lia|auto]|]).
      apply wp_put; [look|al|]. apply wp_put_; [look|al|].
      apply kpost_own. intros c P O. cell2 c O x y; injection O as ->; owned P; subst x; intros _ _;
      [rewrite va_store_ne, va_store_eq by discriminate; reflexivity | rewrite va_store_eq; reflexivity].
    + intros m' (D & P1 & _). apply kpost_own. intros c P O. cell2 c O x y; injection O as ->; intros A B;
      [apply (P1 (bR0, [q; y]) y); auto; look | apply (P1 (bR0d, [q; y]) y); auto; look].
  - intros m' (D & P1 & _ & _ & P4). split; [keepv P4|]. intros q k Hq Hk.
    split; [apply (P1 (bR0, [q; k]) q); auto | apply (P1 (bR0d, [q; k]) q); auto].
Qed.

(** ** compute_Y *)
Lemma xyz3 : (length (f_xyz s) / 3 = nE)%nat.
Proof. rewrite length_xyz. apply Nat.div_mul. lia. Qed.
Definition shuf (e : edge RNum) (a : nat) : R := match a with 0 => e_z e | 1 => e_x e | _ => e_y e end%nat.
Definition sh_own (c : cell) : option nat := match c with (bXs, [x]) => Some (x / 3)%nat | _ => None end.
Definition sh_sp (c : cell) (v : R) : Prop := match c with (bXs, [x]) => v = shuf (eg s (x / 3)) (x mod 3) | _ => True end.
Definition o_Xs (b : buf) : bool := match b with bXs | bScr => true | _ => false end.
Lemma k_shuffle m : cov m bXs [(3 * nE)%nat] -> wp top (kk_shuffle (f_xyz s)) m (fun _ m' => keep o_Xs m m' /\
    forall q a, (q < nE)%nat -> (a < 3)%nat -> va m' (bXs, [3 * q + a]%nat) = shuf (eg s q) a).
Proof.
  intros C. unfold kk_shuffle. rewrite xyz3.
  apply (wp_pfor top sh_own none_ sh_sp nadd_).
  - intros q Hq.
    eapply wp_lift; [apply (rd_comp' q 2); auto; lia|].
    apply wp_put; [unfold kd; cbn -[Nat.mul Nat.div]; rewrite div3_0, Nat.eqb_refl; reflexivity|al|].
    eapply wp_lift; [apply (rd_comp' q 0); auto; lia|].
    apply wp_put; [unfold kd; cbn -[Nat.mul Nat.div Nat.add]; rewrite div3, Nat.eqb_refl by lia; reflexivity|al|].
    eapply wp_lift; [apply (rd_comp' q 1); auto; lia|].
    apply wp_put_; [unfold kd; cbn -[Nat.mul Nat.div Nat.add]; rewrite div3, Nat.eqb_refl by lia; reflexivity|al|].
    apply kpost_own. intros c _ O. cell1 c O x. apply some_inj in O. cbn -[Nat.mul Nat.div Nat.add Nat.modulo]. destruct (split3 x) as (a & Ha & Ex).
    rewrite O in Ex. subst x. rewrite div3, mod3 by auto.
    destruct a as [|[|[|]]]; [| | |lia].
    + rewrite Nat.add_0_r. rewrite !va_store_ne by (intros E; injection E; lia). apply va_store_eq.
    + rewrite va_store_ne by (intros E; injection E; lia). apply va_store_eq.
    + apply va_store_eq.
  - intros m' (D & P1 & _ & _ & P4). split; [keepv P4|]. intros q a Hq Ha.
    rewrite (P1 (bXs, [(3 * q + a)%nat]) q eq_refl); auto; [rewrite div3, mod3 by auto; reflexivity|].
    cbn -[Nat.mul Nat.add Nat.div]. rewrite div3 by auto. reflexivity.
Qed.

Definition un_own (c : cell) : option nat := match c with (bYg, [x]) => Some (x / (3 * L))%nat | _ => None end.
Definition un_own2 i (c : cell) : option nat := match c with (bYg, [x]) => Some ((x - 3 * i * L) mod L)%nat | _ => None end.
Definition un_sp m (c : cell) (v : R) : Prop := match c with (bYg, [x]) =>
   forall q p, (q < nE)%nat -> (p < 3 * L)%nat -> x = (3 * q * L + p)%nat -> v = va m (bYgs, [3 * q * L + (p + L) mod (3 * L)]%nat)
   | _ => True end.
Definition o_Yg (b : buf) : bool := match b with bYg | bScr => true | _ => false end.
Lemma divq q p : (p < 3 * L)%nat -> ((3 * q * L + p) / (3 * L) = q)%nat.
Proof. intros H. replace (3 * q * L + p)%nat with (q * (3 * L) + p)%nat by ring. apply divL. auto. Qed.
Lemma mod_a a lm q : (lm < L)%nat -> ((3 * q * L + a * L + lm - 3 * q * L) mod L = lm)%nat.
Proof. intros H. replace (3 * q * L + a * L + lm - 3 * q * L)%nat with (a * L + lm)%nat by lia. apply modL. auto. Qed.
Lemma k_unshuffle m : (0 < L)%nat -> cov m bYg [(3 * nE * L)%nat] -> cov m bYgs [(3 * nE * L)%nat] ->
  wp top (kk_unshuffle km (f_xyz s)) m (fun _ m' => keep o_Yg m m' /\
    forall q p, (q < nE)%nat -> (p < 3 * L)%nat -> va m' (bYg, [3 * q * L + p]%nat) = va m (bYgs, [3 * q * L + (p + L) mod (3 * L)]%nat)).
Proof.
  intros HL C1 C2. unfold kk_unshuffle. rewrite xyz3.
  apply (wp_pfor top un_own none_ (un_sp m) nadd_).
  - intros q Hq.
    apply (wp_sfor _ (un_own2 q) none_ (un_sp m) nadd_).
    + intros lm Hl.
      assert (PO : forall a, (a < 3)%nat -> kd (kd top un_own none_ q) (un_own2 q) none_ lm (bYg, [(3 * q * L + a * L + lm)%nat]) = POwn).
      { intros a Ha. apply kd_own_ok; [apply kd_own_ok; auto|]; unfold un_own, un_own2; f_equal.
        - rewrite <- Nat.add_assoc. apply divq. nia.
        - apply mod_a. auto. }
      assert (PR : forall l, can_read (kd (kd top un_own none_ q) (un_own2 q) none_ lm (bYgs, l)) = true) by (intros; reflexivity).
      apply wp_get; [apply PR|al|]. apply wp_put; [apply PO; lia|al|].
      apply wp_get; [apply PR|al|]. apply wp_put; [apply PO; lia|al|].
      apply wp_get; [apply PR|al|]. apply wp_put_; [apply PO; lia|al|].
      rewrite !va_store_ne by discriminate.
      apply kpost_own. intros c P O. apply kd_own in P. destruct P as [_ P]. cell1 c O x. lcbni P. apply some_inj in O. apply some_inj in P.
      intros q' p Hq' Hp Ex.
      assert (q' = q). { rewrite <- P, Ex. symmetry. apply divq. auto. } subst q'.
      assert (Ep : p mod L = lm). { rewrite <- O, Ex. f_equal. lia. }
      assert (Ep2 : exists a, (a < 3)%nat /\ p = (a * L + lm)%nat).
      { exists (p / L)%nat. split; [apply Nat.div_lt_upper_bound; lia|]. pose proof (Nat.div_mod p L ltac:(lia)). lia. }
      destruct Ep2 as (a & Ha & ->). subst x.
      destruct a as [|[|[|]]]; [| | |lia].
      * rewrite !va_store_ne by (intros E; injection E; nia).
        replace (3 * q * L + (0 * L + lm))%nat with (3 * q * L + 0 * L + lm)%nat by ring. rewrite va_store_eq.
        replace ((0 * L + lm + L) mod (3 * L))%nat with (1 * L + lm)%nat by (rewrite Nat.mod_small; lia). f_equal. f_equal. f_equal. lia.
      * rewrite va_store_ne by (intros E; injection E; nia).
        replace (3 * q * L + (1 * L + lm))%nat with (3 * q * L + 1 * L + lm)%nat by ring. rewrite va_store_eq.
        replace ((1 * L + lm + L) mod (3 * L))%nat with (2 * L + lm)%nat by (rewrite Nat.mod_small; lia). f_equal. f_equal. f_equal. lia.
      * replace (3 * q * L + (2 * L + lm))%nat with (3 * q * L + 2 * L + lm)%nat by ring. rewrite va_store_eq.
        replace ((2 * L + lm + L) mod (3 * L))%nat with lm; [f_equal; f_equal; f_equal; lia|].
        replace (2 * L + lm + L)%nat with (lm + 1 * (3 * L))%nat by ring. rewrite Nat.mod_add by lia. rewrite Nat.mod_small; lia.
    + intros m' (D & P1 & _). apply kpost_own. intros c P O. cell1 c O x. apply some_inj in O.
      intros q' p Hq' Hp Ex.
      assert (q' = q). { rewrite <- O, Ex. symmetry. apply divq. auto. } subst q'.
      apply (P1 (bYg, [x]) (p mod L)%nat); auto.
      * unfold kd. lcbn. rewrite O. eqbs. reflexivity.
      * lcbn. rewrite Ex. f_equal. f_equal. lia.
      * apply Nat.mod_upper_bound. lia.
  - intros m' (D & P1 & _ & _ & P4). split; [keepv P4|]. intros q p Hq Hp.
    apply (P1 (bYg, [(3 * q * L + p)%nat]) q); auto. lcbn. rewrite divq by auto. reflexivity.
Qed.

Definition no_own (b : buf) (c : cell) : option nat := if buf_dec b (fst c) then match snd c with [q] => Some q | _ => None end else None.
Definition no_sp (b : buf) m cnt (c : cell) (v : R) : Prop := if buf_dec b (fst c) then
   match snd c with [q] => (q < cnt)%nat -> v = va m (b, [q]) * ynorm (N:=RNum) | _ => True end else True.
Definition o_1 (b b' : buf) : bool := match b' with bScr => true | _ => if buf_dec b b' then true else false end.
Ltac norm_tac b m cnt C :=
  unfold kk_normalize;
  apply (wp_pfor top (no_own b) none_ (no_sp b m cnt) nadd_);
  [ let q := fresh "q" in let Hq := fresh "Hq" in intros q Hq;
    (apply wp_get; [look|al|]); (apply wp_put_; [look|al|]);
    apply kpost_own; let c := fresh "c" in let O := fresh "O" in let x := fresh "x" in
    intros c _ O; cell1 c O x; injection O as ->; intros _; apply va_store_eq
  | let m' := fresh "m'" in intros m' (D & P1 & _ & _ & P4); split; [keepv P4|];
    let q := fresh "q" in intros q Hq; apply (P1 (b, [q]) q); auto ].
Lemma k_norm_Y m cnt : cov m bY [cnt] -> wp top (kk_normalize bY cnt) m (fun _ m' => keep (o_1 bY) m m' /\
  forall q, (q < cnt)%nat -> va m' (bY, [q]) = va m (bY, [q]) * ynorm (N:=RNum)).
Proof. intros C. norm_tac bY m cnt C. Qed.
Lemma k_norm_Yg m cnt : cov m bYg [cnt] -> wp top (kk_normalize bYg cnt) m (fun _ m' => keep (o_1 bYg) m m' /\
  forall q, (q < cnt)%nat -> va m' (bYg, [q]) = va m (bYg, [q]) * ynorm (N:=RNum)).
Proof. intros C. norm_tac bYg m cnt C. Qed.

(** ** compute_A0 *)
Definition o_A0 (b : buf) : bool := match b with bA0 | bScr => true | _ => false end.
Definition a0_sum m i lm k : R :=
  rsum (nb i) (fun j => va m (bR0, [eo s i + j; Nat.sqrt lm * K + k]%nat) * va m (bY, [(eo s i + j) * L + lm]%nat)).
Definition a0_sp m (c : cell) (v : R) : Prop := match c with (bA0, [i; lm; k]) =>
   (i < n)%nat -> (lm < L)%nat -> (k < K)%nat -> v = va m (bA0, [i; lm; k]) + a0_sum m i lm k | _ => True end.
Definition a0_own1 (c : cell) : option nat := match c with (bA0, [i; lm; k]) => Some (i * L + lm)%nat | _ => None end.
Definition a0_own2 (c : cell) : option nat := match c with (bA0, [i; lm; k]) => Some k | _ => None end.
Lemma k_A0 m : cov m bA0 [n; L; K] -> cov m bY [(nE * L)%nat] -> cov m bR0 [nE; C0] ->
  wp top (kk_A0_kernel km n (f_num_neigh s)) m (fun _ m' => keep o_A0 m m' /\
    forall i lm k, (i < n)%nat -> (lm < L)%nat -> (k < K)%nat ->
      va m' (bA0, [i; lm; k]) = va m (bA0, [i; lm; k]) + a0_sum m i lm k).
Proof.
  intros C1 C2 C3. unfold kk_A0_kernel. eapply wp_lift; [apply first_neigh_ok|].
  apply (wp_pfor2 top a0_own1 none_ (a0_sp m) nadd_).
  - intros i lm Hi Hl. cbv zeta. rewrite divL, modL by auto.
    eapply wp_lift; [apply rd_nn; auto|]. eapply wp_lift; [apply rd_fn; auto|].
    assert (Hs : (Nat.sqrt lm < k_l_max km + 1)%nat) by (apply MaceGrid.sqrt_lt; exact Hl).
    apply (wp_pfor _ a0_own2 none_ (a0_sp m) nadd_).
    + intros k Hk. apply (wp_for_plus _ _ _ (fun j => va m (bR0, [eo s i + j; Nat.sqrt lm * K + k]%nat) * va m (bY, [(eo s i + j) * L + lm]%nat)) (bA0, [i; lm; k])).
      * intros j x Hj. pose proof (q_lt s i j Hi Hj) as Hq.
        apply wp_get; [look|al|].
        apply wp_get; [look|al|].
        apply wp_plus_; [look|al|].
        rewrite !va_store_eq, !va_store_ne, store_store by discriminate. reflexivity.
      * apply kpost_own. intros c P O. cell3 c O i' lm' k'. injection O as ->. owned P.
        intros A B C. destruct (pairL _ _ _ _ _ P B Hl) as [-> ->]. apply va_store_eq.
    + intros m' (D & P1 & _). apply kpost_own. intros c _ O. cell3 c O i' lm' k'. apply some_inj in O.
      intros A B C. destruct (pairL _ _ _ _ _ O B Hl) as [-> ->].
      apply (P1 (bA0, [i; lm; k']) k'); auto. look.
  - intros m' (D & P1 & _ & _ & P4). split; [keepv P4|].
    intros i lm k Hi Hl Hk. apply (P1 (bA0, [i; lm; k]) (i * L + lm)%nat); auto. nia.
Qed.
End K.
