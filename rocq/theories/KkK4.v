(** Kernels of compute_H1, compute_A1, compute_H2, the readouts and their reverses.  Used in proofs only. *)
From Coq Require Import List Arith ZArith Bool Lia Reals Lra FunctionalExtensionality.
From Verif Require Import Base BaseLemmas Segs Instances RSums MaceModel Sys SysLoops MacePure MaceStages1.
From Verif Require Import KkSem KkSound KkWp KkWp2 KkModel KkHost KkTac KkK1 KkK2 KkK3.
Import ListNotations.
Local Open Scope R_scope.

(** rows of degree l *)
Lemma lm_of l mm Lm : (l < Lm)%nat -> (mm < 2 * l + 1)%nat -> (l * l + mm < Lm * Lm)%nat.
Proof. intros. nia. Qed.
Lemma lm_deg lm l : Nat.sqrt lm = l -> (lm - l * l < 2 * l + 1)%nat /\ lm = (l * l + (lm - l * l))%nat.
Proof. intros <-. pose proof (Nat.sqrt_spec' lm). lia. Qed.
Definition lmm (lm : nat) : nat := (lm - Nat.sqrt lm * Nat.sqrt lm)%nat.
Lemma lmm_of l mm : (mm < 2 * l + 1)%nat -> lmm (l * l + mm) = mm.
Proof. intros H. unfold lmm. rewrite MaceGrid.sqrt_lm by auto. lia. Qed.

Section K.
Variable km : kmace RNum.
Variable s : sys RNum.
Notation n := (length s).
Notation nE := (length (epairs s)).
Notation K := (k_num_channels km).
Notation L := (k_num_lm km).
Notation M := (k_num_LM km).
Notation L1 := (k_L_max km + 1)%nat.
Notation l1 := (k_l_max km + 1)%nat.
Notation nb i := (length (es s i)).

(** ** H1 *)
Definition h1_own1 (b : buf) (D : nat) (c : cell) : option nat :=
  two b b (match snd c with [i; lm; _] => Some (i * D + Nat.sqrt lm)%nat | _ => None end) None None (fst c).
Definition h1_own2 (b : buf) (c : cell) : option nat :=
  two b b (match snd c with [_; lm; _] => Some (lmm lm) | _ => None end) None None (fst c).
Definition h1_own3 (b : buf) (c : cell) : option nat :=
  two b b (match snd c with [_; _; k] => Some k | _ => None end) None None (fst c).
Definition h1_sp (b : buf) (D : nat) (f : nat -> nat -> nat -> R) (c : cell) (v : R) : Prop :=
  two b b (match snd c with [i; lm; k] => (lm < D * D)%nat -> (k < K)%nat -> v = f i lm k | _ => True end) True True (fst c).
Lemma lm_inv i l i' lm D : (i' * D + Nat.sqrt lm = i * D + l)%nat -> (l < D)%nat -> (lm < D * D)%nat -> i' = i /\ Nat.sqrt lm = l.
Proof. intros E Hl H. apply (pairL _ _ _ _ _ E); auto. apply MaceGrid.sqrt_lt. auto. Qed.
Lemma lm_eq lm l mm : Nat.sqrt lm = l -> lmm lm = mm -> lm = (l * l + mm)%nat.
Proof. intros <- <-. unfold lmm. pose proof (Nat.sqrt_spec' lm). lia. Qed.
(** the loops over l, mm and k of a kernel that writes one entry per lane *)
Ltac h1_tac b D f m pre tac :=
  apply (wp_pfor2 top (h1_own1 b D) none_ (h1_sp b D f) nadd_);
  [ let i := fresh "i" in let l := fresh "l" in let Hi := fresh "Hi" in let Hl := fresh "Hl" in
    intros i l Hi Hl; cbv zeta; rewrite divL, modL by auto; pre i l;
    apply (wp_pfor _ (h1_own2 b) none_ (h1_sp b D f) nadd_);
    [ let mm := fresh "mm" in let Hm := fresh "Hm" in intros mm Hm; pose proof (lm_of l mm _ Hl Hm) as HLM;
      pose proof (MaceGrid.sqrt_lm l mm Hm) as ES; pose proof (lmm_of l mm Hm) as EM;
      apply (wp_pfor _ (h1_own3 b) none_ (h1_sp b D f) nadd_);
      [ let k := fresh "k" in let Hk := fresh "Hk" in intros k Hk;
        apply wp_bind; tac i l mm k;
        apply wp_put_;
        [ apply kd_own_ok; [apply kd_own_ok; [apply kd_own_ok; [reflexivity|]|]|]; lcbn; rewrite ?ES, ?EM; reflexivity
        | al
        | apply kpost_own; let c := fresh "c" in let P := fresh "P" in let O := fresh "O" in let P2 := fresh "P2" in
          let x := fresh "x" in let y := fresh "y" in let z := fresh "z" in
          intros c P O; cell3 c O x y z; apply some_inj in O; owned2 P P2; subst z; intros A _;
          destruct (lm_inv _ _ _ _ _ P Hl A) as [-> ?]; assert (y = (l * l + mm)%nat) by (apply lm_eq; auto); subst y;
          rewrite va_store_eq; rewrite ?ES; auto ]
      | let m' := fresh "m'" in intros m' (D' & P1 & _); apply kpost_own;
        let c := fresh "c" in let P := fresh "P" in let O := fresh "O" in
        let x := fresh "x" in let y := fresh "y" in let z := fresh "z" in
        intros c P O; cell3 c O x y z; apply some_inj in O; owned P; intros A B;
        destruct (lm_inv _ _ _ _ _ P Hl A) as [-> ?]; assert (y = (l * l + mm)%nat) by (apply lm_eq; auto); subst y;
        apply (P1 (b, [i; (l * l + mm)%nat; z]) z); auto;
        apply kd_own_ok; [apply kd_own_ok; [reflexivity|]|]; lcbn; rewrite ?ES, ?EM; reflexivity ]
    | let m' := fresh "m'" in intros m' (D' & P1 & _); apply kpost_own;
      let c := fresh "c" in let P := fresh "P" in let O := fresh "O" in
      let x := fresh "x" in let y := fresh "y" in let z := fresh "z" in
      intros c P O; cell3 c O x y z; apply some_inj in O; intros A B;
      destruct (lm_inv _ _ _ _ _ O Hl A) as [-> ES]; destruct (lm_deg _ _ ES) as [Hm Ey];
      apply (P1 (b, [i; y; z]) (lmm y)); auto;
      [ apply kd_own_ok; [reflexivity|]; lcbn; rewrite ES; reflexivity
      | unfold lmm; rewrite ES; auto ] ]
  | let m' := fresh "m'" in intros m' (D' & P1 & _ & _ & P4); split; [keepv P4|];
    let i := fresh "i" in let lm := fresh "lm" in let k := fresh "k" in intros i lm k Hi Hlm Hk;
    apply (P1 (b, [i; lm; k]) (i * D + Nat.sqrt lm)%nat); auto;
    pose proof (MaceGrid.sqrt_lt lm D Hlm); nia ].

Definition H1_in : Prop := forall l a b, (l < L1)%nat -> (a < K)%nat -> (b < K)%nat ->
  vget (k_H1_weights km) [l; a; b] = Some (v_val (k_H1_weights km) [l; a; b]).
Hypothesis HH : H1_in.
Lemma k_H1 m : cov m bM0 [n; M; K] -> cov m bH1 [n; M; K] ->
  wp top (kk_H1_kernel km n) m (fun _ m' => keep (o_1 bH1) m m' /\
    forall i lm k, (i < n)%nat -> (lm < L1 * L1)%nat -> (k < K)%nat -> va m' (bH1, [i; lm; k]) =
      rsum K (fun kp => va m (bM0, [i; lm; kp]) * v_val (k_H1_weights km) [Nat.sqrt lm; kp; k])).
Proof.
  intros C1 C2. unfold kk_H1_kernel.
  h1_tac bH1 (k_L_max km + 1)%nat (fun i lm k => rsum K (fun kp => va m (bM0, [i; lm; kp]) * v_val (k_H1_weights km) [Nat.sqrt lm; kp; k])) m ltac:(fun i l => idtac)
    ltac:(fun i l mm k =>
      apply (wp_for_sum _ _ _ (fun kp => va m (bM0, [i; (l * l + mm)%nat; kp]) * v_val (k_H1_weights km) [l; kp; k]));
      [ let kp := fresh "kp" in let v := fresh "v" in let Hkp := fresh "Hkp" in intros kp v Hkp;
        (apply wp_get; [look|al|]); (eapply wp_lift; [apply HH; auto|]); apply wp_ret; split; reflexivity
      | rewrite Rplus_0_l ]).
Qed.
Lemma k_rH1 m : cov m bH1a [n; M; K] -> cov m bM0a [n; M; K] ->
  wp top (kk_reverse_H1_kernel km n) m (fun _ m' => keep (o_1 bM0a) m m' /\
    forall i lm k, (i < n)%nat -> (lm < L1 * L1)%nat -> (k < K)%nat -> va m' (bM0a, [i; lm; k]) =
      rsum K (fun kp => va m (bH1a, [i; lm; kp]) * v_val (k_H1_weights km) [Nat.sqrt lm; k; kp])).
Proof.
  intros C1 C2. unfold kk_reverse_H1_kernel.
  h1_tac bM0a (k_L_max km + 1)%nat (fun i lm k => rsum K (fun kp => va m (bH1a, [i; lm; kp]) * v_val (k_H1_weights km) [Nat.sqrt lm; k; kp])) m
    ltac:(fun i l => idtac)
    ltac:(fun i l mm k =>
      apply (wp_for_sum _ _ _ (fun kp => va m (bH1a, [i; (l * l + mm)%nat; kp]) * v_val (k_H1_weights km) [l; k; kp]));
      [ let kp := fresh "kp" in let v := fresh "v" in let Hkp := fresh "Hkp" in intros kp v Hkp;
        (apply wp_get; [look|al|]); (eapply wp_lift; [apply HH; auto|]); apply wp_ret; split; reflexivity
      | rewrite Rplus_0_l ]).
Qed.

(** ** A1 *)
Definition dview : view RNum := mkView [] (fun _ => 0).
Variables bo bn : nat -> nat.
Definition A1_in : Prop := forall l, (l < l1)%nat -> kk_block km l = Some (bo l, bn l) /\
  (l < length (k_A1_weights km))%nat /\ (l < length (k_A1_weights_trans km))%nat /\
  (forall mm e, (mm < 2 * l + 1)%nat -> (e < bn l)%nat -> (bo l + mm * bn l + e < k_num_lme km)%nat) /\
  (forall p k, (p < bn l * K)%nat -> (k < K)%nat ->
     vget (nth l (k_A1_weights km) dview) [p; k] = Some (v_val (nth l (k_A1_weights km) dview) [p; k]) /\
     vget (nth l (k_A1_weights_trans km) dview) [k; p] = Some (v_val (nth l (k_A1_weights km) dview) [p; k])).
Hypothesis HA : A1_in.
Lemma bdiv p l : (p < bn l * K)%nat -> (p / K < bn l)%nat /\ (p mod K < K)%nat.
Proof. intros H. destruct (rankL _ _ _ H) as (e & k & A & B & ->). rewrite divL, modL by auto. auto. Qed.
Definition ka1 m i lm k : R := let l := Nat.sqrt lm in rsum (bn l * K) (fun p =>
  va m (bP1, [i; bo l + lmm lm * bn l + p / K; p mod K]%nat) * v_val (nth l (k_A1_weights km) dview) [p; k]).
Lemma k_A1 m : cov m bP1 [n; k_num_lme km; K] -> cov m bA1 [n; L; K] ->
  wp top (kk_A1_kernel km n) m (fun _ m' => keep (o_1 bA1) m m' /\
    forall i lm k, (i < n)%nat -> (lm < l1 * l1)%nat -> (k < K)%nat -> va m' (bA1, [i; lm; k]) = ka1 m i lm k).
Proof.
  intros C1 C2. unfold kk_A1_kernel.
  h1_tac bA1 (k_l_max km + 1)%nat (ka1 m) m
    ltac:(fun i l => (match goal with Hl : (l < _)%nat |- _ => destruct (HA l Hl) as (EB & HW & _ & HO & HV) end);
      (eapply wp_lift; [exact EB|]); cbv beta iota; (eapply wp_lift; [exact (rd_some _ l dview HW)|]))
    ltac:(fun i l mm k =>
      apply (wp_for_sum _ _ _ (fun p => va m (bP1, [i; bo l + mm * bn l + p / K; p mod K]%nat) * v_val (nth l (k_A1_weights km) dview) [p; k]));
      [ let kp := fresh "kp" in let v := fresh "v" in let Hkp := fresh "Hkp" in intros kp v Hkp;
        destruct (bdiv kp l Hkp) as [Hp1 Hp2];
        match goal with Hm : (mm < _)%nat |- _ => pose proof (HO mm (kp / K)%nat Hm Hp1) as HB end;
        (apply wp_get; [look|al|]); (eapply wp_lift; [apply HV; auto|]); apply wp_ret; split; reflexivity
      | rewrite Rplus_0_l ]).
  unfold ka1. rewrite ES, EM. reflexivity.
Qed.

(** rows of Phi1 as triples (l, mm, eta) *)
Variables dl dm de : nat -> nat.
Definition row l mm e : nat := (bo l + mm * bn l + e)%nat.
Definition A1_dec : Prop := forall l mm e, (l < l1)%nat -> (mm < 2 * l + 1)%nat -> (e < bn l)%nat ->
  dl (row l mm e) = l /\ dm (row l mm e) = mm /\ de (row l mm e) = e.
Hypothesis HD : A1_dec.
Definition kra1 m i l mm p : R := rsum K (fun kp => va m (bA1a, [i; (l * l + mm)%nat; kp]) * v_val (nth l (k_A1_weights km) dview) [p; kp]).
Definition ra1_own1 (c : cell) : option nat := match c with (bdP1, [i; x; _]) => Some (i * l1 + dl x)%nat | _ => None end.
Definition ra1_own2 (c : cell) : option nat := match c with (bdP1, [i; x; _]) => Some (dm x) | _ => None end.
Definition ra1_own3 (c : cell) : option nat := match c with (bdP1, [i; x; k]) => Some (de x * K + k)%nat | _ => None end.
Definition ra1_sp m (c : cell) (v : R) : Prop := match c with (bdP1, [i; x; k]) =>
  forall l mm e, (l < l1)%nat -> (mm < 2 * l + 1)%nat -> (e < bn l)%nat -> (k < K)%nat -> x = row l mm e -> v = kra1 m i l mm (e * K + k) | _ => True end.
Lemma k_rA1 m : cov m bdP1 [n; k_num_lme km; K] -> cov m bA1a [n; L; K] ->
  wp top (kk_reverse_A1_kernel km n) m (fun _ m' => keep (o_1 bdP1) m m' /\
    forall i l mm e k, (i < n)%nat -> (l < l1)%nat -> (mm < 2 * l + 1)%nat -> (e < bn l)%nat -> (k < K)%nat ->
      va m' (bdP1, [i; row l mm e; k]) = kra1 m i l mm (e * K + k)).
Proof.
  intros C1 C2. unfold kk_reverse_A1_kernel.
  apply (wp_pfor2 top ra1_own1 none_ (ra1_sp m) nadd_).
  - intros i l Hi Hl. cbv zeta. rewrite divL, modL by auto. destruct (HA l Hl) as (EB & _ & HW & HO & HV).
    eapply wp_lift; [exact EB|]. cbv beta iota. eapply wp_lift; [exact (rd_some _ l dview HW)|].
    apply (wp_pfor _ ra1_own2 none_ (ra1_sp m) nadd_).
    + intros mm Hm. pose proof (lm_of l mm _ Hl Hm) as HLM.
      apply (wp_pfor _ ra1_own3 none_ (ra1_sp m) nadd_).
      * intros p Hp. destruct (rankL _ _ _ Hp) as (e & k & He & Hk & ->). rewrite divL, modL by auto.
        pose proof (HO mm e Hm He) as HB. change (bo l + mm * bn l + e)%nat with (row l mm e) in *.
        destruct (HD l mm e Hl Hm He) as (E1 & E2 & E3).
        apply wp_bind.
        apply (wp_for_sum _ _ _ (fun kp => va m (bA1a, [i; (l * l + mm)%nat; kp]) * v_val (nth l (k_A1_weights km) dview) [(e * K + k)%nat; kp])).
        -- intros kp v Hkp. apply wp_get; [look|al|].
           eapply wp_lift; [apply (HV (e * K + k)%nat kp); auto|]. apply wp_ret. split; reflexivity.
        -- rewrite Rplus_0_l. apply wp_put_.
           ++ apply kd_own_ok; [apply kd_own_ok; [apply kd_own_ok; [reflexivity|]|]|]; lcbn; rewrite ?E1, ?E2, ?E3; reflexivity.
           ++ al.
           ++ apply kpost_own. intros c P O. cell3 c O i' x k'. apply some_inj in O. owned2 P P2.
              intros l' mm' e' H1 H2 H3 H4 ->. destruct (HD l' mm' e' H1 H2 H3) as (F1 & F2 & F3). rewrite F1 in P. rewrite F2 in P2. rewrite F3 in O.
              destruct (pairL _ _ _ _ _ P H1 Hl) as [-> ->]. destruct (pairL _ _ _ _ _ O H4 Hk) as [-> ->]. subst mm'.
              rewrite va_store_eq. reflexivity.
      * intros m' (D & P1 & _). apply kpost_own. intros c P O. cell3 c O i' x k'. apply some_inj in O. owned P.
        intros l' mm' e' H1 H2 H3 H4 Ex. destruct (HD l' mm' e' H1 H2 H3) as (F1 & F2 & F3). rewrite <- Ex in F1, F2, F3.
        rewrite F1 in P. rewrite F2 in O. destruct (pairL _ _ _ _ _ P H1 Hl) as [-> ->]. subst mm'.
        apply (P1 (bdP1, [i; x; k']) (e' * K + k')%nat); auto.
        -- apply kd_own_ok; [apply kd_own_ok; [reflexivity|]|]; lcbn; rewrite ?F1, ?F2; reflexivity.
        -- lcbn. rewrite F3. reflexivity.
        -- nia.
    + intros m' (D & P1 & _). apply kpost_own. intros c P O. cell3 c O i' x k'. apply some_inj in O.
      intros l' mm' e' H1 H2 H3 H4 Ex. destruct (HD l' mm' e' H1 H2 H3) as (F1 & F2 & F3). rewrite <- Ex in F1, F2, F3.
      rewrite F1 in O. destruct (pairL _ _ _ _ _ O H1 Hl) as [-> ->].
      apply (P1 (bdP1, [i; x; k']) mm'); auto.
      * apply kd_own_ok; [reflexivity|]; lcbn; rewrite ?F1; reflexivity.
      * lcbn. rewrite F2. reflexivity.
  - intros m' (D & P1 & _ & _ & P4). split; [keepv P4|]. intros i l mm e k Hi Hl Hm He Hk.
    destruct (HD l mm e Hl Hm He) as (E1 & E2 & E3).
    apply (P1 (bdP1, [i; row l mm e; k]) (i * l1 + l)%nat); auto; [|nia]. lcbn. rewrite E1. reflexivity.
Qed.

(** ** H2 *)
Definition ik_own (b : buf) (c : cell) : option nat := two b b (match snd c with [i; k] => Some (i * K + k)%nat | _ => None end) None None (fst c).
Definition HH_in : Prop := forall i j, (i < n)%nat -> (j < K * K)%nat ->
  vget (k_H2_weights_for_H1 km) [ty s i; j] = Some (v_val (k_H2_weights_for_H1 km) [ty s i; j]).
Hypothesis H2a_in : HH_in.
Hypothesis H2b_in : (K * K <= length (k_H2_weights_for_M1 km))%nat.
Notation WH i j := (v_val (k_H2_weights_for_H1 km) [ty s i; j]).
Notation WM j := (nth j (k_H2_weights_for_M1 km) (0:R)).
Lemma kk_lt a b : (a < K)%nat -> (b < K)%nat -> (a * K + b < K * K)%nat. Proof. intros. nia. Qed.
Definition h2_sp (f : nat -> nat -> R) m (c : cell) (v : R) : Prop := match c with (bH2, [i; k]) =>
  (k < K)%nat -> v = va m (bH2, [i; k]) + f i k | _ => True end.
Lemma H2_pos : (0 < M)%nat. Proof. unfold k_num_LM. nia. Qed.
Lemma k_H2_1 m : cov m bH1 [n; M; K] -> cov m bH2 [n; K] ->
  wp top (kk_H2_kernel_1 km n (f_node_types s)) m (fun _ m' => keep (o_1 bH2) m m' /\
    forall i k, (i < n)%nat -> (k < K)%nat -> va m' (bH2, [i; k]) = va m (bH2, [i; k]) + rsum K (fun kp => WH i (kp * K + k)%nat * va m (bH1, [i; 0%nat; kp]))).
Proof.
  intros C1 C2. unfold kk_H2_kernel_1. pose proof H2_pos as HM0.
  set (f := fun i k => rsum K (fun kp => WH i (kp * K + k)%nat * va m (bH1, [i; 0%nat; kp]))).
  apply (wp_pfor2 top (ik_own bH2) none_ (h2_sp f m) nadd_).
  - intros i k Hi Hk. cbv zeta. rewrite divL, modL by auto.
    apply (wp_for_plus _ _ _ (fun kp => WH i (kp * K + k)%nat * va m (bH1, [i; 0%nat; kp])) (bH2, [i; k])).
    + intros kp x Hkp. eapply wp_lift; [apply rd_ty; auto|]. eapply wp_lift; [apply H2a_in; auto; apply kk_lt; auto|].
      apply wp_get; [look|al|]. apply wp_plus_; [look|al|].
      rewrite !va_store_eq, !va_store_ne, store_store by discriminate. reflexivity.
    + apply kpost_own. intros c P O. cell2 c O i' k'. apply some_inj in O. intros A. destruct (pairL _ _ _ _ _ O A Hk) as [-> ->]. apply va_store_eq.
  - intros m' (D & P1 & _ & _ & P4). split; [keepv P4|]. intros i k Hi Hk. apply (P1 (bH2, [i; k]) (i * K + k)%nat); auto. nia.
Qed.
Lemma k_H2_2 m : cov m bM1 [n; K] -> cov m bH2 [n; K] ->
  wp top (kk_H2_kernel_2 km n) m (fun _ m' => keep (o_1 bH2) m m' /\
    forall i k, (i < n)%nat -> (k < K)%nat -> va m' (bH2, [i; k]) = va m (bH2, [i; k]) + rsum K (fun kp => WM (kp * K + k)%nat * va m (bM1, [i; kp]))).
Proof.
  intros C1 C2. unfold kk_H2_kernel_2.
  set (f := fun i k => rsum K (fun kp => WM (kp * K + k)%nat * va m (bM1, [i; kp]))).
  apply (wp_pfor2 top (ik_own bH2) none_ (h2_sp f m) nadd_).
  - intros i k Hi Hk. cbv zeta. rewrite divL, modL by auto.
    apply (wp_for_plus _ _ _ (fun kp => WM (kp * K + k)%nat * va m (bM1, [i; kp])) (bH2, [i; k])).
    + intros kp x Hkp. pose proof (kk_lt kp k Hkp Hk) as HKK. eapply wp_lift; [apply (rd_some _ (kp * K + k)%nat (0:R)); exact (Nat.lt_le_trans _ _ _ HKK H2b_in)|].
      apply wp_get; [look|al|]. apply wp_plus_; [look|al|].
      rewrite !va_store_eq, !va_store_ne, store_store by discriminate. reflexivity.
    + apply kpost_own. intros c P O. cell2 c O i' k'. apply some_inj in O. intros A. destruct (pairL _ _ _ _ _ O A Hk) as [-> ->]. apply va_store_eq.
  - intros m' (D & P1 & _ & _ & P4). split; [keepv P4|]. intros i k Hi Hk. apply (P1 (bH2, [i; k]) (i * K + k)%nat); auto. nia.
Qed.

(** reverse_H2 *)
Definition rh2_own (c : cell) : option nat := match c with (bH1a, [i; 0%nat; k]) => Some (i * K + k)%nat | (bM1a, [i; k]) => Some (i * K + k)%nat | _ => None end.
Definition rh2_sp m (c : cell) (v : R) : Prop := match c with
  | (bH1a, [i; 0%nat; k]) => (k < K)%nat -> v = va m (bH1a, [i; 0%nat; k]) + rsum K (fun kp => WH i (k * K + kp)%nat * va m (bH2a, [i; kp]))
  | (bM1a, [i; k]) => (k < K)%nat -> v = va m (bM1a, [i; k]) + rsum K (fun kp => WM (k * K + kp)%nat * va m (bH2a, [i; kp]))
  | _ => True end.
Definition o_rH2 (b : buf) : bool := match b with bH1a | bM1a | bScr => true | _ => false end.
Lemma k_rH2 m : cov m bH1a [n; M; K] -> cov m bM1a [n; K] -> cov m bH2a [n; K] ->
  wp top (kk_reverse_H2_kernel km n (f_node_types s)) m (fun _ m' => keep o_rH2 m m' /\
    (forall i k, (i < n)%nat -> (k < K)%nat -> va m' (bH1a, [i; 0%nat; k]) =
       va m (bH1a, [i; 0%nat; k]) + rsum K (fun kp => WH i (k * K + kp)%nat * va m (bH2a, [i; kp]))) /\
    (forall i lm k, lm <> 0%nat -> va m' (bH1a, [i; lm; k]) = va m (bH1a, [i; lm; k])) /\
    (forall i k, (i < n)%nat -> (k < K)%nat -> va m' (bM1a, [i; k]) =
       va m (bM1a, [i; k]) + rsum K (fun kp => WM (k * K + kp)%nat * va m (bH2a, [i; kp])))).
Proof.
  intros C1 C2 C3. unfold kk_reverse_H2_kernel. pose proof H2_pos as HM0.
  apply (wp_pfor2 top rh2_own none_ (rh2_sp m) nadd_).
  - intros i k Hi Hk. cbv zeta. rewrite divL, modL by auto.
    set (I := fun j (_ : unit) (m2 : rmem) => dims m2 = dims m /\
      va m2 (bH1a, [i; 0%nat; k]) = va m (bH1a, [i; 0%nat; k]) + rsum j (fun kp => WH i (k * K + kp)%nat * va m (bH2a, [i; kp])) /\
      va m2 (bM1a, [i; k]) = va m (bM1a, [i; k]) + rsum j (fun kp => WM (k * K + kp)%nat * va m (bH2a, [i; kp])) /\
      forall idx, va m2 (bH2a, idx) = va m (bH2a, idx)).
    apply (wp_for _ _ _ _ I).
    + repeat split; auto; rewrite rsum_O; ring.
    + intros kp [] m2 Hkp (Dm & I1 & I2 & I3). pose proof (kk_lt k kp Hk Hkp) as HKK.
      eapply wp_lift; [apply rd_ty; auto|]. eapply wp_lift; [apply H2a_in; auto|].
      apply wp_get; [look|al|]. apply wp_plus; [look|al|].
      eapply wp_lift; [apply (rd_some _ (k * K + kp)%nat (0:R)); exact (Nat.lt_le_trans _ _ _ HKK H2b_in)|].
      apply wp_get; [look|al|]. apply wp_plus_; [look|al|].
      split; [auto|]. split; [|split].
      * rewrite va_store_ne by discriminate. rewrite va_store_eq, I1, I3, rsum_S, Rplus_assoc. reflexivity.
      * rewrite va_store_eq. rewrite !(va_store_ne _ (bH1a, [i; 0%nat; k])) by discriminate. rewrite I2, I3, rsum_S, Rplus_assoc. reflexivity.
      * intros idx. rewrite !va_store_ne by discriminate. auto.
    + intros [] m2 (Dm & I1 & I2 & I3). apply kpost_own. intros c P O.
      destruct c as [b idx]; destruct b; try discriminate O.
      + destruct idx as [|i' [|[|?] [|k' [|? ?]]]]; try discriminate O; lcbni O; apply some_inj in O; intros A; destruct (pairL _ _ _ _ _ O A Hk) as [-> ->]; exact I1.
      + idx2 idx O i' k'; intros A; destruct (pairL _ _ _ _ _ O A Hk) as [-> ->]; exact I2.
  - intros m' (D & P1 & _ & _ & P4). split; [keepv P4|]. split; [|split].
    + intros i k Hi Hk. apply (P1 (bH1a, [i; 0%nat; k]) (i * K + k)%nat); auto. nia.
    + intros i lm k Hl. apply P4. unfold idle. lcbn. destruct lm; [congruence|]. auto.
    + intros i k Hi Hk. apply (P1 (bM1a, [i; k]) (i * K + k)%nat); auto. nia.
Qed.

(** ** readouts *)
Definition e_own (c : cell) : option nat := match c with (bE, [i]) => Some i | _ => None end.
Definition e_sp (f : nat -> R) m (c : cell) (v : R) : Prop := match c with (bE, [i]) => v = va m (bE, [i]) + f i | _ => True end.
Lemma k_ro0 m : (forall i, (i < n)%nat -> (ty s i < length (k_atomic_energies km))%nat) -> cov m bE [n] ->
  wp top (kk_readout_0_kernel km n (f_node_types s)) m (fun _ m' => keep (o_1 bE) m m' /\
    (forall i, (i < n)%nat -> va m' (bE, [i]) = va m (bE, [i]) + nth (ty s i) (k_atomic_energies km) 0) /\ (forall i, (n <= i)%nat -> va m' (bE, [i]) = va m (bE, [i]))).
Proof.
  intros HT C. unfold kk_readout_0_kernel.
  apply (wp_pfor top e_own none_ (e_sp (fun i => nth (ty s i) (k_atomic_energies km) 0) m) nadd_).
  - intros i Hi. eapply wp_lift; [apply rd_ty; auto|]. eapply wp_lift; [apply (rd_some _ _ (0:R)); auto|].
    apply wp_plus_; [look|al|]. apply kpost_own. intros c P O. cell1 c O x. apply some_inj in O. subst. apply va_store_eq.
  - intros m' (D & P1 & P2 & _ & P4). split; [keepv P4|]. split; intros i Hi; [apply (P1 (bE, [i]) i); auto|apply (P2 (bE, [i]) i); auto].
Qed.
Lemma k_ro2 m : cov m bE [n] -> cov m bRo [n] ->
  wp top (kk_readout_2_kernel n) m (fun _ m' => keep (o_1 bE) m m' /\
    (forall i, (i < n)%nat -> va m' (bE, [i]) = va m (bE, [i]) + va m (bRo, [i])) /\ (forall i, (n <= i)%nat -> va m' (bE, [i]) = va m (bE, [i]))).
Proof.
  intros C C2. unfold kk_readout_2_kernel.
  apply (wp_pfor top e_own none_ (e_sp (fun i => va m (bRo, [i])) m) nadd_).
  - intros i Hi. apply wp_get; [look|al|].
    apply wp_plus_; [look|al|]. apply kpost_own. intros c P O. cell1 c O x. apply some_inj in O. subst. apply va_store_eq.
  - intros m' (D & P1 & P2 & _ & P4). split; [keepv P4|]. split; intros i Hi; [apply (P1 (bE, [i]) i); auto|apply (P2 (bE, [i]) i); auto].
Qed.
Lemma k_en m : cov m bE [n] -> wp top (kk_energy_kernel n) m (fun _ m' => keep (o_1 bScr) m m').
Proof.
  intros C. unfold kk_energy_kernel. apply wp_bind. apply (wp_red1r _ [] n _ (fun i => va m (bE, [i]))).
  - look.
  - intros i Hi. apply wp_get_; [look|al|vap; reflexivity].
  - intros m' D V. apply wp_ret. split; [auto|]. intros b idx Hb. apply V. destruct b; try discriminate Hb; reflexivity.
Qed.
Notation W1 k := (nth k (k_readout_1_weights km) (0:R)).
Definition ro1_own (c : cell) : option nat := match c with (bE, [i]) => Some i | (bH1a, [i; 0%nat; _]) => Some i | _ => None end.
Definition ro1_sp m (c : cell) (v : R) : Prop := match c with
  | (bE, [i]) => v = va m (bE, [i]) + rsum K (fun k => W1 k * va m (bH1, [i; 0%nat; k]))
  | (bH1a, [i; 0%nat; k]) => (k < K)%nat -> v = W1 k | _ => True end.
Definition o_ro1 (b : buf) : bool := match b with bE | bH1a | bScr => true | _ => false end.
Lemma k_ro1 m : (K <= length (k_readout_1_weights km))%nat -> cov m bE [n] -> cov m bH1 [n; M; K] -> cov m bH1a [n; M; K] ->
  wp top (kk_readout_1_kernel km n) m (fun _ m' => keep o_ro1 m m' /\
    (forall i, (i < n)%nat -> va m' (bE, [i]) = va m (bE, [i]) + rsum K (fun k => W1 k * va m (bH1, [i; 0%nat; k]))) /\
    (forall i k, (i < n)%nat -> (k < K)%nat -> va m' (bH1a, [i; 0%nat; k]) = W1 k) /\
    (forall i lm k, lm <> 0%nat -> va m' (bH1a, [i; lm; k]) = va m (bH1a, [i; lm; k])) /\
    (forall i, (n <= i)%nat -> va m' (bE, [i]) = va m (bE, [i]))).
Proof.
  intros HW C1 C2 C3. unfold kk_readout_1_kernel. pose proof H2_pos as HM0.
  apply (wp_pfor top ro1_own none_ (ro1_sp m) nadd_).
  - intros i Hi.
    set (I := fun j (_ : unit) (m2 : rmem) => dims m2 = dims m /\
      va m2 (bE, [i]) = va m (bE, [i]) + rsum j (fun k => W1 k * va m (bH1, [i; 0%nat; k])) /\
      (forall k, (k < j)%nat -> va m2 (bH1a, [i; 0%nat; k]) = W1 k) /\
      forall idx, va m2 (bH1, idx) = va m (bH1, idx)).
    apply (wp_for _ _ _ _ I).
    + repeat split; auto; [rewrite rsum_O; ring|]. intros; lia.
    + intros k [] m2 Hk (Dm & I1 & I2 & I3).
      eapply wp_lift; [apply (rd_some _ k (0:R)); exact (Nat.lt_le_trans _ _ _ Hk HW)|].
      apply wp_get; [look|al|]. apply wp_plus; [look|al|]. apply wp_put_; [look|al|].
      split; [auto|]. split; [|split].
      * rewrite va_store_ne by discriminate. rewrite va_store_eq, I1, I3, rsum_S, Rplus_assoc. reflexivity.
      * intros k' Hk'. destruct (Nat.eq_dec k' k) as [->|Hne]; [apply va_store_eq|].
        rewrite va_store_ne by (intros E; injection E; lia). rewrite va_store_ne by discriminate. apply I2. lia.
      * intros idx. rewrite !va_store_ne by discriminate. auto.
    + intros [] m2 (Dm & I1 & I2 & I3). apply kpost_own. intros c P O.
      destruct c as [b idx]; destruct b; try discriminate O.
      + idx1 idx O i'. subst i'. exact I1.
      + destruct idx as [|i' [|[|?] [|k' [|? ?]]]]; try discriminate O; lcbni O; apply some_inj in O; subst i'; intros A; apply I2; auto.
  - intros m' (D & P1 & P2 & _ & P4). split; [keepv P4|]. split; [|split; [|split]].
    + intros i Hi. apply (P1 (bE, [i]) i); auto.
    + intros i k Hi Hk. apply (P1 (bH1a, [i; 0%nat; k]) i); auto.
    + intros i lm k Hl. apply P4. unfold idle. lcbn. destruct lm; [congruence|]. auto.
    + intros i Hi. apply (P2 (bE, [i]) i); auto.
Qed.
End K.
