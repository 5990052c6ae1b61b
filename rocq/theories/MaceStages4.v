(** Stages of [MACE]: compute_A0_scaled, compute_A1_scaled and their reverse passes. *)
From Coq Require Import List Arith ZArith Lia Bool.
From Verif Require Import Base BaseLemmas Segs BlasModel BlasLemmas SplineModel SplineR MpModel MlpModel
  ZblModel MaceModel Sys SysLoops MaceGrid MacePure MaceStages1 MaceStages2.
Import ListNotations.

Lemma grid_tab {A} a K (f : nat -> nat -> A) : grid a K f = tab (a * K) (fun p => f (p / K) (p mod K)).
Proof.
  destruct (Nat.eq_dec K 0) as [->|HK].
  { rewrite Nat.mul_0_r. unfold grid. rewrite flat_map_concat_map. 
    induction (seq 0 a); simpl; auto. }
  destruct (Nat.eq_dec a 0) as [->|Ha]; [reflexivity|].
  apply list_eq_nth with (d := f 0 0); [rewrite length_grid, length_tab; auto|].
  intros p Hp. rewrite length_grid in Hp. rewrite nth_tab by auto.
  pose proof (Nat.div_mod_eq p K). pose proof (Nat.mod_upper_bound p K HK).
  apply nth_grid; auto; [lia|]. apply Nat.div_lt_upper_bound; lia.
Qed.

Lemma part2_split {A B} (f g : A -> list B) l i x c :
  (forall x, In x l -> length (g x) = c) -> nth_error l i = Some x ->
  exists pre post, part2 f g l i = pre ++ f x ++ post /\ part2 f g l (S i) = pre ++ g x ++ post /\
    length pre = i * c.
Proof.
  intros Hc Hx. assert (i < length l) by (apply nth_error_Some; congruence).
  exists (flat_map g (firstn i l)), (flat_map f (skipn (S i) l)). unfold part2. repeat split.
  - rewrite (skipn_nth _ _ _ Hx). reflexivity.
  - rewrite (firstn_S_nth _ _ _ Hx), flat_map_app'. cbn [flat_map]. rewrite app_nil_r, <- app_assoc. reflexivity.
  - fold (offs g l i). apply offs_const; auto; lia.
Qed.

Section S4.
Context {N : Num}.
Variable m : mace_model N.
Variable s : sys N.
Notation n := (length s).
Notation T := (length (m_atomic_numbers m)).
Notation K := (m_num_channels m).
Notation lms := (num_lm m).
Hypothesis W : mace_wf m.
Variable nH : nat.
Hypothesis SW : sys_wf m s nH.

(** three consecutive [+=] *)
Lemma add3 (pre post : list N) (f v : nat -> N) q : length pre = q * 3 ->
  (nf <- addto (pre ++ tab 3 f ++ post) (q * 3) (v 0) ;;
   nf <- addto nf (q * 3 + 1) (v 1) ;;
   addto nf (q * 3 + 2) (v 2)) = Some (pre ++ tab 3 (fun a => nadd (f a) (v a)) ++ post).
Proof.
  intros H.
  assert (A : forall seg a w, a < length seg -> addto (pre ++ seg ++ post) (q * 3 + a) w =
              Some (pre ++ upd seg a (nadd (nth a seg nzero) w) ++ post)).
  { intros seg a w Ha. unfold addto. rewrite <- H, rd_mid by auto. rewrite (rd_some _ _ nzero) by auto.
    cbn [bind]. apply wr_mid; auto. }
  rewrite <- (Nat.add_0_r (q * 3)) at 1. unfold tab. cbn [map seq].
  rewrite A by (simpl; lia). cbn [bind upd nth]. rewrite A by (simpl; lia). cbn [bind upd nth].
  rewrite A by (simpl; lia). reflexivity.
Qed.

Definition odivs (b : bool) (sc : nat -> N) (f : nat -> nat -> nat -> N) := if b then divs sc f else f.
Definition ofsc (b : bool) sp sc (dot : nat -> N) (F : nat -> edge N -> nat -> N) :=
  if b then fsc s sp sc dot F else F.

Section Scaled.
Variable Sp : list (@cubic_spline N).
Notation sp := (fun t u => nth (tyij m t u) Sp dspl).
Hypothesis HSp : T * (T + 1) / 2 <= length Sp.
Hypothesis Hin : forall i e, i < n -> In e (es s i) -> in_spl (sp (ty s i) (e_type e)) (e_r e).
Notation scf := (fun i => nfold (es s i) (fun e => csv (sp (ty s i) (e_type e)) (e_r e)) none).

Lemma scale_loop i : i < n ->
  for_ (length (es s i)) (fun _ '(A0_scale_factor, ij) =>
          type_j <- rd (f_neigh_types s) ij ;;
          check ((ty s i <? 2 * T) && (type_j <? 2 * T))%nat%bool ;;
          let type_ij := if (ty s i <=? type_j)%nat
            then (ty s i * (2 * T - ty s i - 1) / 2 + type_j)%nat
            else (type_j * (2 * T - type_j - 1) / 2 + ty s i)%nat in
          s1 <- rd Sp type_ij ;;
          rij <- rd (f_r s) ij ;;
          f <- to_option (cs_evaluate s1 rij) ;;
          Some (nadd A0_scale_factor f, (ij + 1)%nat)) (none, eo s i) =
  Some (scf i, eo s i + length (es s i)).
Proof.
  intros Hi. pose proof (sw_ty _ _ _ SW i Hi) as Hti.
  apply (eloop s i _ (fun j => (nfold (firstn j (es s i)) (fun e => csv (sp (ty s i) (e_type e)) (e_r e)) none, eo s i + j)));
    auto.
  - rewrite Nat.add_0_r. reflexivity.
  - rewrite firstn_all. reflexivity.
  - intros j e Hj Hie Hq. set (q := eo s i + j) in *.
    pose proof (sw_ety _ _ _ SW i e Hi Hie) as Htj.
    rewrite (rd_nty _ _ _ _ Hq). cbn [bind]. rewrite chk by auto. fold (tyij m (ty s i) (e_type e)). cbv zeta.
    pose proof (tyij_lt m _ _ Hti Htj).
    rewrite (rd_some Sp _ dspl) by lia. cbn [bind]. rewrite (rd_rij _ _ _ _ Hq). cbn [bind].
    destruct (Hin i e Hi Hie) as (y & d & E). pose proof (lemma_C13_gen (sp (ty s i) (e_type e)) (e_r e)) as C.
    cbv beta in C, E. rewrite E in C. destruct C as [C _]. rewrite C. cbn [to_option bind].
    rewrite (nfold_firstn_S _ _ _ _ _ Hj). cbv beta.
    assert (Ec : csv (nth (tyij m (ty s i) (e_type e)) Sp dspl) (e_r e) = y) by (unfold csv; rewrite E; auto).
    rewrite Ec. do 2 f_equal. unfold q; lia.
Qed.

Lemma div_loop i sc (f : nat -> nat -> N) :
  sseg (i * (lms * K)) (for_ (lms * K) (fun lmk A0 =>
          a <- rd A0 (i*lms*K + lmk)%nat ;;
          wr A0 (i*lms*K + lmk)%nat (ndiv a sc))) (grid lms K f) (grid lms K (fun lm k => ndiv (f lm k) sc)).
Proof.
  rewrite !grid_tab. apply (sseg_tab (i * (lms * K)) (lms * K) (fun _ a => ndiv a sc)).
  intros j a x Hj Hr. replace (i * lms * K) with (i * (lms * K)) by lia. rewrite Hr. reflexivity.
Qed.

Lemma fwd_scaled (A : nat -> nat -> nat -> N) :
  for_ n (fun i '(A0, ij) =>
      type_i <- rd (f_node_types s) i ;;
      nn <- rd (f_num_neigh s) i ;;
      '(A0_scale_factor, ij) <- for_ nn (fun _ '(A0_scale_factor, ij) =>
          type_j <- rd (f_neigh_types s) ij ;;
          check ((type_i <? 2 * T) && (type_j <? 2 * T))%nat%bool ;;
          let type_ij := if (type_i <=? type_j)%nat
            then (type_i * (2 * T - type_i - 1) / 2 + type_j)%nat
            else (type_j * (2 * T - type_j - 1) / 2 + type_i)%nat in
          s1 <- rd Sp type_ij ;;
          rij <- rd (f_r s) ij ;;
          f <- to_option (cs_evaluate s1 rij) ;;
          Some (nadd A0_scale_factor f, (ij + 1)%nat)) (none, ij) ;;
      A0 <- for_ (lms * K) (fun lmk A0 =>
          a <- rd A0 (i*lms*K + lmk)%nat ;;
          wr A0 (i*lms*K + lmk)%nat (ndiv a A0_scale_factor)) A0 ;;
      Some (A0, ij))
    (cube n lms K A, 0%nat) = Some (cube n lms K (divs scf A), length (epairs s)).
Proof.
  apply (for_trace (fun i => (part2 (fun i => grid lms K (A i)) (fun i => grid lms K (divs scf A i)) (seq 0 n) i, eo s i))).
  - reflexivity.
  - rewrite eo_n, <- part2_all by (rewrite seq_length; auto). reflexivity.
  - intros i Hi. rewrite rd_ty, rd_nn by auto. cbn [bind]. rewrite scale_loop by auto. cbn [bind].
    rewrite (part2_step_const (fun i => grid lms K (A i)) (fun i => grid lms K (divs scf A i)) (seq 0 n) i i (lms * K)).
    + cbn [bind]. rewrite eo_S' by auto. reflexivity.
    + intros; apply length_grid.
    + apply nth_error_seq0; auto.
    + apply div_loop.
Qed.

Lemma dot_loop i (d a : nat -> nat -> nat -> N) D A :
  i < n -> nread n D lms K d -> nread n A lms K a ->
  for_ (lms * K) (fun lmk s =>
          d <- rd D (i*lms*K + lmk)%nat ;;
          a <- rd A (i*lms*K + lmk)%nat ;;
          Some (nadd s (nmul d a))) nzero = Some (dotlk m d a i).
Proof.
  intros Hi HD HA. pose proof (mw_K _ W) as HK. unfold dotlk. apply for_nsum2; intros p Hp;
  pose proof (Nat.div_mod_eq p K); pose proof (Nat.mod_upper_bound p K ltac:(lia));
  assert (p / K < lms) by (apply Nat.div_lt_upper_bound; lia).
  - apply (HD i (p / K) (p mod K)); auto; lia.
  - apply (HA i (p / K) (p mod K)); auto; lia.
Qed.

Lemma rev_scaled (A d : nat -> nat -> nat -> N) Ab (F : nat -> edge N -> nat -> N) :
  nread n Ab lms K A ->
  for_ n (fun i '(node_forces, A0_adj, ij) =>
      type_i <- rd (f_node_types s) i ;;
      nn <- rd (f_num_neigh s) i ;;
      (* recompute the scale factor *)
      '(A0_scale_factor, ij) <- for_ nn (fun _ '(A0_scale_factor, ij) =>
          type_j <- rd (f_neigh_types s) ij ;;
          check ((type_i <? 2 * T) && (type_j <? 2 * T))%nat%bool ;;
          let type_ij := if (type_i <=? type_j)%nat
            then (type_i * (2 * T - type_i - 1) / 2 + type_j)%nat
            else (type_j * (2 * T - type_j - 1) / 2 + type_i)%nat in
          s1 <- rd Sp type_ij ;;
          rij <- rd (f_r s) ij ;;
          f <- to_option (cs_evaluate s1 rij) ;;
          Some (nadd A0_scale_factor f, (ij + 1)%nat)) (none, ij) ;;
      (* update dE/dxyz *)
      dA0_dot_A0 <- for_ (lms * K) (fun lmk s =>
          d <- rd A0_adj (i*lms*K + lmk)%nat ;;
          a <- rd Ab (i*lms*K + lmk)%nat ;;
          Some (nadd s (nmul d a))) nzero ;;
      let ij := (ij - nn)%nat in
      '(node_forces, ij) <- for_ nn (fun _ '(node_forces, ij) =>
          type_j <- rd (f_neigh_types s) ij ;;
          check ((type_i <? 2 * T) && (type_j <? 2 * T))%nat%bool ;;
          let type_ij := if (type_i <=? type_j)%nat
            then (type_i * (2 * T - type_i - 1) / 2 + type_j)%nat
            else (type_j * (2 * T - type_j - 1) / 2 + type_i)%nat in
          s1 <- rd Sp type_ij ;;
          rij <- rd (f_r s) ij ;;
          '(_, d) <- to_option (cs_evaluate_deriv s1 rij) ;;
          x <- rd (f_xyz s) (ij*3)%nat ;;
          node_forces <- addto node_forces (ij*3)%nat (ndiv (nmul (nmul (ndiv dA0_dot_A0 A0_scale_factor) d) x) rij) ;;
          y <- rd (f_xyz s) (ij*3+1)%nat ;;
          node_forces <- addto node_forces (ij*3+1)%nat (ndiv (nmul (nmul (ndiv dA0_dot_A0 A0_scale_factor) d) y) rij) ;;
          z <- rd (f_xyz s) (ij*3+2)%nat ;;
          node_forces <- addto node_forces (ij*3+2)%nat (ndiv (nmul (nmul (ndiv dA0_dot_A0 A0_scale_factor) d) z) rij) ;;
          Some (node_forces, (ij + 1)%nat)) (node_forces, ij) ;;
      (* update dE/dA0 *)
      A0_adj <- for_ (lms * K) (fun lmk A0_adj =>
          a <- rd A0_adj (i*lms*K + lmk)%nat ;;
          wr A0_adj (i*lms*K + lmk)%nat (ndiv a A0_scale_factor)) A0_adj ;;
      Some (node_forces, A0_adj, ij))
    (eb s 3 F, cube n lms K d, 0%nat) =
  Some (eb s 3 (fsc s sp scf (dotlk m d A) F), cube n lms K (divs scf d), length (epairs s)).
Proof.
  intros HA.
  set (F' := fsc s sp scf (dotlk m d A) F).
  set (fb := fun p : nat * edge N => tab 3 (F (fst p) (snd p))).
  set (fb' := fun p : nat * edge N => tab 3 (F' (fst p) (snd p))).
  set (db := fun i => grid lms K (d i)). set (db' := fun i => grid lms K (divs scf d i)).
  apply (for_trace (fun i => (part2 fb fb' (epairs s) (eo s i), part2 db db' (seq 0 n) i, eo s i))).
  - reflexivity.
  - rewrite eo_n, <- !part2_all by (rewrite ?seq_length; auto). reflexivity.
  - intros i Hi. rewrite rd_ty, rd_nn by auto. cbn [bind]. rewrite scale_loop by auto. cbn [bind].
    rewrite (dot_loop i (fun i' => if i' <? i then divs scf d i' else d i') A); auto.
    2:{ intros i' lm k p Hi' Hlm Hk Hp.
        replace (part2 db db' (seq 0 n) i) with (cube n lms K (fun i' => if i' <? i then divs scf d i' else d i')).
        - apply (rd_cube n lms K (fun i' => if i' <? i then divs scf d i' else d i') i' lm k); auto.
        - unfold cube, part2. replace n with (i + (n - i)) at 1 by lia. rewrite seq_app, flat_map_app'.
          f_equal.
          + replace (firstn i (seq 0 n)) with (seq 0 i).
            * apply flat_map_ext_in. intros x Hx. apply in_seq in Hx. destruct (Nat.ltb_spec x i); [reflexivity|lia].
            * replace n with (i + (n - i)) by lia. rewrite seq_app, firstn_app, seq_length, Nat.sub_diag.
              rewrite firstn_all2 by (rewrite seq_length; lia). rewrite app_nil_r. reflexivity.
          + replace (skipn i (seq 0 n)) with (seq (0 + i) (n - i)).
            * apply flat_map_ext_in. intros x Hx. apply in_seq in Hx. destruct (Nat.ltb_spec x i); [lia|reflexivity].
            * replace n with (i + (n - i)) at 2 by lia. rewrite seq_app, skipn_app, seq_length, Nat.sub_diag.
              rewrite skipn_all2 by (rewrite seq_length; lia). reflexivity. }
    cbn [bind]. cbv zeta. replace (eo s i + length (es s i) - length (es s i)) with (eo s i) by lia.
    set (dot := dotlk m _ _ i).
    assert (Ed : dot = dotlk m d A i).
    { unfold dot, dotlk. apply nsum_ext. intros p Hp. cbv beta. destruct (Nat.ltb_spec i i); [lia|reflexivity]. }
    match goal with |- bind ?L _ = _ => assert (E : L = Some (part2 fb fb' (epairs s) (eo s (S i)), eo s (S i))) end.
    { rewrite eo_S' by auto. pose proof (sw_ty _ _ _ SW i Hi) as Hti.
      apply (eloop s i _ (fun j => (part2 fb fb' (epairs s) (eo s i + j), eo s i + j))); auto.
      - rewrite Nat.add_0_r. reflexivity.
      - intros j e Hj Hie Hq. set (q := eo s i + j) in *.
        pose proof (sw_ety _ _ _ SW i e Hi Hie) as Htj.
        rewrite (rd_nty _ _ _ _ Hq). cbn [bind]. rewrite chk by auto. fold (tyij m (ty s i) (e_type e)).
        pose proof (tyij_lt m _ _ Hti Htj).
        rewrite (rd_some Sp _ dspl) by lia. cbn [bind]. rewrite (rd_rij _ _ _ _ Hq). cbn [bind].
        destruct (Hin i e Hi Hie) as (y & dd & E). cbv beta in E. rewrite E. cbn [to_option bind].
        rewrite (rd_comp s q i e Hq 0), (rd_comp s q i e Hq 1), (rd_comp s q i e Hq 2) by lia. cbn [bind].
        destruct (part2_split fb fb' (epairs s) q (i, e) 3) as (pre & post & A1 & A2 & A3); auto.
        rewrite A1.
        pose proof (add3 pre post (F i e) (fun a => ndiv (nmul (nmul (ndiv dot (scf i)) dd) (comp e a)) (e_r e)) q A3) as E3.
        cbv beta in E3. unfold fb at 1. cbn [fst snd].
        match type of E3 with ?X = _ => match goal with |- ?Y = _ =>
          replace Y with (nf <- X ;; Some (nf, q + 1)) end end.
        + rewrite E3. cbn [bind]. replace (eo s i + S j) with (S q) by (unfold q; lia).
          rewrite A2. replace (q + 1) with (S q) by lia. do 3 f_equal. unfold fb'. cbn [fst snd]. f_equal.
          apply tab_ext. intros a Ha. unfold F', fsc. rewrite Ed. unfold csd. rewrite E. reflexivity.
        + destruct (addto (pre ++ _ ++ post) (q * 3) _); cbn [bind]; auto.
          destruct (addto _ (q * 3 + 1) _); cbn [bind]; auto. }
    rewrite E. cbn [bind].
    rewrite (part2_step_const db db' (seq 0 n) i i (lms * K)).
    + reflexivity.
    + intros; apply length_grid.
    + apply nth_error_seq0; auto.
    + apply div_loop.
Qed.
End Scaled.

Lemma resize_eq {A} (d : A) l k : length l = k -> resize d l k = l.
Proof. intros <-. unfold resize. rewrite firstn_all, Nat.sub_diag. apply app_nil_r. Qed.

Lemma compute_A0_scaled_ok A :
  compute_A0_scaled m n (f_node_types s) (f_num_neigh s) (f_neigh_types s) (f_r s) (cube n lms K A) =
  Some (cube n lms K (odivs (m_A0_scaled m) (sc0 m s) A)).
Proof.
  unfold compute_A0_scaled, odivs. destruct (m_A0_scaled m) eqn:E; cbn [negb]; [|reflexivity].
  rewrite fwd_scaled; [reflexivity|apply (mw_A0s _ W E)|apply (sw_A0 _ _ _ SW E)].
Qed.

Lemma compute_A1_scaled_ok A :
  compute_A1_scaled m n (f_node_types s) (f_num_neigh s) (f_neigh_types s) (f_r s) (cube n lms K A) =
  Some (cube n lms K (odivs (m_A1_scaled m) (sc1 m s) A)).
Proof.
  unfold compute_A1_scaled, odivs. destruct (m_A1_scaled m) eqn:E; cbn [negb]; [|reflexivity].
  rewrite fwd_scaled; [reflexivity|apply (mw_A1s _ W E)|apply (sw_A1 _ _ _ SW E)].
Qed.

Lemma reverse_A0_scaled_ok Ab A d F : nread n Ab lms K A ->
  reverse_A0_scaled m n (f_node_types s) (f_num_neigh s) (f_neigh_types s) (f_xyz s) (f_r s) Ab
    (eb s 3 F) (cube n lms K d) =
  Some (eb s 3 (ofsc (m_A0_scaled m) (spl0 m) (sc0 m s) (dotlk m d A) F),
        cube n lms K (odivs (m_A0_scaled m) (sc0 m s) d)).
Proof.
  intros HA. unfold reverse_A0_scaled, odivs, ofsc. destruct (m_A0_scaled m) eqn:E; cbn [negb]; [|reflexivity].
  rewrite rev_scaled with (A := A); auto; [apply (mw_A0s _ W E)|apply (sw_A0 _ _ _ SW E)].
Qed.

Lemma reverse_A1_scaled_ok Ab A d F : nread n Ab lms K A ->
  reverse_A1_scaled m n (f_node_types s) (f_num_neigh s) (f_neigh_types s) (f_xyz s) (f_r s) false Ab
    (eb s 3 F) (cube n lms K d) =
  Some (eb s 3 (ofsc (m_A1_scaled m) (spl1 m) (sc1 m s) (dotlk m d A) F),
        cube n lms K (odivs (m_A1_scaled m) (sc1 m s) d)).
Proof.
  intros HA. unfold reverse_A1_scaled, odivs, ofsc. destruct (m_A1_scaled m) eqn:E; cbn [negb]; [|reflexivity].
  rewrite resize_eq by (rewrite length_eb, length_xyz; reflexivity).
  rewrite rev_scaled with (A := A); auto; [apply (mw_A1s _ W E)|apply (sw_A1 _ _ _ SW E)].
Qed.
End S4.
