(** Proofs about the exported polynomials.  Used in proofs only. *)
From Coq Require Import List Arith ZArith Lia Bool Reals Lra Permutation.
From Verif Require Import Base BaseLemmas Instances RSums RList MpSpec ExportPolyModel ExportPolySpec.
Import ListNotations.
Local Open Scope R_scope.

(** ** tuples *)
Lemma for_in_for {A S} (l : list A) (body : A -> S -> option S) s : for_in l body s = for_ (length l) (fun i s => x <- rd l i ;; body x s) s.
Proof.
  unfold for_. assert (H : forall k pre, length pre = k -> for_in l body s = for_from (length l) k (fun i s => x <- rd (pre ++ l) i ;; body x s) s).
  { revert s. induction l as [|x l IH]; intros s k pre Hk; [reflexivity|]. cbn [for_in length for_from]. replace (rd (pre ++ x :: l) k) with (Some x).
    - cbn [bind]. destruct (body x s) as [s'|]; [|reflexivity]. cbn [bind]. rewrite (IH s' (Datatypes.S k) (pre ++ [x])); [|rewrite app_length; cbn; lia]. rewrite <- app_assoc. reflexivity.
    - unfold rd. rewrite nth_error_app2 by lia. replace (k - length pre)%nat with 0%nat by lia. reflexivity. }
  apply (H 0%nat []). reflexivity.
Qed.
Lemma length_product n c : length (product n c) = (n ^ c)%nat.
Proof.
  induction c as [|c IH]; [reflexivity|]. cbn [product]. rewrite (length_flat_map_const _ _ (n ^ c)%nat); [rewrite seq_length; reflexivity|]. intros x _. rewrite map_length. exact IH.
Qed.
Definition tup (n corr c : nat) : list nat := map (digit n corr c) (seq 0 corr).
Lemma nth_product n corr : forall c, (c < n ^ corr)%nat -> nth_error (product n corr) c = Some (tup n corr c).
Proof.
  induction corr as [|corr IH]; intros c Hc.
  - cbn in Hc. assert (c = 0)%nat as -> by lia. reflexivity.
  - cbn [product]. rewrite Nat.pow_succ_r' in Hc. assert (Hn : (n ^ corr <> 0)%nat) by lia. assert (Hn0 : (n <> 0)%nat) by (intros ->; lia).
    assert (Hq : (c / n ^ corr < n)%nat) by (apply Nat.div_lt_upper_bound; lia). pose proof (Nat.mod_upper_bound c (n ^ corr)%nat Hn) as Hm.
    rewrite (Nat.div_mod c (n ^ corr)%nat Hn) at 1. rewrite (Nat.mul_comm (n ^ corr)%nat).
    rewrite (nth_error_flat_map_const _ _ (n ^ corr)%nat (c / n ^ corr)%nat (c mod n ^ corr)%nat (c / n ^ corr)%nat); [|intros x _; rewrite map_length; apply length_product| |exact Hm].
    + rewrite nth_error_map, IH by exact Hm. cbn [option_map]. f_equal. unfold tup. cbn [seq map]. f_equal.
      * unfold digit. replace (S corr - 1 - 0)%nat with corr by lia. rewrite Nat.mod_small by exact Hq. reflexivity.
      * rewrite <- seq_shift, map_map. apply map_ext_in. intros p Hp. apply in_seq in Hp. unfold digit. replace (S corr - 1 - S p)%nat with (corr - 1 - p)%nat by lia.
        assert (E : (n ^ corr = n ^ (corr - 1 - p) * n * n ^ p)%nat).
        { replace (n ^ (corr - 1 - p) * n)%nat with (n ^ (corr - p))%nat; [|replace (corr - p)%nat with (S (corr - 1 - p)) by lia; rewrite Nat.pow_succ_r'; lia]. rewrite <- Nat.pow_add_r. f_equal. lia. }
        set (b := (n ^ (corr - 1 - p))%nat) in *. assert (Hb : b <> 0%nat) by (apply Nat.pow_nonzero; exact Hn0).
        rewrite E. replace (b * n * n ^ p)%nat with (b * (n * n ^ p))%nat by lia. rewrite Nat.mod_mul_r by (auto; apply Nat.neq_mul_0; split; auto; apply Nat.pow_nonzero; auto).
        rewrite (Nat.add_comm (c mod b)%nat), Nat.mul_comm, Nat.div_add_l by exact Hb. rewrite (Nat.div_small (c mod b)%nat) by (apply Nat.mod_upper_bound; exact Hb). rewrite Nat.add_0_r.
        rewrite Nat.mod_mul_r by (auto; apply Nat.pow_nonzero; auto). rewrite Nat.mul_comm, Nat.mod_add by exact Hn0. apply Nat.mod_mod. exact Hn0.
    + rewrite nth_error_nth' with (d := 0%nat) by (rewrite seq_length; exact Hq). rewrite seq_nth by exact Hq. reflexivity.
Qed.
Lemma tup_lt n corr c i : (c < n ^ corr)%nat -> In i (tup n corr c) -> (i < n)%nat.
Proof.
  intros Hc Hi. unfold tup in Hi. apply in_map_iff in Hi. destruct Hi as (p & <- & Hp). apply in_seq in Hp. unfold digit. apply Nat.mod_upper_bound. intros ->. destruct corr; [lia|]. cbn in Hc. lia.
Qed.
Lemma mono_tup n corr c x : mono x (tup n corr c) = vars n corr c x.
Proof. unfold mono, tup, vars. rewrite map_map. reflexivity. Qed.

(** ** sorted *)
Lemma perm_insert a l : Permutation (a :: l) (insert a l).
Proof.
  induction l as [|b l IH]; [apply Permutation_refl|]. cbn [insert]. destruct (a <=? b)%nat; [apply Permutation_refl|].
  eapply perm_trans; [apply perm_swap|]. apply perm_skip. exact IH.
Qed.
Lemma perm_sorted t : Permutation t (sorted t).
Proof. induction t as [|a t IH]; [constructor|]. cbn [sorted fold_right]. eapply perm_trans; [apply perm_skip; exact IH|apply perm_insert]. Qed.
Lemma mono_perm x m m' : Permutation m m' -> mono x m = mono x m'.
Proof. unfold mono. induction 1; cbn [map fold_right]; solve [lra|congruence]. Qed.
Fixpoint incr (m : list nat) : Prop := match m with [] => True | a :: m' => (forall b, In b m' -> (a <= b)%nat) /\ incr m' end.
Lemma incr_insert a l : incr l -> incr (insert a l).
Proof.
  induction l as [|b l IH]; intros H; [cbn; split; [intros ? []|exact Logic.I]|]. cbn [insert]. destruct H as [H1 H2]. destruct (Nat.leb_spec a b) as [Hab|Hab].
  - cbn [incr]. split; [intros c [<-|Hc]; [exact Hab|apply H1 in Hc; lia]|split; assumption].
  - cbn [incr]. split; [|apply IH; exact H2]. intros c Hc. apply (Permutation_in _ (Permutation_sym (perm_insert a l))) in Hc. destruct Hc as [<-|Hc]; [lia|apply H1; exact Hc].
Qed.
Lemma incr_sorted t : incr (sorted t).
Proof. induction t as [|a t IH]; [exact Logic.I|]. cbn [sorted fold_right]. apply incr_insert. exact IH. Qed.
Lemma incr_ordered m : incr m -> ordered m.
Proof.
  induction m as [|a m IH]; intros H i j Hij; [cbn in Hij; lia|]. destruct H as [H1 H2]. destruct j as [|j]; [lia|]. destruct i as [|i]; cbn [nth].
  - apply H1, nth_In. cbn in Hij. lia.
  - apply IH; [exact H2|]. cbn in Hij. lia.
Qed.

(** ** dicts *)
Definition ev (x : list R) (d : dict (N:=RNum)) : R := rl d (fun p => snd p * mono x (fst p)).
Lemma poly_ev x (d : dict (N:=RNum)) : poly (map snd d) (map fst d) x = ev x d.
Proof. unfold poly, ev, rl. induction d as [|[k v] d IH]; [reflexivity|]. exact (f_equal (Rplus (v * mono x k)) IH). Qed.
Definition kadd (ks : list (list nat)) (k : list nat) : list (list nat) := if in_dec (list_eq_dec Nat.eq_dec) k ks then ks else ks ++ [k].
Lemma key_eqb_spec a b : Bool.reflect (a = b) (key_eqb a b).
Proof. unfold key_eqb. destruct (list_eq_dec Nat.eq_dec a b); constructor; assumption. Qed.
Lemma ev_add x d k v : ev x (dict_add (N:=RNum) d k v) = ev x d + v * mono x k.
Proof.
  unfold ev. induction d as [|[k' w] d IH]; cbn [dict_add].
  - rewrite rl_cons, rl_nil. cbn [fst snd]. rewrite RNum_zero. change (@nadd RNum 0 v) with (0 + v). lra.
  - destruct (key_eqb_spec k' k) as [->|Hk]; rewrite !rl_cons; cbn [fst snd]; [change (@nadd RNum w v) with (w + v); lra|]. rewrite IH. lra.
Qed.
Lemma keys_add d k v : map fst (dict_add (N:=RNum) d k v) = kadd (map fst d) k.
Proof.
  unfold kadd. induction d as [|[k' w] d IH]; cbn [dict_add map fst].
  - destruct (in_dec _ k []) as [[]|]. reflexivity.
  - destruct (key_eqb_spec k' k) as [->|Hk].
    + cbn [map fst]. destruct (in_dec _ k (k :: map fst d)) as [_|n]; [reflexivity|]. exfalso. apply n. left. reflexivity.
    + cbn [map fst]. rewrite IH. destruct (in_dec _ k (map fst d)) as [i|n]; destruct (in_dec _ k (k' :: map fst d)) as [i'|n']; try reflexivity.
      * exfalso. apply n'. right. exact i.
      * exfalso. destruct i' as [E|i']; [congruence|apply n; exact i'].
Qed.
Lemma nodup_kadd ks k : NoDup ks -> NoDup (kadd ks k).
Proof.
  intros H. unfold kadd. destruct (in_dec _ k ks) as [_|n]; [exact H|]. apply (Permutation_NoDup (Permutation_cons_append ks k)). constructor; assumption.
Qed.
Lemma forall_kadd (Q : list nat -> Prop) ks k : List.Forall Q ks -> Q k -> List.Forall Q (kadd ks k).
Proof. intros H Hk. unfold kadd. destruct (in_dec _ k ks); [exact H|]. apply Forall_app. split; [exact H|constructor; auto]. Qed.
Lemma nodup_fold l : forall ks, NoDup ks -> NoDup (fold_left kadd l ks).
Proof. induction l as [|k l IH]; intros ks H; [exact H|]. cbn [fold_left]. apply IH, nodup_kadd, H. Qed.
Lemma forall_fold (Q : list nat -> Prop) l : forall ks, List.Forall Q ks -> List.Forall Q l -> List.Forall Q (fold_left kadd l ks).
Proof. induction l as [|k l IH]; intros ks H Hl; [exact H|]. cbn [fold_left]. inversion Hl; subst. apply IH; [apply forall_kadd; assumption|assumption]. Qed.

(** ** U_sparse_corr *)
Lemma wr_tab {A} n (f : nat -> A) i v : (i < n)%nat -> wr (tab n f) i v = Some (tab n (fun j => if (j =? i)%nat then v else f j)).
Proof.
  intros Hi. rewrite wr_some by (rewrite length_tab; exact Hi). f_equal. apply (list_eq_nth _ _ v).
  - rewrite length_upd, !length_tab. reflexivity.
  - intros j Hj. rewrite length_upd, length_tab in Hj. rewrite nth_upd by (rewrite length_tab; exact Hi). rewrite !nth_tab by exact Hj.
    rewrite (Nat.eqb_sym i j). destruct (j =? i)%nat; reflexivity.
Qed.

Definition DD (ne T n corr : nat) (U : list R) (m eta c : nat) : dict (N:=RNum) :=
  fold_left (fun d c' => let u := nth ((m * T + c') * ne + eta)%nat U 0 in if kept (N:=RNum) u then dict_add (N:=RNum) d (sorted (tup n corr c')) u else d) (seq 0 c) [].
Lemma DD_S ne T n corr U m eta c : DD ne T n corr U m eta (S c) =
  let u := nth ((m * T + c) * ne + eta)%nat U 0 in if kept (N:=RNum) u then dict_add (N:=RNum) (DD ne T n corr U m eta c) (sorted (tup n corr c)) u else DD ne T n corr U m eta c.
Proof. unfold DD. rewrite seq_S, fold_left_app. reflexivity. Qed.
Definition cnt (T m c eta m' e' : nat) : nat := if (m' <? m)%nat then T else if (m' =? m)%nat then (if (e' <? eta)%nat then S c else c) else 0%nat.
Definition FF (rows ne T n corr : nat) (U : list R) (m c eta : nat) : list (list (dict (N:=RNum))) :=
  tab rows (fun m' => tab ne (fun e' => DD ne T n corr U m' e' (cnt T m c eta m' e'))).

Lemma FF_ext rows ne T n corr U m c eta m2 c2 eta2 :
  (forall m' e', (m' < rows)%nat -> (e' < ne)%nat -> cnt T m c eta m' e' = cnt T m2 c2 eta2 m' e') -> FF rows ne T n corr U m c eta = FF rows ne T n corr U m2 c2 eta2.
Proof. intros H. unfold FF. apply tab_ext. intros m' Hm. apply tab_ext. intros e' He. rewrite H by assumption. reflexivity. Qed.
Ltac cntac := unfold cnt; repeat match goal with |- context [Nat.ltb ?a ?b] => destruct (Nat.ltb_spec a b) | |- context [Nat.eqb ?a ?b] => destruct (Nat.eqb_spec a b) end; try lia.

Lemma U_sparse_corr_ok rows n corr ne (U : list R) : length U = (rows * n ^ corr * ne)%nat ->
  U_sparse_corr (N:=RNum) rows n corr (ne, U) = Some (tab rows (fun m => tab ne (fun eta => DD ne (n ^ corr) n corr U m eta (n ^ corr)))).
Proof.
  intros HU. unfold U_sparse_corr. set (T := (n ^ corr)%nat) in *.
  rewrite (for_trace (fun m => (FF rows ne T n corr U m 0 0, (m * T * ne)%nat)) rows _ (repeat (repeat [] ne) rows, 0%nat) (FF rows ne T n corr U rows 0 0, (rows * T * ne)%nat)).
  - cbn [bind]. f_equal. unfold FF. apply tab_ext. intros m Hm. apply tab_ext. intros e He. f_equal. cntac.
  - f_equal. unfold FF. apply (list_eq_nth _ _ []); [rewrite repeat_length, length_tab; reflexivity|]. intros m Hm. rewrite repeat_length in Hm. rewrite nth_tab by exact Hm.
    rewrite (nth_indep _ [] (repeat [] ne)) by (rewrite repeat_length; exact Hm). rewrite nth_repeat.
    apply (list_eq_nth _ _ []); [rewrite repeat_length, length_tab; reflexivity|]. intros e He. rewrite repeat_length in He. rewrite nth_tab by exact He. rewrite nth_repeat.
    replace (cnt T 0 0 0 m e) with 0%nat by cntac. reflexivity.
  - reflexivity.
  - intros m Hm. rewrite for_in_for, length_product. fold T.
    rewrite (for_trace (fun c => (FF rows ne T n corr U m c 0, ((m * T + c) * ne)%nat)) T _ (FF rows ne T n corr U m 0 0, (m * T * ne)%nat) (FF rows ne T n corr U (S m) 0 0, (S m * T * ne)%nat)).
    + reflexivity.
    + f_equal. lia.
    + f_equal; [|lia]. apply FF_ext. intros m' e' Hm' He'. cntac.
    + intros c Hc. unfold rd at 1. rewrite nth_product by exact Hc. cbn [bind].
      rewrite (for_trace (fun eta => (FF rows ne T n corr U m c eta, ((m * T + c) * ne + eta)%nat)) ne _ (FF rows ne T n corr U m c 0, ((m * T + c) * ne)%nat) (FF rows ne T n corr U m (S c) 0, ((m * T + S c) * ne)%nat)).
      * reflexivity.
      * f_equal. lia.
      * f_equal; [|lia]. apply FF_ext. intros m' e' Hm' He'. cntac.
      * intros eta He. assert (Hj : ((m * T + c) * ne + eta < length U)%nat).
        { rewrite HU. apply (Nat.lt_le_trans _ ((m * T + c) * ne + ne)%nat); [lia|]. replace ((m * T + c) * ne + ne)%nat with ((m * T + c + 1) * ne)%nat by lia. apply Nat.mul_le_mono_r. nia. }
        change (rd (A:=carrier RNum) U ((m * T + c) * ne + eta)) with (rd (A:=R) U ((m * T + c) * ne + eta)). rewrite (rd_some U _ 0) by exact Hj. cbn [bind].
        replace ((m * T + c) * ne + S eta)%nat with ((m * T + c) * ne + eta + 1)%nat by lia.
        destruct (kept (N:=RNum) (nth ((m * T + c) * ne + eta) U 0)) eqn:Hk.
        -- unfold FF at 1. rewrite rd_tab by exact Hm. cbn [bind]. rewrite rd_tab by exact He. cbn [bind]. rewrite wr_tab by exact He. cbn [bind]. unfold FF at 1. rewrite wr_tab by exact Hm. cbn [bind]. f_equal. f_equal.
           unfold FF. apply tab_ext. intros m' Hm'. destruct (Nat.eqb_spec m' m) as [->|Hne].
           ++ apply tab_ext. intros e' He'. destruct (Nat.eqb_spec e' eta) as [->|Hne].
              ** replace (cnt T m c eta m eta) with c by cntac. replace (cnt T m c (S eta) m eta) with (S c) by cntac. rewrite DD_S. cbv zeta. rewrite Hk. reflexivity.
              ** f_equal. cntac.
           ++ apply tab_ext. intros e' He'. f_equal. cntac.
        -- cbn [bind]. f_equal. f_equal. unfold FF. apply tab_ext. intros m' Hm'. apply tab_ext. intros e' He'.
           destruct (Nat.eqb_spec m' m) as [->|Hne]; [|f_equal; cntac]. destruct (Nat.eqb_spec e' eta) as [->|Hne]; [|f_equal; cntac].
           replace (cnt T m c eta m eta) with c by cntac. replace (cnt T m c (S eta) m eta) with (S c) by cntac. rewrite DD_S. cbv zeta. rewrite Hk. reflexivity.
Qed.

Lemma sum_rl n f : sum n f = rl (seq 0 n) f.
Proof. unfold sum, rl. induction (seq 0 n) as [|i l IH]; [reflexivity|]. exact (f_equal (Rplus (f i)) IH). Qed.
Definition cut1 (u : R) : R := if Rlt_dec (1 / 10 ^ 12) (Rabs u) then u else 0.
Lemma kept_cut u : (if kept (N:=RNum) u then u else 0) = cut1 u.
Proof.
  unfold kept, cut1. assert (E : nltb (nlit (n:=RNum) 1 (10 ^ 12)) (py_abs (N:=RNum) u) = if Rlt_dec (1 / 10 ^ 12) (Rabs u) then true else false); [|rewrite E; destruct (Rlt_dec (1 / 10 ^ 12) (Rabs u)); reflexivity].
  assert (Ha : py_abs (N:=RNum) u = Rabs u).
  { unfold py_abs, Rabs. rewrite RNum_zero. cbn [nltb RNum]. destruct (Rlt_dec u 0); destruct (Rcase_abs u); cbn [nopp RNum]; try reflexivity; lra. }
  rewrite Ha. replace (nlit (n:=RNum) 1 (10 ^ 12)) with (1 / 10 ^ 12).
  - cbn [nltb RNum]. reflexivity.
  - rewrite RNum_lit. rewrite pow_IZR. reflexivity.
Qed.
Lemma ev_DD x ne T n corr U m eta c : ev x (DD ne T n corr U m eta c) = rl (seq 0 c) (fun c' => cut1 (nth ((m * T + c') * ne + eta)%nat U 0) * vars n corr c' x).
Proof.
  induction c as [|c IH]; [reflexivity|]. rewrite DD_S, seq_S, rl_app, <- IH, rl_cons, rl_nil. cbn [Nat.add]. cbv zeta. rewrite <- (kept_cut (nth ((m * T + c) * ne + eta) U 0)).
  destruct (kept (N:=RNum) (nth ((m * T + c) * ne + eta) U 0)); [|lra]. rewrite ev_add. rewrite <- (mono_perm x _ _ (perm_sorted (tup n corr c))), mono_tup. lra.
Qed.
Definition key_ok (n : nat) (m : list nat) : Prop := (m <> [] /\ List.Forall (fun i => (i < n)%nat) m) /\ ordered m.
Lemma key_tup n corr c : (1 <= corr)%nat -> (c < n ^ corr)%nat -> key_ok n (sorted (tup n corr c)).
Proof.
  intros Hcorr Hc. repeat split.
  - intros E. pose proof (Permutation_length (perm_sorted (tup n corr c))) as HL. rewrite E in HL. unfold tup in HL. rewrite map_length, seq_length in HL. cbn in HL. lia.
  - apply Forall_forall. intros i Hi. apply (Permutation_in _ (Permutation_sym (perm_sorted _))) in Hi. exact (tup_lt n corr c i Hc Hi).
  - apply incr_ordered, incr_sorted.
Qed.
Lemma keys_DD ne T n corr U m eta c : (1 <= corr)%nat -> (c <= n ^ corr)%nat -> List.Forall (key_ok n) (map fst (DD ne T n corr U m eta c)).
Proof.
  intros Hcorr. induction c as [|c IH]; intros Hc; [constructor|]. rewrite DD_S. cbv zeta. destruct (kept _); [|apply IH; lia]. rewrite keys_add. apply forall_kadd; [apply IH; lia|]. apply key_tup; lia.
Qed.

(** ** U_sparse *)
Definition Uc (rows n : nat) (Um : nat -> nat * list R) (corr : nat) : list (list (dict (N:=RNum))) :=
  tab rows (fun m => tab (fst (Um corr)) (fun eta => DD (fst (Um corr)) (n ^ corr) n corr (snd (Um corr)) m eta (n ^ corr))).
Lemma U_sparse_ok rows n correlation (Um : nat -> nat * list R) :
  (forall corr, (1 <= corr <= correlation)%nat -> length (snd (Um corr)) = (rows * n ^ corr * fst (Um corr))%nat) ->
  U_sparse (N:=RNum) rows n correlation Um = Some ([] :: tab correlation (fun q => Uc rows n Um (q + 1))).
Proof.
  intros H. unfold U_sparse. apply (for_range_trace (fun k => [] :: tab k (fun q => Uc rows n Um (q + 1)))).
  - reflexivity.
  - repeat f_equal. lia.
  - intros k Hk. specialize (H (1 + k)%nat ltac:(lia)).
    assert (E : U_sparse_corr (N:=RNum) rows n (1 + k) (Um (1 + k)%nat) = Some (Uc rows n Um (k + 1))).
    { replace (k + 1)%nat with (1 + k)%nat by lia. unfold Uc. destruct (Um (1 + k)%nat) as [ne U]. exact (U_sparse_corr_ok rows n (1 + k) ne U H). }
    rewrite E, tab_S. reflexivity.
Qed.

(** ** P_lmk *)
Definition scale_add (w : R) (items P : dict (N:=RNum)) : dict (N:=RNum) := fold_left (fun P kv => dict_add (N:=RNum) P (fst kv) (w * snd kv)) items P.
Definition Prow (ne : nat) (D : nat -> dict (N:=RNum)) (w : nat -> R) (P : dict (N:=RNum)) : dict (N:=RNum) := fold_left (fun P eta => scale_add (w eta) (D eta) P) (seq 0 ne) P.
Definition PP (D : nat -> nat -> dict (N:=RNum)) (ne : nat -> nat) (w : nat -> nat -> R) (q : nat) : dict (N:=RNum) :=
  fold_left (fun P q' => Prow (ne q') (D q') (w q') P) (seq 0 q) [].
Lemma ev_scale x w items : forall P, ev x (scale_add w items P) = ev x P + w * ev x items.
Proof.
  induction items as [|[k v] items IH]; intros P.
  - change (ev x P = ev x P + w * 0). lra.
  - change (ev x (scale_add w items (dict_add (N:=RNum) P k (w * v))) = ev x P + w * ev x ((k, v) :: items)). rewrite IH, ev_add. unfold ev at 4. rewrite rl_cons. cbn [fst snd]. fold (ev x items). lra.
Qed.
Lemma keys_scale w items : forall P, map fst (scale_add w items P) = fold_left kadd (map fst items) (map fst P).
Proof.
  induction items as [|[k v] items IH]; intros P; [reflexivity|]. change (map fst (scale_add w items (dict_add (N:=RNum) P k (w * v))) = fold_left kadd (map fst items) (kadd (map fst P) k)). rewrite IH, keys_add. reflexivity.
Qed.
Lemma ev_Prow x ne D w P : ev x (Prow ne D w P) = ev x P + rl (seq 0 ne) (fun eta => w eta * ev x (D eta)).
Proof.
  unfold Prow. induction ne as [|ne IH]; [change (ev x P = ev x P + 0); lra|]. rewrite seq_S, fold_left_app, rl_app, rl_cons, rl_nil. cbn [fold_left Nat.add]. rewrite ev_scale, IH. lra.
Qed.
Lemma keys_Prow ne D w P : map fst (Prow ne D w P) = fold_left kadd (flat_map (fun eta => map fst (D eta)) (seq 0 ne)) (map fst P).
Proof.
  unfold Prow. induction ne as [|ne IH]; [reflexivity|]. rewrite seq_S, fold_left_app, flat_map_app, fold_left_app. cbn [fold_left flat_map Nat.add]. rewrite keys_scale, IH, app_nil_r. reflexivity.
Qed.
Lemma ev_PP x D ne w q : ev x (PP D ne w q) = rl (seq 0 q) (fun q' => rl (seq 0 (ne q')) (fun eta => w q' eta * ev x (D q' eta))).
Proof.
  unfold PP. induction q as [|q IH]; [reflexivity|]. rewrite seq_S, fold_left_app, rl_app, rl_cons, rl_nil. cbn [fold_left Nat.add]. rewrite ev_Prow, IH. lra.
Qed.
Definition KP (D : nat -> nat -> dict (N:=RNum)) (ne : nat -> nat) (q : nat) : list (list nat) :=
  fold_left kadd (flat_map (fun q' => flat_map (fun eta => map fst (D q' eta)) (seq 0 (ne q'))) (seq 0 q)) [].
Lemma keys_PP D ne w q : map fst (PP D ne w q) = KP D ne q.
Proof.
  unfold PP, KP. induction q as [|q IH]; [reflexivity|]. rewrite seq_S, fold_left_app, flat_map_app, fold_left_app. cbn [fold_left flat_map Nat.add]. rewrite keys_Prow, IH, app_nil_r. reflexivity.
Qed.
Lemma for_in_fold {A S} (l : list A) (body : A -> S -> option S) (g : S -> A -> S) : (forall x s, In x l -> body x s = Some (g s x)) -> forall s, for_in l body s = Some (fold_left g l s).
Proof.
  intros H. induction l as [|x l IH]; intros s; [reflexivity|]. cbn [for_in fold_left]. rewrite H by (left; reflexivity). cbn [bind]. apply IH. intros y s' Hy. apply H. right. exact Hy.
Qed.
Lemma P_lmk_ok rows n correlation num_elements num_channels (Um : nat -> nat * list R) W (Wl : list (list (list (list R)))) row z k :
  shapes_ok rows n correlation num_elements num_channels Um W -> (forall corr, (1 <= corr <= correlation)%nat -> rd Wl corr = Some (W corr)) -> (row < rows)%nat -> (z < num_elements)%nat -> (k < num_channels)%nat ->
  P_lmk (N:=RNum) correlation ([] :: tab correlation (fun q => Uc rows n Um (q + 1))) Wl row z k =
  Some (PP (fun q eta => DD (fst (Um (q + 1)%nat)) (n ^ (q + 1)) n (q + 1) (snd (Um (q + 1)%nat)) row eta (n ^ (q + 1))) (fun q => fst (Um (q + 1)%nat)) (fun q => weight W z k (q + 1)) correlation).
Proof.
  intros HS HW Hrow Hz Hk. unfold P_lmk.
  set (D := fun q eta => DD (fst (Um (q + 1)%nat)) (n ^ (q + 1)) n (q + 1) (snd (Um (q + 1)%nat)) row eta (n ^ (q + 1))). set (ne := fun q => fst (Um (q + 1)%nat)). set (w := fun q => weight W z k (q + 1)).
  apply (for_range_trace (PP D ne w)); [reflexivity|f_equal; lia|]. intros q Hq.
  replace (rd ([] :: tab correlation (fun q => Uc rows n Um (q + 1))) (1 + q)) with (rd (tab correlation (fun q => Uc rows n Um (q + 1))) q) by reflexivity.
  rewrite rd_tab by lia. cbn [bind]. unfold Uc at 1. rewrite rd_tab by exact Hrow. cbn [bind]. rewrite length_tab. replace (1 + q)%nat with (q + 1)%nat by lia.
  unfold PP at 2. rewrite seq_S, fold_left_app. cbn [fold_left Nat.add]. fold (PP D ne w q). unfold Prow.
  apply (for_trace (fun e => fold_left (fun P eta => scale_add (w q eta) (D q eta) P) (seq 0 e) (PP D ne w q))); [reflexivity|reflexivity|].
  intros eta He. rewrite rd_tab by exact He. cbn [bind]. rewrite seq_S, fold_left_app. cbn [fold_left Nat.add].
  change (DD (fst (Um (q + 1)%nat)) (n ^ (q + 1)) n (q + 1) (snd (Um (q + 1)%nat)) row eta (n ^ (q + 1))) with (D q eta). unfold scale_add at 2.
  apply (for_in_fold (D q eta) _ (fun P kv => dict_add (N:=RNum) P (fst kv) (w q eta * snd kv))). intros [key v] P _.
  assert (Hc : (1 <= q + 1 <= correlation)%nat) by lia. change (carrier RNum) with R in *.
  rewrite (HW _ Hc). cbn [bind]. rewrite (rd_some _ z []) by (rewrite (so_el _ _ _ _ _ _ _ HS) by exact Hc; exact Hz). cbn [bind].
  rewrite (rd_some _ eta []) by (rewrite (so_eta _ _ _ _ _ _ _ HS) by assumption; exact He). cbn [bind].
  rewrite (rd_some _ k 0) by (rewrite (so_k _ _ _ _ _ _ _ HS) by assumption; exact Hk). reflexivity.
Qed.

(** ** the polynomials of one contraction *)
Definition Pk (n correlation : nat) (Um : nat -> nat * list R) W (row z k : nat) : dict (N:=RNum) :=
  PP (fun q eta => DD (fst (Um (q + 1)%nat)) (n ^ (q + 1)) n (q + 1) (snd (Um (q + 1)%nat)) row eta (n ^ (q + 1))) (fun q => fst (Um (q + 1)%nat)) (fun q => weight W z k (q + 1)) correlation.
Definition KK (n correlation : nat) (Um : nat -> nat * list R) (row : nat) : list (list nat) :=
  KP (fun q eta => DD (fst (Um (q + 1)%nat)) (n ^ (q + 1)) n (q + 1) (snd (Um (q + 1)%nat)) row eta (n ^ (q + 1))) (fun q => fst (Um (q + 1)%nat)) correlation.
Lemma keys_Pk n correlation Um W row z k : map fst (Pk n correlation Um W row z k) = KK n correlation Um row.
Proof. apply keys_PP. Qed.
Lemma nth_cut U j : nth j (snd (cut U)) 0 = cut1 (nth j (snd U) 0).
Proof.
  unfold cut. cbn [snd]. change (fun u => if Rlt_dec (1 / 10 ^ 12) (Rabs u) then u else 0) with cut1. assert (E : cut1 0 = 0) by (unfold cut1; destruct (Rlt_dec _ _); reflexivity).
  rewrite <- E at 1. apply map_nth.
Qed.
Lemma poly_of_Pk n correlation Um W row z k :
  poly_of n (map snd (Pk n correlation Um W row z k)) (KK n correlation Um row) (contraction correlation n row (fun corr => cut (Um corr)) (weight W z k)).
Proof.
  assert (HK : List.Forall (key_ok n) (KK n correlation Um row)).
  { unfold KK, KP. apply forall_fold; [constructor|]. apply Forall_forall. intros key Hkey. apply in_flat_map in Hkey. destruct Hkey as (q & _ & Hkey). apply in_flat_map in Hkey. destruct Hkey as (eta & _ & Hkey).
    revert key Hkey. apply Forall_forall. apply keys_DD; lia. }
  split; [rewrite <- (keys_Pk n correlation Um W row z k), !map_length; reflexivity|]. split; [|split; [|split]].
  - revert HK. apply Forall_impl. intros m [H _]. exact H.
  - apply nodup_fold. constructor.
  - revert HK. apply Forall_impl. intros m [_ H]. exact H.
  - intros x. rewrite <- (keys_Pk n correlation Um W row z k), poly_ev. unfold Pk. rewrite ev_PP. unfold contraction. rewrite sum_rl. apply rl_ext. intros q _. cbv zeta. rewrite sum_rl. apply rl_ext. intros eta _. rewrite sum_rl, ev_DD.
    f_equal. apply rl_ext. intros c _. rewrite nth_cut. reflexivity.
Qed.
Lemma py_index_ok l a : In a l -> exists z, py_index l a = Some z /\ (z < length l)%nat /\ nth z l 0%nat = a.
Proof.
  induction l as [|b l IH]; intros H; [destruct H|]. cbn [py_index]. destruct (Nat.eqb_spec b a) as [->|Hne].
  - exists 0%nat. cbn. repeat split. lia.
  - destruct H as [H|H]; [congruence|]. destruct (IH H) as (z & E & Hz & Hn). exists (S z). rewrite E. cbn. repeat split; [lia|exact Hn].
Qed.
Lemma py_index_nth l z : NoDup l -> (z < length l)%nat -> py_index l (nth z l 0%nat) = Some z.
Proof.
  intros HN Hz. destruct (py_index_ok l (nth z l 0%nat) (nth_In l 0%nat Hz)) as (z' & E & Hz' & Hn). rewrite E. f_equal. apply (proj1 (NoDup_nth l 0%nat) HN); assumption.
Qed.
Lemma sqrt_lm l row : (row < 2 * l + 1)%nat -> Nat.sqrt (l * l + row) = l.
Proof. intros H. apply Nat.sqrt_unique. lia. Qed.

Section M0.
Variables (K l_max L_max correlation : nat) (mn an : list nat) (Um : nat -> nat -> nat * list R) (W : nat -> nat -> list (list (list R))) (Wt : nat -> list (list (list (list R))) * list (list (list R))) (Wl : nat -> list (list (list (list R)))).
Let n := ((l_max + 1) * (l_max + 1))%nat.
Hypothesis Hinc : incl an mn.
Hypothesis HS : forall l, (l <= L_max)%nat -> shapes_ok (2 * l + 1) n correlation (length mn) K (Um l) (W l).
Hypothesis HWt : forall l, (l <= L_max)%nat -> W_list (N:=RNum) (Wt l) = Some (Wl l).
Hypothesis HWl : forall l corr, (l <= L_max)%nat -> (1 <= corr <= correlation)%nat -> rd (Wl l) corr = Some (W l corr).

Definition tP (t z k : nat) : dict (N:=RNum) := Pk n correlation (Um (Nat.sqrt t)) (W (Nat.sqrt t)) (t - Nat.sqrt t * Nat.sqrt t) z k.
Definition tK (t : nat) : list (list nat) := KK n correlation (Um (Nat.sqrt t)) (t - Nat.sqrt t * Nat.sqrt t).
Definition entry (z t : nat) : list (list R) := tab K (fun k => map snd (tP t z k)).
Definition zz (i : nat) : nat := match py_index mn (nth i an 0%nat) with Some z => z | None => 0%nat end.
Definition MM (i t : nat) : list (list (list nat)) :=
  tab ((L_max + 1) * (L_max + 1)) (fun t' => if (K =? 0)%nat then [] else if ((0 <? i) || (t' <? t))%nat then tK t' else []).
Definition CC (i : nat) : list (list (list (list R))) := tab i (fun i' => tab ((L_max + 1) * (L_max + 1)) (entry (zz i'))).

Lemma export_M0_ok : export_M0 (N:=RNum) K l_max L_max correlation mn an Um Wt = Some (CC (length an), MM (length an) 0).
Proof.
  unfold export_M0. fold n. rewrite for_in_for. apply (for_trace (fun i => (CC i, MM i 0))); [|reflexivity|].
  - f_equal. unfold MM. apply (list_eq_nth _ _ []); [rewrite repeat_length, length_tab; reflexivity|]. intros t Ht. rewrite repeat_length in Ht. rewrite nth_tab, nth_repeat by exact Ht. cbn. destruct (K =? 0)%nat; reflexivity.
  - intros i Hi. rewrite (rd_some an i 0%nat) by exact Hi. cbn [bind].
    destruct (py_index_ok mn (nth i an 0%nat) (Hinc _ (nth_In an 0%nat Hi))) as (z & Ez & Hz & _). rewrite Ez. cbn [bind]. assert (Ezz : zz i = z) by (unfold zz; rewrite Ez; reflexivity).
    rewrite (for_trace (fun l => (tab (l * l) (entry z), MM i (l * l))) (L_max + 1) _ ([], MM i 0) (tab ((L_max + 1) * (L_max + 1)) (entry z), MM i ((L_max + 1) * (L_max + 1)))); [|reflexivity|reflexivity|].
    + cbn [bind]. f_equal. f_equal.
      * unfold CC. rewrite tab_S, Ezz. reflexivity.
      * unfold MM. apply tab_ext. intros t Ht. destruct (K =? 0)%nat; [reflexivity|]. apply Nat.ltb_lt in Ht. rewrite Ht, orb_true_r. reflexivity.
    + intros l Hl. specialize (HS l ltac:(lia)). rewrite (U_sparse_ok (2 * l + 1) n correlation (Um l) (so_U _ _ _ _ _ _ _ HS)). cbn [bind]. rewrite HWt by lia. cbn [bind].
      apply (for_trace (fun row => (tab (l * l + row) (entry z), MM i (l * l + row)))); [f_equal; f_equal; lia|f_equal; f_equal; lia|]. intros row Hrow.
      assert (Ht : (l * l + row < (L_max + 1) * (L_max + 1))%nat) by nia.
      assert (EP : forall k, tP (l * l + row) z k = Pk n correlation (Um l) (W l) row z k) by (intros k; unfold tP; rewrite sqrt_lm by exact Hrow; replace (l * l + row - l * l)%nat with row by lia; reflexivity).
      assert (EK : tK (l * l + row) = KK n correlation (Um l) row) by (unfold tK; rewrite sqrt_lm by exact Hrow; replace (l * l + row - l * l)%nat with row by lia; reflexivity).
      rewrite (for_trace (fun k => (tab k (fun k' => map snd (tP (l * l + row) z k')), if (k =? 0)%nat then MM i (l * l + row) else MM i (l * l + row + 1))) K _ ([], MM i (l * l + row)) (entry z (l * l + row), MM i (l * l + row + 1))); [|reflexivity| |].
      * cbn [bind]. f_equal. f_equal; [|f_equal; lia]. replace (l * l + S row)%nat with (S (l * l + row)) by lia. rewrite tab_S. reflexivity.
      * apply f_equal2; [reflexivity|]. destruct (Nat.eqb_spec K 0) as [E|_]; [|reflexivity]. unfold MM. apply tab_ext. intros t' _. apply Nat.eqb_eq in E. rewrite E. reflexivity.
      * intros k Hk. rewrite (P_lmk_ok (2 * l + 1) n correlation (length mn) K (Um l) (W l) (Wl l) row z k HS (fun corr => HWl l corr ltac:(lia)) Hrow Hz Hk). fold (Pk n correlation (Um l) (W l) row z k). cbn [bind]. rewrite keys_Pk.
        assert (E : wr (if (k =? 0)%nat then MM i (l * l + row) else MM i (l * l + row + 1)) (l * l + row) (KK n correlation (Um l) row) = Some (MM i (l * l + row + 1))).
        { assert (HK : (K =? 0)%nat = false) by (apply Nat.eqb_neq; lia). destruct (k =? 0)%nat; unfold MM; rewrite wr_tab by exact Ht; f_equal; apply tab_ext; intros t' _; rewrite HK, <- EK;
            (destruct (Nat.eqb_spec t' (l * l + row)) as [->|Hne]; [replace (l * l + row <? l * l + row + 1)%nat with true by (symmetry; apply Nat.ltb_lt; lia); rewrite orb_true_r; reflexivity|]); try reflexivity.
          replace (t' <? l * l + row + 1)%nat with (t' <? l * l + row)%nat; [reflexivity|]. destruct (Nat.ltb_spec t' (l * l + row)); destruct (Nat.ltb_spec t' (l * l + row + 1)); try reflexivity; lia. }
        rewrite E. cbn [bind]. f_equal. f_equal. rewrite tab_S, EP. reflexivity.
Qed.
End M0.

Section M1.
Variables (K l_max : nat) (mn an : list nat) (Um : nat -> nat * list R) (W : nat -> list (list (list R))) (Wt : list (list (list (list R))) * list (list (list R))) (Wl : list (list (list (list R)))).
Let n := ((l_max + 1) * (l_max + 1))%nat.
Hypothesis Hinc : incl an mn.
Hypothesis HS : shapes_ok 1 n 3 (length mn) K Um W.
Hypothesis HWt : W_list (N:=RNum) Wt = Some Wl.
Hypothesis HWl : forall corr, (1 <= corr <= 3)%nat -> rd Wl corr = Some (W corr).
Definition M1M (i k : nat) : list (list nat) := if ((0 <? i) && (0 <? K) || (0 <? k))%nat then KK n 3 Um 0 else [].
Definition C1 (i : nat) : list (list (list R)) := tab i (fun i' => tab K (fun k => map snd (Pk n 3 Um W 0 (zz mn an i') k))).
Lemma export_M1_ok : export_M1 (N:=RNum) K l_max mn an Um Wt = Some (C1 (length an), M1M (length an) 0).
Proof.
  unfold export_M1. fold n. rewrite (U_sparse_ok 1 n 3 Um (so_U _ _ _ _ _ _ _ HS)). cbn [bind]. rewrite HWt. cbn [bind]. rewrite for_in_for. apply (for_trace (fun i => (C1 i, M1M i 0))); [reflexivity|reflexivity|].
  intros i Hi. rewrite (rd_some an i 0%nat) by exact Hi. cbn [bind].
  destruct (py_index_ok mn (nth i an 0%nat) (Hinc _ (nth_In an 0%nat Hi))) as (z & Ez & Hz & _). rewrite Ez. cbn [bind]. assert (Ezz : zz mn an i = z) by (unfold zz; rewrite Ez; reflexivity).
  rewrite (for_trace (fun k => (tab k (fun k' => map snd (Pk n 3 Um W 0 z k')), M1M i k)) K _ ([], M1M i 0) (tab K (fun k' => map snd (Pk n 3 Um W 0 z k')), M1M i K)); [|reflexivity|reflexivity|].
  - cbn [bind]. f_equal. f_equal.
    + unfold C1. rewrite tab_S, Ezz. reflexivity.
    + unfold M1M. destruct (0 <? K)%nat; rewrite ?andb_true_r, ?andb_false_r, ?orb_true_r, ?orb_false_r; reflexivity.
  - intros k Hk. rewrite (P_lmk_ok 1 n 3 (length mn) K Um W Wl 0 z k HS HWl ltac:(lia) Hz Hk). fold (Pk n 3 Um W 0 z k). cbn [bind]. rewrite keys_Pk. f_equal. f_equal.
    + rewrite tab_S. reflexivity.
    + unfold M1M. cbn. rewrite orb_true_r. reflexivity.
Qed.
End M1.
