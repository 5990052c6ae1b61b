(** Stages of [MACE]: compute_A0, compute_A0_scaled, compute_A1_scaled, compute_H1. *)
From Coq Require Import List Arith ZArith Lia Bool.
From Verif Require Import Base BaseLemmas Segs BlasModel BlasLemmas SplineModel SplineR MpModel MlpModel
  ZblModel MaceModel Sys SysLoops MaceGrid MacePure MaceStages1 MaceStages2.
Import ListNotations.

Section S3.
Context {N : Num}.
Variable m : mace_model N.
Variable s : sys N.
Notation n := (length s).
Notation T := (length (m_atomic_numbers m)).
Notation K := (m_num_channels m).
Notation lms := (num_lm m).
Notation LMs := (num_LM m).
Notation nle := (length (m_Phi1_l m)).
Hypothesis W : mace_wf m.
Variable nH : nat.
Hypothesis SW : sys_wf m s nH.

Lemma repeat_grid a b (x : N) : repeat x (a * b) = grid a b (fun _ _ => x).
Proof.
  apply list_eq_nth with (d := x); [rewrite repeat_length, length_grid; auto|].
  intros p Hp. rewrite repeat_length in Hp. 
  rewrite nth_repeat. destruct (Nat.eq_dec b 0) as [->|Hb]; [lia|].
  pose proof (Nat.div_mod_eq p b). pose proof (Nat.mod_upper_bound p b Hb).
  rewrite (nth_grid a b _ (p / b) (p mod b)); auto; [lia|]. apply Nat.div_lt_upper_bound; lia.
Qed.


Lemma compute_A0_ok Yb Rb A0 Yf Rf :
  eread s Yb lms Yf -> eread s Rb ((m_l_max m + 1) * K) Rf ->
  compute_A0 m n (f_node_types s) (f_num_neigh s) (f_neigh_types s) Yb Rb A0 =
  Some (cube n lms K (mulW0 m s (phi0 m s Rf Yf))).
Proof.
  intros HY HR. unfold compute_A0.
  set (old := resize nzero A0 (n * lms * K)).
  assert (Lo : length old = length (seq 0 n) * (lms * K)) by (unfold old; rewrite length_resize, seq_length; lia).
  set (out := fun i => grid lms K (mulW0 m s (phi0 m s Rf Yf) i)).
  assert (Co : forall i, In i (seq 0 n) -> length (out i) = lms * K) by (intros; apply length_grid).
  match goal with |- bind ?L _ = _ => assert (E : L = Some (flat_map out (seq 0 n), length (epairs s))) end.
  2:{ rewrite E. reflexivity. }
  apply (for_trace (fun i => (part out (seq 0 n) old i, eo s i))).
  - reflexivity.
  - rewrite eo_n, <- part_all; auto; [|rewrite seq_length; auto].
    rewrite Lo, length_flat_map_const with (c := lms * K); auto.
  - intros i Hi. rewrite rd_nn, rd_ty by auto. cbn [bind].
    set (ph := fun j lm k => nfold (firstn j (es s i)) (fun e => nmul (nmul (Rf i e (Nat.sqrt lm * K + k)) (Yf i e lm))
        (at_ (m_H0_weights m) (e_type e * K + k))) nzero).
    match goal with |- bind ?L _ = _ =>
      assert (E1 : L = Some (grid lms K (ph (length (es s i))), eo s i + length (es s i))) end.
    { apply (eloop s i _ (fun j => (grid lms K (ph j), eo s i + j))); auto.
      - rewrite repeat_grid, Nat.add_0_r. reflexivity.
      - intros j e Hj Hin Hq. set (q := eo s i + j) in *.
        rewrite (rd_nty _ _ _ _ Hq). cbn [bind].
        match goal with |- bind ?L _ = _ => assert (E2 : L = Some (grid lms K (ph (S j)))) end.
        2:{ rewrite E2. cbn [bind]. do 2 f_equal. unfold q; lia. }
        apply (sseg_all (for_ (m_l_max m + 1) (fun l => for_ (2 * l + 1) _))).
        apply (sseg_lm 0 (m_l_max m + 1) K _ (ph j) (ph (S j))). intros l mm Hl Hmm.
        assert (Hlm : l * l + mm < lms) by (unfold num_lm; nia).
        cbn [plus]. cbv beta. rewrite (HY q i e (l * l + mm) _ Hq Hlm eq_refl). cbn [bind].
        replace (tab K (ph (S j) (l * l + mm))) with (tab K (fun k => nadd (ph j (l * l + mm) k)
          (nmul (nmul (Rf i e (l * K + k)) (Yf i e (l * l + mm))) (at_ (m_H0_weights m) (e_type e * K + k))))).
        + apply (sseg_tab _ K (fun k x => nadd x _)). intros k a x Hk Hr.
          rewrite (HR q i e (l * K + k)); auto; [|nia|nia]. cbn [bind].
          rewrite (rd_some _ _ nzero); [cbn [bind]|].
          2:{ pose proof (mw_H0 _ W). pose proof (sw_ety _ _ _ SW i e Hi Hin). nia. }
          unfold addto. rewrite Hr. reflexivity.
        + apply tab_ext. intros k Hk. unfold ph. rewrite (nfold_firstn_S _ _ _ _ _ Hj).
          rewrite sqrt_lm by auto. reflexivity. }
    rewrite E1. cbn [bind].
    destruct (part_split out (seq 0 n) old i i (lms * K) Co (nth_error_seq0 _ _ Hi) Lo)
      as (pre & seg & post & A1 & A2 & A3 & A4).
    rewrite A1, A2.
    match goal with |- bind ?L _ = _ => assert (E2 : L = Some (pre ++ out i ++ post)) end.
    2:{ rewrite E2. cbn [bind]. rewrite eo_S' by auto. reflexivity. }
    pose proof (sw_ty _ _ _ SW i Hi) as Hti.
    assert (SWR : swr (i * (lms * K)) (lms * K) (for_ (m_l_max m + 1) (fun l A0 =>
       w <- rd (m_A0_weights m) (ty s i) ;; w <- rd w l ;;
       dgemm_nn (2*l+1) K K (grid lms K (ph (length (es s i)))) (l*l*K) K w 0 K A0 ((i*lms + l*l)*K) K)) (out i)).
    { apply (swr_l _ _ (m_l_max m + 1) K); [|reflexivity]. intros l Hl.
      rewrite (rd_some (m_A0_weights m) (ty s i) []) by (pose proof (mw_A0a _ W); lia). 
      pose proof (mw_A0b _ W _ Hti). pose proof (mw_A0c _ W _ l Hti ltac:(lia)).
      pose proof (mw_K _ W).
      cbn [bind]. rewrite (rd_some _ l []) by lia. cbn [bind].
      eapply swr_eq; [| |apply (dgemm_nn_swr (2 * l + 1) K K _ _ K _ 0 K ((i * lms + l * l) * K)
         (fun mm p => phi0 m s Rf Yf i (l * l + mm) p) (fun p k => W0 m (ty s i) l (p * K + k)))]; auto.
      - lia.
      - apply flat_map_ext_in. intros mm Hmm. apply in_seq in Hmm. apply tab_ext. intros k Hk.
        unfold mulW0. rewrite sqrt_lm by lia. reflexivity.
      - intros mm p Hmm Hp. rewrite (rd_grid _ _ _ (l * l + mm) p); [|nia|unfold num_lm; nia|auto].
        unfold phi0, ph. rewrite firstn_all. reflexivity.
      - intros p k Hp Hk. apply rd_some. nia. }
    destruct SWR as [_ SWR]. apply SWR; auto.
Qed.
End S3.
