(** Stages of [MACE]: compute_Y. *)
From Coq Require Import List Arith ZArith Lia Bool.
From Verif Require Import Base BaseLemmas Segs BlasModel BlasLemmas SplineModel MpModel MlpModel
  ZblModel MaceModel Sys SysLoops MaceGrid MacePure MaceStages1.
Import ListNotations.

Lemma wr_ptab {A} (X Z : list A) n k (f g : nat -> A) b :
  b = length X + k -> k < n ->
  wr (X ++ tab n (fun j => if j <? k then f j else g j) ++ Z) b (f k) =
  Some (X ++ tab n (fun j => if j <? S k then f j else g j) ++ Z).
Proof.
  intros -> Hk. rewrite wr_seg_tab with (j := k) by auto. do 3 f_equal. apply tab_ext. intros j Hj.
  destruct (Nat.eqb_spec j k) as [E|E]; [subst j; destruct (Nat.ltb_spec k (S k)); auto; lia|].
  destruct (Nat.ltb_spec j k); destruct (Nat.ltb_spec j (S k)); try lia; auto.
Qed.

Section Reads.
Context {N : Num}.
Variable s : sys N.
(** reading interfaces: a buffer holds [c] values for every edge / [a*K] values for every node *)
Definition eread (buf : list N) (c : nat) (f : nat -> edge N -> nat -> N) : Prop :=
  forall q i e p k, nth_error (epairs s) q = Some (i, e) -> p < c -> k = q * c + p -> rd buf k = Some (f i e p).
Definition nread (n : nat) (buf : list N) (a K : nat) (f : nat -> nat -> nat -> N) : Prop :=
  forall i b j k, i < n -> b < a -> j < K -> k = i * (a * K) + (b * K + j) -> rd buf k = Some (f i b j).

Lemma eread_eb c f : eread (eb s c f) c f.
Proof. intros q i e p k H Hp Hk. eapply rd_eb; eauto. Qed.
Lemma nread_cube n a K f : nread n (cube n a K f) a K f.
Proof. intros i b j k Hi Hb Hj Hk. eapply rd_cube; eauto. Qed.
Lemma eread_ext c f g buf : (forall i e p, i < length s -> In e (es s i) -> p < c -> f i e p = g i e p) ->
  eread buf c f -> eread buf c g.
Proof.
  intros H R q i e p k Hq Hp Hk. rewrite (R q i e p k Hq Hp Hk). f_equal.
  apply nth_error_In in Hq. apply in_epairs in Hq. apply H; tauto.
Qed.
End Reads.

Section Y.
Context {N : Num}.
Variable sph : nat -> N -> N -> N -> list N * list N.
Variable m : mace_model N.
Variable s : sys N.
Hypothesis Hsph : forall a b c, length (fst (sph (m_l_max m) a b c)) = num_lm m /\
                                length (snd (sph (m_l_max m) a b c)) = 3 * num_lm m.
Notation lms := (num_lm m).

Lemma compute_Y_ok Y Yg_ xs : exists Y' Yg' xs',
  compute_Y sph m (f_xyz s) Y Yg_ xs = Some (Y', Yg', xs') /\
  eread s Y' lms (Yv sph m) /\ eread s Yg' (3 * lms) (Yg sph m) /\
  (epairs s <> [] -> Y' = eb s lms (Yv sph m) /\ Yg' = eb s (3 * lms) (Yg sph m)).
Proof.
  unfold compute_Y. rewrite length_xyz.
  destruct (Nat.eqb_spec (length (epairs s) * 3) 0) as [H0|H0].
  { assert (E : epairs s = []) by (destruct (epairs s); [auto|simpl in H0; lia]).
    exists Y, Yg_, xs. repeat split; try congruence; intros q i e p k Hq; rewrite E in Hq; destruct q; discriminate. }
  rewrite Nat.div_mul by lia. set (nE := length (epairs s)) in *.
  set (sh := fun p : nat * edge N => [e_z (snd p); e_x (snd p); e_y (snd p)]).
  match goal with |- context [for_ nE ?b (resize nzero xs (3 * nE))] =>
    assert (E1 : for_ nE b (resize nzero xs (3 * nE)) = Some (flat_map sh (epairs s))) end.
  { apply (for_trace (part sh (epairs s) (resize nzero xs (3 * nE)))).
    - apply part_0.
    - apply part_all; auto. rewrite length_resize, length_flat_map_const with (c := 3) by auto. lia.
    - intros q Hq. destruct (nth_error (epairs s) q) as [[i e]|] eqn:Eq.
      2:{ apply nth_error_None in Eq. unfold nE in *. lia. }
      eapply (part_step_const sh (epairs s) _ q (i, e) 3
        (fun xs0 => z <- rd (f_xyz s) (3*q+2) ;; xs0 <- wr xs0 (3*q) z ;; x <- rd (f_xyz s) (3*q) ;;
           xs0 <- wr xs0 (3*q+1) x ;; y <- rd (f_xyz s) (3*q+1) ;; wr xs0 (3*q+2) y)); auto.
      + rewrite length_resize, length_flat_map_const with (c := 3) by auto. lia.
      + rewrite (rd_comp s q i e Eq 2), (rd_comp s q i e Eq 0), (rd_comp s q i e Eq 1) by lia. cbn [bind].
        split; auto. intros pre seg post Hp Hs. destruct seg as [|a [|b [|c [|d seg]]]]; try discriminate.
        replace (3 * q) with (length pre + 0) by lia.
        replace (length pre + 0 + 1) with (length pre + 1) by lia.
        replace (length pre + 0 + 2) with (length pre + 2) by lia.
        rewrite wr_mid by (simpl; lia). cbn [bind upd].
        rewrite wr_mid by (simpl; lia). cbn [bind upd].
        rewrite wr_mid by (simpl; lia). reflexivity. }
  rewrite E1. cbn [bind].
  set (v := fun p : nat * edge N => fst (sph (m_l_max m) (e_z (snd p)) (e_x (snd p)) (e_y (snd p)))).
  set (g := fun p : nat * edge N => snd (sph (m_l_max m) (e_z (snd p)) (e_x (snd p)) (e_y (snd p)))).
  match goal with |- context [for_ nE ?b ([], [])] =>
    assert (E2 : for_ nE b ([], []) = Some (flat_map v (epairs s), flat_map g (epairs s))) end.
  { apply (for_trace (fun q => (flat_map v (firstn q (epairs s)), flat_map g (firstn q (epairs s))))).
    - reflexivity.
    - unfold nE. rewrite firstn_all. reflexivity.
    - intros q Hq. destruct (nth_error (epairs s) q) as [[i e]|] eqn:Eq.
      2:{ apply nth_error_None in Eq. unfold nE in *. lia. }
      assert (Hr : forall a, a < 3 -> rd (flat_map sh (epairs s)) (3 * q + a) = nth_error (sh (i, e)) a).
      { intros a Ha. unfold rd. rewrite (Nat.mul_comm 3). apply nth_error_flat_map_const; auto. }
      rewrite <- (Nat.add_0_r (3 * q)) at 1. rewrite !Hr by lia. cbn [nth_error sh bind snd].
      rewrite (firstn_S_nth _ _ _ Eq), !flat_map_app'. cbn [flat_map]. rewrite !app_nil_r.
      assert (Ev : v (i, e) = fst (sph (m_l_max m) (e_z e) (e_x e) (e_y e))) by reflexivity.
      assert (Eg : g (i, e) = snd (sph (m_l_max m) (e_z e) (e_x e) (e_y e))) by reflexivity.
      rewrite Ev, Eg. destruct (sph (m_l_max m) (e_z e) (e_x e) (e_y e)). reflexivity. }
  rewrite E2. cbn [bind]. clear E1 E2.
  assert (Ev : flat_map v (epairs s) = eb s lms (fun i e lm => at_ (v (i, e)) lm)).
  { apply flat_map_ext_in. intros [i e] _. cbn [fst snd]. unfold at_. 
    replace lms with (length (v (i, e))) by apply Hsph. apply tab_nth. }
  assert (Eg : flat_map g (epairs s) = eb s (3 * lms) (fun i e p => at_ (g (i, e)) p)).
  { apply flat_map_ext_in. intros [i e] _. cbn [fst snd]. unfold at_.
    replace (3 * lms) with (length (g (i, e))) by apply Hsph. apply tab_nth. }
  assert (Emul : forall l : list N, for_ (length l) (fun i Y => y <- rd Y i ;; wr Y i (nmul y (nmul (nofZ 2) (nsqrt npi)))) l
       = Some (map (fun y => nmul y ynorm) l)).
  { intros l. assert (E : l = tab (length l) (fun j => nth j l nzero)) by apply tab_nth.
    replace (map (fun y => nmul y ynorm) l) with (tab (length l) (fun j => nmul (nth j l nzero) ynorm)).
    2:{ rewrite <- (map_seq_nth _ l nzero). reflexivity. }
    rewrite E at 2. apply (sseg_all (for_ (length l) _)).
    apply (sseg_tab 0 (length l) (fun _ y => nmul y ynorm)).
    intros j a x Hj Hr. cbn [plus] in *. rewrite Hr. reflexivity. }
  rewrite !Emul. cbn [bind]. rewrite Ev, Eg.
  assert (Emap : forall c f, map (fun y => nmul y ynorm) (eb s c f) = eb s c (fun i e p => nmul (f i e p) ynorm)).
  { intros c f. unfold eb. rewrite map_flat_map. apply flat_map_ext_in. intros p _. unfold tab. apply map_map. }
  rewrite !Emap. 
  change (eb s lms (fun i e p => nmul (at_ (v (i, e)) p) ynorm)) with (eb s lms (Yv sph m)).
  set (gs := fun (i : nat) e p => nmul (at_ (g (i, e)) p) ynorm).
  set (gf := fun p : nat * edge N => tab (3 * lms) (gs (fst p) (snd p))).
  set (gn := fun p : nat * edge N => tab (3 * lms) (Yg sph m (fst p) (snd p))).
  match goal with |- context [for_ nE ?b (eb s (3 * lms) gs)] =>
    assert (E4 : for_ nE b (eb s (3 * lms) gs) = Some (eb s (3 * lms) (Yg sph m))) end.
  { apply (for_trace (part2 gf gn (epairs s))).
    - reflexivity.
    - unfold eb. apply part2_all. reflexivity.
    - intros q Hq. destruct (nth_error (epairs s) q) as [[i e]|] eqn:Eq.
      2:{ apply nth_error_None in Eq. unfold nE in *. lia. }
      apply part2_step_const with (x := (i, e)) (c := 3 * lms); auto; [intros; apply length_tab|].
      split; [unfold gf, gn; rewrite !length_tab; auto|]. intros pre post Hp.
      (* the block as three rows *)
      assert (Erow : forall f : nat -> N, tab (3 * lms) f =
          tab lms f ++ tab lms (fun j => f (lms + j)) ++ tab lms (fun j => f (2 * lms + j))).
      { intros f. unfold tab. replace (3 * lms) with (lms + (lms + lms)) by lia.
        rewrite !seq_app, !map_app. cbn [plus]. f_equal. f_equal.
        - rewrite <- (seq_shift_n lms 0) || idtac.
          rewrite <- (map_map (fun j => lms + j) f). f_equal. clear. 
          generalize lms at 1 3. intros k. revert k. induction lms as [|l IH]; intros k; simpl; auto.
          rewrite Nat.add_0_r. f_equal. rewrite IH. rewrite <- seq_shift, map_map. apply map_ext. intros; lia.
        - rewrite <- (map_map (fun j => 2 * lms + j) f). f_equal. clear.
          replace (lms + lms) with (2 * lms) by lia.
          generalize (2 * lms) . intros k. revert k. induction lms as [|l IH]; intros k; simpl; auto.
          rewrite Nat.add_0_r. f_equal. rewrite IH. rewrite <- seq_shift, map_map. apply map_ext. intros; lia. }
      unfold gf, gn. rewrite !Erow. cbn [fst snd].
      set (o0 := fun j => gs i e j). set (o1 := fun j => gs i e (lms + j)). set (o2 := fun j => gs i e (2 * lms + j)).
      set (n0 := fun j => Yg sph m i e j). set (n1 := fun j => Yg sph m i e (lms + j)).
      set (n2 := fun j => Yg sph m i e (2 * lms + j)).
      set (pt := fun (k : nat) (f g : nat -> N) => tab lms (fun j => if j <? k then f j else g j)).
      assert (Lpt : forall k f g, length (pt k f g) = lms) by (intros; apply length_tab).
      assert (Hn : forall k, k < lms -> n0 k = o1 k /\ n1 k = o2 k /\ n2 k = o0 k).
      { intros k Hk. unfold n0, n1, n2, o0, o1, o2, gs, Yg, g. cbn [snd].
        repeat split; f_equal; f_equal.
        - rewrite Nat.mod_small; lia.
        - rewrite Nat.mod_small; lia.
        - replace (2 * lms + k + lms) with (k + 1 * (3 * lms)) by lia. rewrite Nat.mod_add, Nat.mod_small; lia. }
      apply (for_trace (fun k => pre ++ (pt k n0 o0 ++ pt k n1 o1 ++ pt k n2 o2) ++ post)).
      + reflexivity.
      + unfold pt. f_equal. f_equal. f_equal; [|f_equal]; apply tab_ext; intros j Hj;
          destruct (Nat.ltb_spec j lms); auto; lia.
      + intros k Hk. destruct (Hn k Hk) as (N0 & N1 & N2).
        assert (R : forall p, p < 3 * lms -> rd (eb s (3 * lms) gs) (3 * q * lms + p) = Some (gs i e p)).
        { intros p Hp'. apply (rd_eb s q i e Eq); lia. }
        rewrite <- !(Nat.add_assoc (3 * q * lms)). rewrite !R by lia. cbn [bind].
        replace (gs i e (1 * lms + k)) with (n0 k) by (rewrite N0; unfold o1; f_equal; lia).
        replace (gs i e (2 * lms + k)) with (n1 k) by (rewrite N1; unfold o2; f_equal; lia).
        replace (gs i e (0 * lms + k)) with (n2 k) by (rewrite N2; unfold o0; f_equal; lia).
        rewrite <- !app_assoc. unfold pt at 1.
        rewrite wr_ptab by lia. cbn [bind].
        fold (pt (S k) n0 o0). rewrite app_assoc. unfold pt at 2.
        rewrite wr_ptab by (rewrite ?app_length, ?Lpt; lia). cbn [bind].
        fold (pt (S k) n1 o1). rewrite app_assoc. unfold pt at 3.
        rewrite wr_ptab by (rewrite ?app_length, ?Lpt; lia).
        fold (pt (S k) n2 o2). rewrite <- !app_assoc. reflexivity. }
  rewrite E4. cbn [bind]. do 3 eexists. split; [reflexivity|].
  repeat split; auto using eread_eb.
Qed.
End Y.
