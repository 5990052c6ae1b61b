(** The loop of ZBL::compute_ZBL. *)
From Coq Require Import List Arith ZArith Lia.
From Verif Require Import Base BaseLemmas Segs Sys SysLoops ZblModel.
Import ListNotations.

Section ZblLoop.
Context {N : Num}.
Variables (z : ZBL N) (an : list nat) (s : sys N).
Variables (E G : node N -> edge N -> N).
Hypothesis Han : forall nd e, In nd s -> In e (n_edges nd) ->
  n_type nd < length an /\ e_type e < length an /\
  zbl_compute z (nth (n_type nd) an 0) (nth (e_type e) an 0) (e_r e) = Some (E nd e) /\
  zbl_compute_gradient z (nth (n_type nd) an 0) (nth (e_type e) an 0) (e_r e) = Some (G nd e).
Hypothesis Hty : forall nd, In nd s -> n_type nd < length an.

Definition zf (p : node N * edge N) (v : list N) : list N :=
  let '(nd, e) := p in
  [nsub (nth 0 v nzero) (nmul (ndiv (e_x e) (e_r e)) (G nd e));
   nsub (nth 1 v nzero) (nmul (ndiv (e_y e) (e_r e)) (G nd e));
   nsub (nth 2 v nzero) (nmul (ndiv (e_z e) (e_r e)) (G nd e))].

Definition dnd : node N := mkNode 0 [].
Definition dpr : node N * edge N := (dnd, mkEdge 0 0 nzero nzero nzero nzero).

Definition ef (ne : list N) i : list N := [nth i ne nzero].
Definition eg (ne : list N) i : list N :=
  [nfold (n_edges (nth i s dnd)) (E (nth i s dnd)) (nth i ne nzero)].
Definition ff (nf : list N) q : list N := [nth (q*3) nf nzero; nth (q*3+1) nf nzero; nth (q*3+2) nf nzero].
Definition fg (nf : list N) q : list N := zf (nth q (pairs s) dpr) (ff nf q).

Lemma subto_some (a : list N) i x v : rd a i = Some x -> subto a i v = Some (upd a i (nsub x v)).
Proof. intros H. unfold subto. rewrite H. cbn [bind]. apply wr_some. eapply rd_lt; eauto. Qed.

Lemma rd_upd_other {A} (a : list A) i j v : i <> j -> rd (upd a i v) j = rd a j.
Proof.
  intros H. unfold rd. rewrite nth_error_upd. destruct (Nat.eqb_spec i j); [lia|reflexivity].
Qed.

Lemma compute_ZBL_ok ne0 nf0 tne tnf :
  length ne0 = length s -> length nf0 = length (pairs s) * 3 ->
  compute_ZBL z (length s) (f_node_types s) (f_num_neigh s) (f_neigh_types s) an (f_r s) (f_xyz s)
    (ne0 ++ tne) (nf0 ++ tnf) =
  Some (flat_map (eg ne0) (seq 0 (length s)) ++ tne, flat_map (fg nf0) (seq 0 (length (pairs s))) ++ tnf).
Proof.
  intros Hne Hnf. unfold compute_ZBL.
  assert (Ene : ne0 = flat_map (ef ne0) (seq 0 (length s))).
  { unfold ef. rewrite <- Hne. rewrite (flat_map_seq_nth (fun x => [x]) ne0 nzero).
    clear. induction ne0; simpl; congruence. }
  assert (Enf : nf0 = flat_map (ff nf0) (seq 0 (length (pairs s)))).
  { apply list_eq_nth with (d := nzero).
    - rewrite length_flat_map_const with (c := 3) by auto. rewrite seq_length. auto.
    - intros i Hi. assert (i / 3 < length (pairs s)) by (apply Nat.div_lt_upper_bound; lia).
      rewrite (Nat.div_mod_eq i 3) at 2. rewrite (Nat.mul_comm 3).
      pose proof (Nat.mod_upper_bound i 3 ltac:(lia)).
      symmetry. apply rd_nth. unfold rd.
      rewrite nth_error_flat_map_const with (c := 3) (x := i / 3); auto.
      + pose proof (Nat.div_mod_eq i 3). unfold ff.
        destruct (i mod 3) as [|[|[|k]]]; cbn [nth_error]; try lia; f_equal; f_equal; lia.
      + rewrite (nth_error_nth' _ 0) by (rewrite seq_length; lia). rewrite seq_nth; auto. }
  rewrite (nodes_loop s _ (fun i => (part2 (ef ne0) (eg ne0) (seq 0 (length s)) i ++ tne,
                                 part2 (ff nf0) (fg nf0) (seq 0 (length (pairs s))) (eo s i) ++ tnf, eo s i))
          _ (flat_map (eg ne0) (seq 0 (length s)) ++ tne,
             flat_map (fg nf0) (seq 0 (length (pairs s))) ++ tnf, length (pairs s))).
  - reflexivity.
  - rewrite eo_0, <- !part2_0, <- Ene, <- Enf. reflexivity.
  - rewrite eo_all, <- (part2_all _ _ _ (length s)), <- (part2_all _ _ _ (length (pairs s)))
      by (rewrite seq_length; auto). reflexivity.
  - intros i nd Hi.
    assert (Hil : i < length s) by (apply nth_error_Some; congruence).
    assert (HIn : In nd s) by (eapply nth_error_In; eauto).
    rewrite (rd_types _ _ _ Hi). cbn [bind].
    rewrite (rd_some an (n_type nd) 0) by auto. cbn [bind].
    rewrite (rd_num_neigh _ _ _ Hi). cbn [bind].
    assert (Hseq : nth_error (seq 0 (length s)) i = Some i).
    { rewrite (nth_error_nth' _ 0) by (rewrite seq_length; auto). rewrite seq_nth; auto. }
    set (pre := flat_map (eg ne0) (firstn i (seq 0 (length s)))).
    set (post := flat_map (ef ne0) (skipn (S i) (seq 0 (length s))) ++ tne).
    assert (Hpre : length pre = i).
    { unfold pre. rewrite length_flat_map_const with (c := 1) by auto.
      rewrite firstn_length_le by (rewrite seq_length; lia). lia. }
    apply (edges_loop s i nd _ (fun j =>
       (pre ++ [nfold (firstn j (n_edges nd)) (E nd) (nth i ne0 nzero)] ++ post,
        part2 (ff nf0) (fg nf0) (seq 0 (length (pairs s))) (eo s i + j) ++ tnf, eo s i + j))); auto.
    + rewrite Nat.add_0_r. do 2 f_equal.
      unfold part2. rewrite (skipn_nth _ _ _ Hseq). cbn [flat_map]. rewrite <- !app_assoc. reflexivity.
    + rewrite (eo_S _ _ _ Hi). do 2 f_equal.
      unfold part2. rewrite (firstn_S_nth _ _ _ Hseq), flat_map_app'. cbn [flat_map].
      rewrite app_nil_r, <- !app_assoc. fold pre. fold post. unfold eg.
      rewrite (nth_error_nth s i dnd Hi), firstn_all. reflexivity.
    + intros j e Hj Hp. set (q := eo s i + j) in *.
      assert (HIe : In e (n_edges nd)) by (eapply nth_error_In; eauto).
      destruct (Han nd e HIn HIe) as (H1 & H2 & H3 & H4).
      rewrite (rd_neigh_types _ _ _ _ Hp). cbn [bind].
      rewrite (rd_some an (e_type e) 0) by auto. cbn [bind].
      rewrite (rd_r _ _ _ _ Hp). cbn [bind]. rewrite H3. cbn [bind].
      replace (addto (pre ++ [nfold (firstn j (n_edges nd)) (E nd) (nth i ne0 nzero)] ++ post) i (E nd e))
        with (Some (pre ++ [nfold (firstn (S j) (n_edges nd)) (E nd) (nth i ne0 nzero)] ++ post)).
      2:{ unfold addto. rewrite <- (Nat.add_0_r i), <- Hpre.
          rewrite rd_mid by (simpl; lia). cbn [rd nth_error bind].
          rewrite wr_mid by (simpl; lia). rewrite (nfold_firstn_S _ _ _ _ _ Hj). reflexivity. }
      cbn [bind]. rewrite H4. cbn [bind].
      replace (3 * q) with (q * 3) by lia.
      rewrite (rd_x _ _ _ _ Hp), (rd_y _ _ _ _ Hp), (rd_z _ _ _ _ Hp). cbn [bind].
      assert (Hq : q < length (pairs s)) by (apply nth_error_Some; congruence).
      pose proof (part2_step_tail (ff nf0) (fg nf0) (seq 0 (length (pairs s))) q q 3 tnf
         (fun nf => nf <- subto nf (q*3) (nmul (ndiv (e_x e) (e_r e)) (G nd e)) ;;
                    nf <- subto nf (q*3+1) (nmul (ndiv (e_y e) (e_r e)) (G nd e)) ;;
                    subto nf (q*3+2) (nmul (ndiv (e_z e) (e_r e)) (G nd e)))) as P.
      replace (eo s i + S j) with (S q) by (unfold q; lia). replace (q + 1) with (S q) by lia.
      cbv beta in P.
      assert (P' := P ltac:(intros x _; unfold fg, zf; destruct (nth x (pairs s) dpr); reflexivity)
         ltac:(rewrite (nth_error_nth' _ 0) by (rewrite seq_length; auto); rewrite seq_nth; auto)). clear P.
      revert P'. match goal with |- (?Hs -> _) -> _ => assert (HS : Hs) end.
      { unfold fg, ff. rewrite (nth_error_nth _ _ dpr Hp). unfold zf. cbn [nth].
        apply sseg_3. intros a Ra Rb Rc La.
        rewrite (subto_some _ _ _ _ Ra). cbn [bind].
        rewrite (subto_some _ _ (nth (q*3+1) nf0 nzero)) by (rewrite rd_upd_other by lia; auto). cbn [bind].
        rewrite (subto_some _ _ (nth (q*3+2) nf0 nzero)) by (rewrite !rd_upd_other by lia; auto).
        reflexivity. }
      intros P'. specialize (P' HS). clear HS.
      destruct (subto _ (q*3) _) as [n1|]; [|discriminate]. cbn [bind] in *.
      destruct (subto n1 (q*3+1) _) as [n2|]; [|discriminate]. cbn [bind] in *.
      rewrite P'. reflexivity.
Qed.

End ZblLoop.
