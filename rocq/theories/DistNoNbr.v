(** The system that mode no_mpi_message_passing evaluates on one process: the local atoms, then those of their neighbours that are not local. *)
From Coq Require Import List Arith ZArith Lia Bool Permutation.
From Verif Require Import Base BaseLemmas Segs MpModel MlpModel MaceModel Sys SysLoops MaceGrid MacePure MaceStages1 MaceStages2 MaceStages6
  MacePipe PairModel PairMpiModel PairSpec PairThms DistPipe DistSpec DistNbr DistNo.
Import ListNotations.

Lemma wr_tab {A} n (g : nat -> A) i v : i < n -> wr (tab n g) i v = Some (tab n (fun j => if j =? i then v else g j)).
Proof.
  intros H. rewrite wr_some by (rewrite length_tab; exact H). f_equal. apply list_eq_nth with (d := v); [rewrite length_upd, !length_tab; reflexivity|].
  intros j Hj. rewrite length_upd, length_tab in Hj. rewrite nth_upd, !nth_tab by (rewrite ?length_tab; assumption). rewrite Nat.eqb_sym. reflexivity.
Qed.
Lemma filter_tab n (g : nat -> bool) : length (filter (fun b => b) (tab n g)) = length (filter g (seq 0 n)).
Proof. unfold tab. generalize (seq 0 n) as l. induction l as [|a l IH]; [reflexivity|]. cbn [map filter]. destruct (g a); cbn [length]; congruence. Qed.

Section No.
Context {N : Num}.
Variable sph : nat -> N -> N -> N -> list N * list N.
Variable m : mace_model N.
Variable l : lmp N.
Variable rc : N.
Variable types : list nat.
Notation B := (ilist l).
Notation A := (needed_no_mpi rc l).
Hypothesis L : lmp_ok (length types) A l.
Notation nall := (nlocal l + nghost l).

Lemma no_il_len : length B = inum l.
Proof. destruct (lo_il _ _ _ L) as [Hn HP]. rewrite Hn, (Permutation_length HP), seq_length. reflexivity. Qed.
Lemma no_il_nodup : NoDup B.
Proof. destruct (lo_il _ _ _ L) as [Hn HP]. eapply Permutation_NoDup; [symmetry; exact HP|apply seq_NoDup]. Qed.
Lemma no_il_in i : In i B <-> i < nlocal l.
Proof.
  destruct (lo_il _ _ _ L) as [Hn HP]. split; intros H.
  - apply (Permutation_in _ HP) in H. apply in_seq in H. lia.
  - apply (Permutation_in _ (Permutation_sym HP)). apply in_seq. lia.
Qed.

Definition seen (D : list nat) (j : nat) : bool := existsb (Nat.eqb j) (filter (fun j => negb (j <? nlocal l)) D).
(** ghosts among the neighbours of the local atoms, in increasing order *)
Definition ghosts : list nat := filter (seen (flat_map (kept rc l) B)) (seq 0 nall).
Definition no_nodes : list nat := B ++ ghosts.
Definition no_ix (j : nat) : nat := umap_get (um no_nodes (length no_nodes)) j.
Notation s := (sys_on types rc l no_ix no_nodes).

Lemma seen_in D j : seen D j = true <-> In j D /\ nlocal l <= j.
Proof.
  unfold seen. rewrite existsb_exists. split.
  - intros (k & H1 & H2). apply Nat.eqb_eq in H2. subst k. apply filter_In in H1. destruct H1 as [H1 H2]. apply negb_true_iff, Nat.ltb_ge in H2. auto.
  - intros [H1 H2]. exists j. split; [apply filter_In; split; [exact H1|apply negb_true_iff, Nat.ltb_ge; exact H2]|apply Nat.eqb_refl].
Qed.
Lemma kept_A i j : i < nlocal l -> In j (kept rc l i) -> In j A.
Proof. intros Hi Hj. unfold needed_no_mpi. apply in_or_app. right. apply in_flat_map. exists i. split; [apply in_seq; lia|exact Hj]. Qed.
Lemma in_ghosts j : In j ghosts <-> nlocal l <= j /\ exists i, i < nlocal l /\ In j (kept rc l i).
Proof.
  unfold ghosts. rewrite filter_In, seen_in, in_flat_map, in_seq. split.
  - intros (_ & (i & H1 & H2) & H3). split; [exact H3|]. exists i. split; [apply no_il_in; exact H1|exact H2].
  - intros (H3 & i & H1 & H2). split; [|split; [exists i; split; [apply no_il_in; exact H1|exact H2]|exact H3]].
    destruct (lo_A _ _ _ L j (kept_A i j H1 H2)) as (H4 & _). lia.
Qed.
Lemma nodes_A i : In i no_nodes -> In i A.
Proof.
  intros H. apply in_app_or in H. destruct H as [H|H].
  - unfold needed_no_mpi. apply in_or_app. left. apply in_seq. apply no_il_in in H. lia.
  - apply in_ghosts in H. destruct H as (_ & i' & H1 & H2). eapply kept_A; eauto.
Qed.
Lemma nodes_nodup : NoDup no_nodes.
Proof.
  unfold no_nodes.
  assert (ND2 : NoDup ghosts) by (apply NoDup_filter, seq_NoDup).
  pose proof no_il_nodup as ND1. pose proof in_ghosts as IG. pose proof no_il_in as IB. revert ND1 IB. generalize B as D. intros D ND1 IB.
  assert (HD : forall i, In i D -> ~ In i ghosts) by (intros i H1 H2; apply IB in H1; apply IG in H2; lia). clear IB. induction D as [|d D IH]; [exact ND2|].
  inversion ND1 as [|? ? M1 M2]; subst. cbn [app]. constructor.
  - intros H. apply in_app_or in H. destruct H as [H|H]; [auto|]. apply (HD d (or_introl eq_refl) H).
  - apply IH; [exact M2|]. intros i Hi. apply HD. right. exact Hi.
Qed.
Lemma nodes_kept i j : In i B -> In j (kept rc l i) -> In j no_nodes.
Proof.
  intros Hi Hj. apply in_or_app. apply no_il_in in Hi. destruct (Nat.lt_ge_cases j (nlocal l)) as [H|H]; [left; apply no_il_in; exact H|].
  right. apply in_ghosts. split; [exact H|]. exists i. auto.
Qed.
Lemma no_ix_in j : In j no_nodes -> no_ix j = position j no_nodes.
Proof. intros H. apply um_position; [apply nodes_nodup|exact H]. Qed.
Lemma um_lt D k j : 0 < k -> umap_get (um D k) j < k.
Proof.
  intros Hk. assert (G : forall k', k' <= k -> umap_get (um D k') j < k); [|apply G; lia].
  induction k' as [|k' IH]; intros H; [exact Hk|]. rewrite um_S. cbn [umap_get]. destruct (_ =? _); [lia|]. apply IH. lia.
Qed.
Lemma no_ix_lt j : no_nodes <> [] -> no_ix j < length no_nodes.
Proof. intros H. apply um_lt. destruct no_nodes; [congruence|cbn; lia]. Qed.

Lemma no_mpi_eq fl b p a : compute_no_mpi_message_passing sph m rc types fl l b p a =
  (b' <- no_eval sph m (length B) (length s) (f_node_types s) (f_num_neigh s) (f_neigh_indices s) (f_neigh_types s) (f_xyz s) (f_r s) b ;;
   a' <- tally fl (length B) (length s) no_nodes (f_num_neigh s) (map snd (kpairs l rc no_nodes)) (f_xyz s) (b_node_energies b') (b_node_forces b') a ;;
   Some (b', mkPB (f_node_types s) (f_num_neigh s) (f_neigh_indices s) (f_neigh_types s) (f_xyz s) (f_r s) no_nodes
       (map snd (kpairs l rc no_nodes)) (tab nall (fun i => i <? nlocal l)) (tab nall (seen (flat_map (kept rc l) B))) ghosts (p_H1 p) (p_H1_adj p), a')).
Proof.
  pose proof no_il_len as Hlen. unfold compute_no_mpi_message_passing. rewrite !fill_resize.
  assert (RT : forall n, repeat false n = tab n (fun _ => false)).
  { intros n. apply list_eq_nth with (d := false); [rewrite repeat_length, length_tab; reflexivity|]. intros i Hi. rewrite repeat_length in Hi. rewrite nth_repeat, nth_tab by exact Hi. reflexivity. }
  (* is_local *)
  rewrite (for_trace (fun ii => tab nall (fun i => existsb (Nat.eqb i) (firstn ii B))) (inum l) _ (repeat false nall) (tab nall (fun i => i <? nlocal l))).
  2:{ rewrite RT. reflexivity. }
  2:{ rewrite <- Hlen, firstn_all. apply tab_ext. intros i Hi. destruct (Nat.ltb_spec i (nlocal l)) as [H|H].
      - symmetry. apply existsb_exists. exists i. split; [apply no_il_in; exact H|apply Nat.eqb_refl].
      - symmetry. apply not_true_iff_false. intros E. apply existsb_exists in E. destruct E as (k & E1 & E2). apply Nat.eqb_eq in E2. subst k. apply no_il_in in E1. lia. }
  2:{ intros ii Hii. rewrite (rd_some B ii 0) by lia. cbn [bind]. assert (HiL : nth ii B 0 < nlocal l) by (apply no_il_in, nth_In; lia). rewrite wr_tab by lia. f_equal. apply tab_ext.
      intros j _. rewrite (firstn_S_nth _ _ (nth ii B 0)) by (apply nth_error_nth'; lia). rewrite existsb_app. cbn [existsb]. destruct (Nat.eqb_spec j (nth ii B 0)); [rewrite orb_comm; reflexivity|]. rewrite !orb_false_r. reflexivity. }
  cbn [bind].
  (* is_ghost *)
  assert (HBA : forall i, In i B -> In i A) by (intros i Hi; apply nodes_A, in_or_app; left; exact Hi).
  rewrite (for_trace (fun ii => tab nall (seen (flat_map (kept rc l) (firstn ii B)))) (inum l) _ (repeat false nall) (tab nall (seen (flat_map (kept rc l) B)))).
  2:{ rewrite RT. reflexivity. }
  2:{ rewrite <- Hlen, firstn_all. reflexivity. }
  2:{ intros ii Hii. rewrite (rd_some B ii 0) by lia. set (i := nth ii B 0). assert (Hi : In i A) by (apply HBA, nth_In; lia). cbn [bind].
      destruct (atom_step l types A L i Hi) as (E1 & E2 & E3 & E4 & E5). rewrite E3, E4, E5. cbn [bind]. rewrite E2. cbn [bind]. rewrite E1. cbn [bind].
      rewrite (firstn_S_nth _ _ i) by (apply nth_error_nth'; lia). rewrite flat_map_app'. cbn [flat_map]. rewrite app_nil_r. set (D := flat_map (kept rc l) (firstn ii B)).
      apply (for_trace (fun jj => tab nall (seen (D ++ kept_to l rc i jj)))).
      - unfold kept_to. cbn [firstn filter]. rewrite app_nil_r. reflexivity.
      - rewrite (kept_all l rc types A L i Hi). reflexivity.
      - intros jj Hjj. destruct (nbr_step l rc types A L i jj Hi Hjj) as (jz & j & F1 & F2 & F3 & F4 & F5 & F6 & F7). rewrite F1. cbn [bind]. rewrite F2.
        rewrite F4, F5, F6. cbn [bind]. cbv zeta. rewrite sep2_eq, F7. destruct (nltb _ _); [|rewrite app_nil_r; reflexivity].
        rewrite (rd_some _ _ false) by (rewrite length_tab; exact F3). cbn [bind]. rewrite nth_tab by exact F3. rewrite app_assoc.
        destruct (Nat.ltb_spec j (nlocal l)) as [Hj|Hj]; cbn [negb].
        + f_equal. apply tab_ext. intros k _. unfold seen. rewrite (filter_app _ _ [j]). cbn [filter]. destruct (Nat.ltb_spec j (nlocal l)); [|lia]. cbn [negb]. rewrite app_nil_r. reflexivity.
        + rewrite wr_tab by exact F3. f_equal. apply tab_ext. intros k _. unfold seen. rewrite (filter_app _ _ [j]), existsb_app. cbn [filter]. destruct (Nat.ltb_spec j (nlocal l)); [lia|]. cbn [negb existsb].
          destruct (Nat.eqb_spec k j); [rewrite orb_comm; reflexivity|]. rewrite !orb_false_r. reflexivity. }
  cbn [bind]. rewrite filter_tab. fold ghosts.
  set (g := seen (flat_map (kept rc l) B)). set (vg := resize 0 (p_ghost_indices p) (length ghosts)). assert (Lg : length vg = length ghosts) by apply length_resize.
  rewrite (for_trace (fun ii => (sf vg (filter g (seq 0 ii)), length (filter g (seq 0 ii)))) nall _ _ (ghosts, length ghosts)).
  2:{ reflexivity. }
  2:{ rewrite sf_full by (symmetry; exact Lg). reflexivity. }
  2:{ intros ii Hii. rewrite (rd_some _ _ false) by (rewrite length_tab; exact Hii). cbn [bind]. rewrite nth_tab by exact Hii. rewrite seq_S, filter_app. cbn [filter plus]. fold g.
      destruct (g ii) eqn:Eg; [|rewrite app_nil_r; reflexivity]. rewrite wr_sf; [cbn [bind]; rewrite app_length; reflexivity|reflexivity|].
      rewrite Lg. unfold ghosts. fold g. replace nall with (ii + (1 + (nall - ii - 1))) by lia. rewrite seq_app, filter_app, app_length. rewrite (seq_app 1), filter_app, app_length. cbn [seq filter plus]. rewrite Eg. cbn [length]. lia. }
  cbn [bind].
  (* nodes *)
  assert (Hn : inum l + length ghosts = length no_nodes) by (unfold no_nodes; rewrite app_length; lia). rewrite Hn. rewrite <- Hlen.
  set (NI := no_nodes) in *. set (n := length NI) in *.
  set (vni := resize 0 (p_node_i p) n). set (vnt := resize 0 (p_node_types p) n). set (vnn := repeat 0 n).
  assert (Lni : length vni = n) by apply length_resize. assert (Lnt : length vnt = n) by apply length_resize. assert (Lnn : length vnn = n) by apply repeat_length.
  rewrite (for_trace (fun ii => (sf vni (firstn ii NI), sf vnt (map (spec_of types l) (firstn ii NI)), sf vnn (map (fun i => length (kept rc l i)) (firstn ii NI)), um NI ii)) n _ _
    (NI, f_node_types s, f_num_neigh s, um NI n)).
  2:{ rewrite fill_resize. reflexivity. }
  2:{ unfold n. rewrite firstn_all. rewrite !sf_full by (rewrite ?map_length; fold n; lia). rewrite nt_on, nn_on. reflexivity. }
  2:{ intros ii Hii. set (i := nth ii NI 0).
      assert (Ei : (if ii <? length B then rd B ii else rd ghosts (ii - length B)) = Some i).
      { unfold i, NI, no_nodes. destruct (Nat.ltb_spec ii (length B)) as [H|H]; [rewrite app_nth1 by exact H; apply rd_some; exact H|].
        rewrite app_nth2 by lia. apply rd_some. unfold n, NI, no_nodes in Hii. rewrite app_length in Hii. lia. }
      rewrite Ei. cbn [bind]. assert (Hin : In i NI) by (apply nth_In; exact Hii). pose proof (nodes_A i Hin) as Hi. destruct (lo_A _ _ _ L i Hi) as (HiN & _).
      assert (F1 : forall C (g : nat -> C), length (map g (firstn ii NI)) = ii) by (intros; rewrite map_length, firstn_length; fold n; lia).
      assert (F2 : length (firstn ii NI) = ii) by (rewrite firstn_length; fold n; lia).
      rewrite wr_sf by lia. cbn [bind]. destruct (type_step l types A L i HiN) as (t & T1 & T2 & T3). rewrite T1. cbn [bind]. rewrite T2, T3. cbn [bind].
      rewrite wr_sf by (rewrite ?F1; lia). cbn [bind].
      destruct (atom_step l types A L i Hi) as (E1 & E2 & E3 & E4 & E5). rewrite E3, E4, E5. cbn [bind]. rewrite E2. cbn [bind]. rewrite E1. cbn [bind].
      set (LN := map (fun i => length (kept rc l i)) (firstn ii NI)). assert (LLN : length LN = ii) by apply F1.
      rewrite (for_trace (fun jj => sf vnn (LN ++ [length (kept_to l rc i jj)])) _ _ _ (sf vnn (LN ++ [length (kept rc l i)]))).
      - cbn [bind]. rewrite (firstn_map_S (spec_of types l) NI ii Hii), (firstn_map_S (fun i => length (kept rc l i)) NI ii Hii), um_S.
        rewrite <- (map_id (firstn (S ii) NI)), (firstn_map_S (fun i => i) NI ii Hii), map_id. reflexivity.
      - unfold kept_to. cbn [firstn filter length]. unfold sf. rewrite app_length, LLN. cbn [length]. rewrite <- app_assoc. f_equal. cbn [app].
        unfold vnn. rewrite <- (firstn_skipn ii (repeat 0 n)) at 1.
        assert (ER : forall k, k <= n -> skipn k (repeat 0 n) = repeat 0 (n - k)).
        { intros k Hk. replace n with (k + (n - k)) at 1 by lia. rewrite repeat_app. replace k with (length (repeat 0 k)) at 1 by apply repeat_length. rewrite skipn_app, skipn_all, Nat.sub_diag. reflexivity. }
        rewrite firstn_skipn, !ER by lia. replace (n - ii) with (S (n - (ii + 1))) by lia. reflexivity.
      - rewrite (kept_all l rc types A L i Hi). reflexivity.
      - intros jj Hjj. destruct (nbr_step l rc types A L i jj Hi Hjj) as (jz & j & G1 & G2 & G3 & G4 & G5 & G6 & G7).
        rewrite G1. cbn [bind]. rewrite G2, G4, G5, G6. cbn [bind]. cbv zeta. rewrite sep2_eq, G7. destruct (nltb _ _); [|rewrite app_nil_r; reflexivity].
        rewrite rd_sf by (symmetry; exact LLN). cbn [bind]. rewrite wr_sf_last by (rewrite ?LLN; lia). rewrite app_length. cbn [length]. reflexivity. }
  cbn [bind].
  (* number of edges *)
  assert (RN : forall ii, ii < n -> rd (f_num_neigh s) ii = Some (length (kept rc l (nth ii NI 0)))).
  { intros ii Hii. rewrite nn_on. unfold rd. rewrite nth_error_map, (nth_error_nth' _ 0) by exact Hii. reflexivity. }
  assert (LB : length B <= n) by (unfold n, NI, no_nodes; rewrite app_length; lia).
  assert (LK : forall ii, ii < n -> length (kpairs l rc (firstn (S ii) NI)) = length (kpairs l rc (firstn ii NI)) + length (kept rc l (nth ii NI 0))).
  { intros ii Hii. rewrite (kpairs_S l rc NI ii Hii), app_length, map_length. reflexivity. }
  rewrite (for_trace (fun ii => length (kpairs l rc (firstn ii NI))) (length B) _ 0 (length (kpairs l rc B))).
  2:{ reflexivity. }
  2:{ unfold NI, no_nodes. rewrite firstn_app, firstn_all, Nat.sub_diag. cbn [firstn]. rewrite app_nil_r. reflexivity. }
  2:{ intros ii Hii. rewrite RN by lia. cbn [bind]. rewrite LK by lia. reflexivity. }
  cbn [bind].
  assert (EG : for_range (length B) n (fun ii e => c <- rd (f_num_neigh s) ii ;; Some (e + c)) 0 = Some (length (kpairs l rc NI) - length (kpairs l rc B))).
  { assert (G : forall k, k <= n - length B -> for_from k (length B + (n - length B - k)) (fun ii e => c <- rd (f_num_neigh s) ii ;; Some (e + c)) 
        (length (kpairs l rc (firstn (length B + (n - length B - k)) NI)) - length (kpairs l rc B)) = Some (length (kpairs l rc NI) - length (kpairs l rc B))).
    { induction k as [|k IH]; intros Hk; cbn [for_from].
      - rewrite Nat.sub_0_r. replace (length B + (n - length B)) with n by lia. unfold n. rewrite firstn_all. reflexivity.
      - set (q := length B + (n - length B - S k)) in *. rewrite RN by lia. cbn [bind].
        assert (Eq : length B + (n - length B - k) = S q) by lia. rewrite Eq in IH. rewrite LK in IH by lia.
        assert (LQ : length (kpairs l rc B) <= length (kpairs l rc (firstn q NI))).
        { replace q with (length B + (q - length B)) by lia. unfold NI, no_nodes. rewrite firstn_app_2. unfold kpairs. rewrite flat_map_app', app_length. lia. }
        etransitivity; [|apply IH; lia]. f_equal. lia. }
    specialize (G (n - length B) ltac:(lia)). rewrite Nat.sub_diag, Nat.add_0_r in G. unfold for_range.
    replace (firstn (length B) NI) with B in G by (unfold NI, no_nodes; rewrite firstn_app, firstn_all, Nat.sub_diag; cbn [firstn]; rewrite app_nil_r; reflexivity).
    rewrite Nat.sub_diag in G. exact G. }
  rewrite EG. clear EG. cbn [bind].
  assert (LE : length (kpairs l rc B) + (length (kpairs l rc NI) - length (kpairs l rc B)) = length (kpairs l rc NI)).
  { unfold NI, no_nodes, kpairs. rewrite flat_map_app', app_length. lia. }
  rewrite LE. clear LE. set (E := length (kpairs l rc NI)).
  (* edges *)
  set (vj := resize 0 (p_neigh_j p) E). set (vx := resize 0 (p_neigh_indices p) E). set (vt := resize 0 (p_neigh_types p) E).
  set (vxyz := resize nzero (p_xyz p) (3 * E)). set (vr := resize nzero (p_r p) E).
  assert (Lj : length vj = E) by apply length_resize. assert (Lx : length vx = E) by apply length_resize.
  assert (Lt : length vt = E) by apply length_resize. assert (Lxyz : length vxyz = 3 * E) by apply length_resize.
  assert (Lr : length vr = E) by apply length_resize.
  set (g1 := fun q : nat * nat => snd q). set (g2 := fun q : nat * nat => no_ix (snd q)).
  set (g3 := fun q : nat * nat => spec_of types l (snd q)). set (g4 := fun q : nat * nat => nsqrt (sep2 (atom_x l) (fst q) (snd q))).
  rewrite (for_trace (fun ii => (sf vj (map g1 (kpairs l rc (firstn ii NI))), sf vx (map g2 (kpairs l rc (firstn ii NI))), sf vt (map g3 (kpairs l rc (firstn ii NI))),
     sf vxyz (flat_map (gx l) (kpairs l rc (firstn ii NI))), sf vr (map g4 (kpairs l rc (firstn ii NI))), length (kpairs l rc (firstn ii NI))))
     n _ _ _ eq_refl eq_refl).
  - cbn [bind]. unfold n. rewrite firstn_all. fold n. rewrite !sf_full by (rewrite ?map_length, ?length_gx; fold E; lia).
    rewrite <- (et_on types rc l no_ix NI : _ = map g3 _), <- (r_on types rc l no_ix NI : _ = map g4 _), 
      <- (xyz_on types rc l no_ix NI), <- (ix_on types rc l no_ix NI : _ = map g2 _).
    unfold no_eval. rewrite !fill_resize. rewrite (length_on types rc l no_ix NI). fold n. cbv zeta. change no_nodes with NI.
    repeat match goal with |- bind ?e _ = bind (bind ?e _) _ => destruct e as [?|]; cbn [bind]; [|reflexivity];
      repeat match goal with w : (_ * _)%type |- _ => destruct w end end.
    cbn [b_node_energies b_node_forces]. reflexivity.
  - intros ii Hii. set (i := nth ii NI 0). assert (Hin : In i NI) by (apply nth_In; exact Hii). pose proof (nodes_A i Hin) as Hi.
    rewrite (rd_some NI ii 0) by exact Hii. fold i. cbn [bind].
    destruct (atom_step l types A L i Hi) as (E1 & E2 & E3 & E4 & E5). rewrite E3, E4, E5. cbn [bind]. rewrite E2. cbn [bind]. rewrite E1. cbn [bind].
    set (D := kpairs l rc (firstn ii NI)). rewrite (kpairs_S l rc NI ii Hii). fold D i.
    apply (for_trace (fun jj => let D' := D ++ map (pair i) (kept_to l rc i jj) in (sf vj (map g1 D'), sf vx (map g2 D'), sf vt (map g3 D'),
      sf vxyz (flat_map (gx l) D'), sf vr (map g4 D'), length D'))).
    + unfold kept_to. cbn [firstn filter map length]. cbv zeta. rewrite app_nil_r. reflexivity.
    + cbv zeta. rewrite (kept_all l rc types A L i Hi). reflexivity.
    + intros jj Hjj. cbv zeta. destruct (nbr_step l rc types A L i jj Hi Hjj) as (jz & j & G1 & G2 & G3 & G4 & G5 & G6 & G7).
      pose proof (kpairs_le l rc types A L NI ii jj Hi Hii Hjj) as Hle. fold i D E in Hle.
      rewrite G1. cbn [bind]. rewrite G2, G4, G5, G6. cbn [bind]. rewrite sep2_eq. rewrite G7 in Hle |- *. 
      destruct (nltb (sep2 (atom_x l) i j) (nmul rc rc)).
      * rewrite app_length in Hle. cbn [length] in Hle. set (D' := D ++ map (pair i) (kept_to l rc i jj)).
        assert (LD : length D' = length D + length (kept_to l rc i jj)) by (unfold D'; rewrite app_length, map_length; reflexivity).
        assert (ED : D ++ map (pair i) (kept_to l rc i jj ++ [j]) = D' ++ [(i, j)]) by (unfold D'; rewrite map_app, app_assoc; reflexivity).
        rewrite ED.
        rewrite wr_sf by (rewrite map_length; lia). cbn [bind]. fold (no_ix j).
        rewrite wr_sf by (rewrite map_length; lia). cbn [bind].
        destruct (type_step l types A L j G3) as (u & U1 & U2 & U3). rewrite U1. cbn [bind]. rewrite U2, U3. cbn [bind].
        rewrite wr_sf by (rewrite map_length; lia). cbn [bind].
        rewrite wr_sf by (rewrite length_gx; lia). cbn [bind].
        rewrite wr_sf by (rewrite app_length, length_gx; cbn [length]; lia). cbn [bind].
        rewrite wr_sf by (rewrite !app_length, length_gx; cbn [length]; lia). cbn [bind].
        rewrite wr_sf by (rewrite map_length; lia). cbn [bind].
        rewrite !map_app, flat_map_app', !app_length. cbn [map length flat_map app]. rewrite <- !app_assoc. reflexivity.
      * rewrite app_nil_r. reflexivity.
Qed.
End No.
