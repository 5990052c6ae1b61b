(** The lists that the Kokkos pair style sets up in mode no_mpi_message_passing: the same for every order of the iterations, whatever the
    views contained before, and equal to those of the CPU pair style.  Used in proofs only. *)
From Coq Require Import List Arith ZArith Bool Lia Permutation.
From Verif Require Import Base BaseLemmas Segs MaceModel MaceSpec Sys PairModel PairMpiModel PairSpec PairThms PairKokkosModel DistSpec DistNbr DistNoNbr DistTags
  KkSem KkModel KkPairModel KkPairSetup KkPairMpiModel.
Import ListNotations.
Local Open Scope nat_scope.

Lemma upd_tab {A} n (g : nat -> A) i v : i < n -> upd (tab n g) i v = tab n (fun j => if j =? i then v else g j).
Proof. intros H. pose proof (wr_tab n g i v H) as E. rewrite wr_some in E by (rewrite length_tab; exact H). injection E as E. exact E. Qed.

Section No.
Context {N : Num}.
Variable l : lmp N.
Variable rc : N.
Variable types : list nat.
Notation B := (ilist l).
Notation A := (needed_no_mpi rc l).
Hypothesis L : lmp_ok (length types) A l.
Variable mace_types : list Z.
Hypothesis HT : forall k t, rd types k = Some t -> rd mace_types k = Some (Z.of_nat t).
Notation nall := (nlocal l + nghost l).
Notation NI := (no_nodes l rc).
Notation G := (ghosts l rc).
Notation pos ord := (map (fun ii => nth ii B 0) ord).

Lemma pos_in ord i : Permutation (seq 0 (inum l)) ord -> In i (pos ord) <-> In i B.
Proof.
  intros P. rewrite in_map_iff. pose proof (no_il_len l rc types L) as HL. split.
  - intros (ii & <- & Hi). apply (Permutation_in _ (Permutation_sym P)) in Hi. apply in_seq in Hi. apply nth_In. lia.
  - intros Hi. apply (In_nth _ _ 0) in Hi. destruct Hi as (ii & Hl & <-). exists ii. split; [reflexivity|]. apply (Permutation_in _ P). apply in_seq. lia.
Qed.
Lemma ord_lt ord n ii : Permutation (seq 0 n) ord -> In ii ord -> ii < n.
Proof. intros P H. apply (Permutation_in _ (Permutation_sym P)) in H. apply in_seq in H. lia. Qed.

Lemma local_ok ord : Permutation (seq 0 (inum l)) ord ->
  run_all (fill_local l) ord (repeat false nall) = Some (tab nall (fun i => i <? nlocal l)).
Proof.
  intros P. pose proof (no_il_len l rc types L) as HL.
  assert (Q : forall ord, (forall ii, In ii ord -> ii < inum l) -> forall g, run_all (fill_local l) ord (tab nall g) = Some (tab nall (fun i => g i || existsb (Nat.eqb i) (pos ord)))).
  { clear P ord. induction ord as [|ii ord IH]; intros H g; cbn [run_all map existsb].
    - f_equal. apply tab_ext. intros i _. rewrite orb_false_r. reflexivity.
    - assert (Hii : ii < inum l) by (apply H; left; reflexivity). unfold fill_local at 1. rewrite (rd_some B ii 0) by lia. cbn [bind]. unfold bit_set.
      assert (HiL : nth ii B 0 < nlocal l) by (apply (no_il_in l rc types L), nth_In; lia). rewrite upd_tab by lia.
      rewrite IH by (intros; apply H; right; assumption). f_equal. apply tab_ext. intros i _. destruct (i =? nth ii B 0); [rewrite orb_true_r|]; reflexivity. }
  assert (RT : repeat false nall = tab nall (fun _ => false)).
  { apply list_eq_nth with (d := false); [rewrite repeat_length, length_tab; reflexivity|]. intros i Hi. rewrite repeat_length in Hi. rewrite nth_repeat, nth_tab by exact Hi. reflexivity. }
  rewrite RT, Q by (intros ii; apply ord_lt; exact P). f_equal. apply tab_ext. intros i _. cbn [orb].
  apply eq_true_iff_eq. rewrite existsb_exists, Nat.ltb_lt, <- (no_il_in l rc types L i), <- (pos_in ord i P). split.
  - intros (k & H1 & H2). apply Nat.eqb_eq in H2. subst k. exact H1.
  - intros H. exists i. split; [exact H|apply Nat.eqb_refl].
Qed.

Lemma ghost_ok ord : Permutation (seq 0 (inum l)) ord ->
  run_all (fill_ghost l (nmul rc rc) (tab nall (fun i => i <? nlocal l))) ord (repeat false nall) = Some (tab nall (seen l (flat_map (kept rc l) B))).
Proof.
  intros P. pose proof (no_il_len l rc types L) as HL.
  assert (Q : forall ord, (forall ii, In ii ord -> ii < inum l) -> forall D, run_all (fill_ghost l (nmul rc rc) (tab nall (fun i => i <? nlocal l))) ord (tab nall (seen l D)) =
     Some (tab nall (seen l (D ++ flat_map (kept rc l) (pos ord))))).
  { clear P ord. induction ord as [|ii ord IH]; intros H D; cbn [run_all map flat_map].
    - rewrite app_nil_r. reflexivity.
    - assert (Hii : ii < inum l) by (apply H; left; reflexivity). unfold fill_ghost at 1. rewrite (rd_some B ii 0) by lia. set (i := nth ii B 0).
      assert (Hi : In i A) by (apply (nodes_A l rc types L), in_or_app; left; apply nth_In; lia). cbn [bind].
      destruct (atom_step l types A L i Hi) as (E1 & E2 & E3 & E4 & E5). rewrite E3, E4, E5. cbn [bind]. rewrite E1. cbn [bind]. rewrite E2. cbn [bind].
      rewrite (for_trace (fun jj => tab nall (seen l (D ++ kept_to l rc i jj))) _ _ _ (tab nall (seen l (D ++ kept rc l i)))).
      + cbn [bind]. rewrite IH by (intros; apply H; right; assumption). rewrite <- app_assoc. reflexivity.
      + unfold kept_to. cbn [firstn filter]. rewrite app_nil_r. reflexivity.
      + rewrite (kept_all l rc types A L i Hi). reflexivity.
      + intros jj Hjj. destruct (nbr_step l rc types A L i jj Hi Hjj) as (jz & j & F1 & F2 & F3 & F4 & F5 & F6 & F7). rewrite F1. cbn [bind]. rewrite F2.
        rewrite F4, F5, F6. cbn [bind]. cbv zeta. rewrite sep2_eq, F7. destruct (nltb _ _); [|rewrite app_nil_r; reflexivity].
        cbn [andb]. unfold bit_test. rewrite nth_tab by exact F3. rewrite app_assoc.
        destruct (Nat.ltb_spec j (nlocal l)) as [Hj|Hj]; cbn [negb].
        * f_equal. apply tab_ext. intros k _. unfold seen. rewrite (filter_app _ _ [j]). cbn [filter]. destruct (Nat.ltb_spec j (nlocal l)); [|lia]. cbn [negb]. rewrite app_nil_r. reflexivity.
        * unfold bit_set. rewrite upd_tab by exact F3. f_equal. apply tab_ext. intros k _. unfold seen. rewrite (filter_app _ _ [j]), existsb_app. cbn [filter]. destruct (Nat.ltb_spec j (nlocal l)); [lia|]. cbn [negb existsb].
          destruct (Nat.eqb_spec k j); [rewrite orb_comm; reflexivity|]. rewrite !orb_false_r. reflexivity. }
  assert (RT : repeat false nall = tab nall (seen l [])).
  { apply list_eq_nth with (d := false); [rewrite repeat_length, length_tab; reflexivity|]. intros i Hi. rewrite repeat_length in Hi. rewrite nth_repeat, nth_tab by exact Hi. reflexivity. }
  rewrite RT, Q by (intros ii; apply ord_lt; exact P). f_equal. apply tab_ext. intros i _. cbn [app].
  apply eq_true_iff_eq. rewrite !seen_in. rewrite !in_flat_map. split; intros ((k & H1 & H2) & H3); (split; [|exact H3]); exists k; (split; [|exact H2]); apply (pos_in ord k P); exact H1.
Qed.

Lemma scan_g g v : length v = length (filter g (seq 0 nall)) -> ghost_scan (tab nall g) v = Some (filter g (seq 0 nall)).
Proof.
  intros Lg. unfold ghost_scan. rewrite length_tab.
  rewrite (for_trace (fun ii => (sf v (filter g (seq 0 ii)), length (filter g (seq 0 ii)))) nall _ _ (filter g (seq 0 nall), length (filter g (seq 0 nall)))).
  - reflexivity.
  - reflexivity.
  - rewrite sf_full by (symmetry; exact Lg). reflexivity.
  - intros ii Hii. unfold bit_test. rewrite nth_tab by exact Hii. rewrite seq_S, filter_app. cbn [filter plus].
    destruct (g ii) eqn:Eg; [|rewrite app_nil_r; reflexivity]. rewrite wr_sf; [cbn [bind]; rewrite app_length; reflexivity|reflexivity|].
    rewrite Lg. replace nall with (ii + (1 + (nall - ii - 1))) by lia. rewrite seq_app, filter_app, app_length. rewrite (seq_app 1), filter_app, app_length. cbn [seq filter plus]. rewrite Eg. cbn [length]. lia.
Qed.

Lemma ghost_indices_ok ordL ordG : Permutation (seq 0 (inum l)) ordL -> Permutation (seq 0 (inum l)) ordG ->
  ghost_indices l (nmul rc rc) ordL ordG = Some G.
Proof.
  intros P1 P2. unfold ghost_indices. cbv zeta. rewrite local_ok by exact P1. cbn [bind]. rewrite ghost_ok by exact P2. cbn [bind].
  rewrite filter_tab. apply scan_g. apply repeat_length.
Qed.

(** the node of a neighbour: the first, and only, one that is this atom *)
Lemma find_ok M j : In j M -> for_ (length M) (fun ii found =>
    match found with
    | Some _ => Some found
    | None => i <- rd M ii ;; Some (if i =? j then Some ii else None)
    end) None = Some (Some (position j M)).
Proof.
  intros Hj. apply (for_trace (fun ii => if position j M <? ii then Some (position j M) else None)).
  - reflexivity.
  - rewrite (proj2 (Nat.ltb_lt _ _)) by (apply position_lt; exact Hj). reflexivity.
  - intros ii Hii. destruct (Nat.ltb_spec (position j M) ii) as [H|H]; [rewrite (proj2 (Nat.ltb_lt _ _)) by lia; reflexivity|].
    rewrite (rd_some M ii 0) by exact Hii. cbn [bind]. destruct (Nat.eqb_spec (nth ii M 0) j) as [E|E].
    + assert (position j M = ii); [|subst ii; rewrite (proj2 (Nat.ltb_lt _ _)) by lia; reflexivity].
      apply Nat.le_antisymm; [|exact H]. clear H. revert ii Hii E. clear. induction M as [|m M IH]; intros ii Hii E; [cbn in Hii; lia|].
      cbn [position]. destruct (Nat.eqb_spec j m); [lia|]. destruct ii as [|ii]; [cbn in E; congruence|]. cbn in Hii, E. specialize (IH ii ltac:(lia) E). lia.
    + destruct (Nat.ltb_spec (position j M) (S ii)) as [H2|H2]; [|reflexivity]. exfalso. assert (position j M = ii) by lia. subst ii. apply E. apply nth_position. exact Hj.
Qed.

Notation E1 := (length (kpairs l rc B)).
Lemma kp_app : kpairs l rc NI = kpairs l rc B ++ kpairs l rc G.
Proof. unfold no_nodes, kpairs. apply flat_map_app'. Qed.
Lemma neigh_ii_ok ord X : Permutation (seq 0 E1) ord -> length X = E1 ->
  run_all (set_neigh_ii (length NI) NI (map snd (kpairs l rc NI))) ord X = Some (map (fun p => no_ix l rc (snd p)) (kpairs l rc B)).
Proof.
  intros P LX. set (T := fun ij => [no_ix l rc (snd (nth ij (kpairs l rc B) (0, 0)))]).
  assert (FT : flat_map T (seq 0 E1) = map (fun p => no_ix l rc (snd p)) (kpairs l rc B)).
  { rewrite (tab_nth (kpairs l rc B) (0, 0)) at 2. unfold tab. rewrite map_map. unfold T. generalize (seq 0 E1) as q. clear.
    induction q as [|a q IH]; [reflexivity|]. cbn [flat_map map app]. f_equal; exact IH. }
  assert (LT : length (flat_map T (seq 0 E1)) = E1) by (rewrite FT; apply map_length).
  assert (O1 : forall ii, ii <= E1 -> boff E1 T ii = ii).
  { intros ii. induction ii as [|ii IH]; intros H; [apply offs_0|]. rewrite boff_S by lia. rewrite IH by lia. unfold T. cbn [length]. lia. }
  assert (Q : forall ord, (forall ii, In ii ord -> ii < E1) -> forall X, length X = E1 ->
     run_all (set_neigh_ii (length NI) NI (map snd (kpairs l rc NI))) ord X = Some (fillb E1 T ord X)).
  { clear X LX P ord. induction ord as [|ij ord IH]; intros H X LX; [reflexivity|]. cbn [run_all].
    assert (Hij : ij < E1) by (apply H; left; reflexivity). unfold set_neigh_ii at 1.
    assert (ER : rd (map snd (kpairs l rc NI)) ij = Some (snd (nth ij (kpairs l rc B) (0, 0)))).
    { unfold rd. rewrite nth_error_map, kp_app, nth_error_app1 by exact Hij. rewrite (nth_error_nth' _ (0, 0)) by exact Hij. reflexivity. }
    rewrite ER. cbn [bind]. set (j := snd (nth ij (kpairs l rc B) (0, 0))) in *.
    assert (Hj : In j NI).
    { assert (Hp : In (nth ij (kpairs l rc B) (0, 0)) (kpairs l rc B)) by (apply nth_In; exact Hij). unfold kpairs at 2 in Hp. apply in_flat_map in Hp.
      destruct Hp as (i & Hi & Hp). apply in_map_iff in Hp. destruct Hp as (j' & Ej & Hj'). unfold j. rewrite <- Ej. cbn [snd]. apply (nodes_kept l rc types L i j' Hi Hj'). }
    rewrite find_ok by exact Hj. cbn [bind]. rewrite <- (no_ix_in l rc types L j Hj).
    rewrite <- (ins_nil X ij) at 1. rewrite wr_ins by (cbn [length]; lia). cbn [bind app]. rewrite IH; [|intros; apply H; right; assumption|rewrite length_ins; cbn [length]; lia].
    unfold fillb. cbn [fold_left]. rewrite O1 by lia. reflexivity. }
  rewrite Q by (auto; intros ii; apply ord_lt; exact P). rewrite fillb_all by (rewrite ?LT; assumption). rewrite FT. reflexivity.
Qed.

Lemma lists_ok ordL ordG ord1 ord2 ord3 s : order ordL -> order ordG -> order ord1 -> order ord2 -> order ord3 ->
  exists v ii, no_mpi_lists rc mace_types l (ordL (inum l)) (ordG (inum l)) ord1 ord2 ord3 s =
    Some (length NI, E1, length (kpairs l rc NI) - E1, set_up l rc types NI (fun j => j), map (fun p => no_ix l rc (snd p)) (kpairs l rc B), v, ii).
Proof.
  intros O1 O2 O3 O4 O5. unfold no_mpi_lists. cbv zeta. rewrite ghost_indices_ok by auto. cbn [bind].
  pose proof (no_il_len l rc types L) as HL.
  assert (HN : inum l + length G = length NI) by (unfold no_nodes; rewrite app_length; lia). rewrite HN.
  assert (LB : inum l <= length NI) by lia.
  destruct (setup_ok l rc types A L mace_types HT NI (nodes_A l rc types L) (fun ii => if ii <? inum l then rd B ii else rd G (ii - inum l))) with (nbr := fun j : nat => Some (Some j)) (tgt := fun j : nat => j)
    (ord1 := ord1 (length NI)) (ord2 := ord2 (length NI)) (v := kpm_views s) as (v & ->); auto.
  { intros ii Hii. unfold no_nodes. destruct (Nat.ltb_spec ii (inum l)) as [H|H]; [rewrite app_nth1 by lia; apply rd_some; lia|].
    rewrite app_nth2 by lia. rewrite HL. apply rd_some. lia. }
  cbn [bind]. cbn [set_up kv_num_neigh kv_node_indices kv_neigh_indices].
  set (NN := map (fun i => length (kept rc l i)) NI).
  assert (RN : forall ii, ii < length NI -> rd NN ii = Some (length (kept rc l (nth ii NI 0)))).
  { intros ii Hii. unfold NN, rd. rewrite nth_error_map, (nth_error_nth' _ 0) by exact Hii. reflexivity. }
  assert (LK : forall ii, ii < length NI -> length (kpairs l rc (firstn (S ii) NI)) = length (kpairs l rc (firstn ii NI)) + length (kept rc l (nth ii NI 0))).
  { intros ii Hii. rewrite (kpairs_S l rc NI ii Hii), app_length, map_length. reflexivity. }
  assert (FB : firstn (length B) NI = B) by (unfold no_nodes; rewrite firstn_app, firstn_all, Nat.sub_diag; cbn [firstn]; rewrite app_nil_r; reflexivity).
  rewrite (for_trace (fun ii => length (kpairs l rc (firstn ii NI))) (inum l) _ 0 E1).
  2:{ reflexivity. }
  2:{ rewrite <- HL, FB. reflexivity. }
  2:{ intros ii Hii. rewrite RN by lia. cbn [bind]. rewrite LK by lia. reflexivity. }
  cbn [bind]. rewrite <- HL in *. set (n := length NI) in *.
  assert (EG : for_range (length B) n (fun ii e => c <- rd NN ii ;; Some (e + c)) 0 = Some (length (kpairs l rc NI) - E1)).
  { assert (Q : forall k, k <= n - length B -> for_from k (length B + (n - length B - k)) (fun ii e => c <- rd NN ii ;; Some (e + c)) 
        (length (kpairs l rc (firstn (length B + (n - length B - k)) NI)) - E1) = Some (length (kpairs l rc NI) - E1)).
    { induction k as [|k IH]; intros Hk; cbn [for_from].
      - rewrite Nat.sub_0_r. replace (length B + (n - length B)) with n by lia. unfold n. rewrite firstn_all. reflexivity.
      - set (q := length B + (n - length B - S k)) in *. rewrite RN by lia. cbn [bind].
        assert (Eq : length B + (n - length B - k) = S q) by lia. rewrite Eq in IH. rewrite LK in IH by lia.
        assert (LQ : E1 <= length (kpairs l rc (firstn q NI))).
        { replace q with (length B + (q - length B)) by lia. unfold no_nodes. rewrite firstn_app_2. unfold kpairs. rewrite flat_map_app', app_length. lia. }
        etransitivity; [|apply IH; lia]. f_equal. lia. }
    specialize (Q (n - length B) ltac:(lia)). rewrite Nat.sub_diag, Nat.add_0_r, FB, Nat.sub_diag in Q. exact Q. }
  rewrite EG. cbn [bind].
  rewrite <- (map_kpairs l rc (fun _ j => j)). unfold n. rewrite neigh_ii_ok by (auto using length_sub). cbn [bind]. eexists _, _. reflexivity.
Qed.
End No.
