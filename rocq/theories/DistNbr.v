(** The systems that the distributed modes of the pair style evaluate on one process. *)
From Coq Require Import List Arith ZArith Lia Bool Permutation.
From Verif Require Import Base BaseLemmas Segs MpModel MlpModel MaceModel Sys SysLoops MaceGrid MacePure MaceStages1 MaceStages2 MaceStages6
  MacePipe PairModel PairMpiModel PairSpec PairThms DistPipe.
Import ListNotations.

Section Rank.
Context {N : Num}.
Variable types : list nat.
Variable rc : N.
Variable l : lmp N.

(** one node for every atom of [B], one edge for every kept pair; [ix] is the index written for a neighbour *)
Definition nbr_edge (ix : nat -> nat) (i j : nat) : edge N :=
  mkEdge (spec_of types l j) (ix j) (sep (atom_x l) i j 0) (sep (atom_x l) i j 1) (sep (atom_x l) i j 2) (nsqrt (sep2 (atom_x l) i j)).
Definition sys_on (ix : nat -> nat) (B : list nat) : sys N :=
  map (fun i => mkNode (spec_of types l i) (map (nbr_edge ix i) (kept rc l i))) B.

Lemma all_edges_on ix B : all_edges (sys_on ix B) = map (fun p => nbr_edge ix (fst p) (snd p)) (kpairs l rc B).
Proof. unfold all_edges, sys_on. rewrite map_kpairs, flat_map_concat_map, map_map, <- flat_map_concat_map. reflexivity. Qed.
Lemma nt_on ix B : f_node_types (sys_on ix B) = map (spec_of types l) B.
Proof. unfold f_node_types, sys_on. rewrite map_map. reflexivity. Qed.
Lemma nn_on ix B : f_num_neigh (sys_on ix B) = map (fun i => length (kept rc l i)) B.
Proof. unfold f_num_neigh, sys_on. rewrite map_map. apply map_ext. intros i. cbn [n_edges]. apply map_length. Qed.
Lemma ix_on ix B : f_neigh_indices (sys_on ix B) = map (fun p => ix (snd p)) (kpairs l rc B).
Proof. unfold f_neigh_indices. rewrite all_edges_on, map_map. reflexivity. Qed.
Lemma et_on ix B : f_neigh_types (sys_on ix B) = map (fun p => spec_of types l (snd p)) (kpairs l rc B).
Proof. unfold f_neigh_types. rewrite all_edges_on, map_map. reflexivity. Qed.
Lemma r_on ix B : f_r (sys_on ix B) = map (fun p => nsqrt (sep2 (atom_x l) (fst p) (snd p))) (kpairs l rc B).
Proof. unfold f_r. rewrite all_edges_on, map_map. reflexivity. Qed.
Lemma xyz_on ix B : f_xyz (sys_on ix B) = flat_map (gx l) (kpairs l rc B).
Proof. unfold f_xyz. rewrite all_edges_on, flat_map_concat_map, map_map, <- flat_map_concat_map. reflexivity. Qed.
Lemma length_on ix B : length (sys_on ix B) = length B.
Proof. apply map_length. Qed.
Lemma nd_on ix B ii : ii < length B -> nd_ (sys_on ix B) ii = mkNode (spec_of types l (nth ii B 0)) (map (nbr_edge ix (nth ii B 0)) (kept rc l (nth ii B 0))).
Proof.
  intros H. unfold nd_, sys_on. apply nth_error_nth. rewrite nth_error_map, (nth_error_nth' _ 0) by exact H. reflexivity.
Qed.
Lemma ty_on ix B ii : ii < length B -> ty (sys_on ix B) ii = spec_of types l (nth ii B 0).
Proof. intros H. unfold ty. rewrite nd_on by exact H. reflexivity. Qed.
Lemma es_on ix B ii : ii < length B -> es (sys_on ix B) ii = map (nbr_edge ix (nth ii B 0)) (kept rc l (nth ii B 0)).
Proof. intros H. unfold es. rewrite nd_on by exact H. reflexivity. Qed.
End Rank.

Section Mpi.
Context {N : Num}.
Variable sph : nat -> N -> N -> N -> list N * list N.
Hypothesis Hsph : forall l x y z, length (fst (sph l x y z)) = (l + 1) * (l + 1) /\
  length (snd (sph l x y z)) = 3 * ((l + 1) * (l + 1)).
Variable m : mace_model N.
Variables (P0 P1 : nat -> @mpoly N).
Variable live : @mlp N -> Prop.
Hypothesis W : mace_wf m.
Hypothesis Wz : zbl_wf m.
Variable l : lmp N.
Variable rc : N.
Variable types : list nat.
Notation B := (ilist l).
Hypothesis L : lmp_ok (length types) B l.
Notation nall := (nlocal l + nghost l).
Notation s := (sys_on types rc l (fun j => j) B).
Hypothesis SW : sys_wf m s nall.
Notation K := (m_num_channels m).
Notation LMs := (num_LM m).

Definition begin_copy (mH1 : list N) (old : list N) : option (list N) :=
  for_ (inum l) (fun ii H1 =>
      i <- rd (ilist l) ii ;;
      for_ (LMs*K) (fun k H1 =>
        v <- rd mH1 (ii*LMs*K+k) ;;
        wr H1 (i*LMs*K+k) v) H1) (resize nzero old (nall*LMs*K)).

Lemma mpi_begin_eq b p : mpi_begin sph m rc types l b p =
  (b' <- begin_eval sph m (length B) (f_node_types s) (f_num_neigh s) (f_neigh_types s) (f_xyz s) (f_r s) b ;;
   H1 <- begin_copy (b_H1 b') (p_H1 p) ;;
   Some (b', mkPB (f_node_types s) (f_num_neigh s) (resize 0 (p_neigh_indices p) (length (kpairs l rc B))) (f_neigh_types s) (f_xyz s) (f_r s)
               B (f_neigh_indices s) (p_is_local p) (p_is_ghost p) (p_ghost_indices p) H1 (p_H1_adj p))).
Proof.
  pose proof (il_len l types L) as Hlen. unfold mpi_begin. rewrite (count_edges_ok l rc types B L) by auto. cbn [bind].
  rewrite <- (length_kpairs l rc).
  set (E := length (kpairs l rc B)).
  set (vni := resize 0 (p_node_i p) (inum l)). set (vnt := resize 0 (p_node_types p) (inum l)). set (vnn := resize 0 (p_num_neigh p) (inum l)).
  set (vj := resize 0 (p_neigh_j p) E). set (vt := resize 0 (p_neigh_types p) E).
  set (vxyz := resize nzero (p_xyz p) (3 * E)). set (vr := resize nzero (p_r p) E).
  assert (Lni : length vni = length B) by (unfold vni; rewrite length_resize; lia).
  assert (Lnt : length vnt = length B) by (unfold vnt; rewrite length_resize; lia).
  assert (Lnn : length vnn = length B) by (unfold vnn; rewrite length_resize; lia).
  assert (Lj : length vj = E) by apply length_resize.
  assert (Lt : length vt = E) by apply length_resize. assert (Lxyz : length vxyz = 3 * E) by apply length_resize.
  assert (Lr : length vr = E) by apply length_resize.
  set (g1 := fun q : nat * nat => snd q). 
  set (g3 := fun q : nat * nat => spec_of types l (snd q)). set (g4 := fun q : nat * nat => nsqrt (sep2 (atom_x l) (fst q) (snd q))).
  rewrite (for_trace (fun ii => (sf vni (firstn ii B), sf vnt (map (spec_of types l) (firstn ii B)), sf vnn (map (fun i => length (kept rc l i)) (firstn ii B)),
     sf vj (map g1 (kpairs l rc (firstn ii B))), sf vt (map g3 (kpairs l rc (firstn ii B))),
     sf vxyz (flat_map (gx l) (kpairs l rc (firstn ii B))), sf vr (map g4 (kpairs l rc (firstn ii B))), length (kpairs l rc (firstn ii B))))
     (inum l) _ _ _ eq_refl eq_refl).
  - cbn [bind]. rewrite <- Hlen, firstn_all. rewrite !sf_full by (rewrite ?map_length, ?length_gx; fold E; lia).
    rewrite <- (nt_on types rc l (fun j => j)), <- (nn_on types rc l (fun j => j)), <- (et_on types rc l (fun j => j) B : _ = map g3 _), <- (r_on types rc l (fun j => j) B : _ = map g4 _), 
      <- (xyz_on types rc l (fun j => j)), <- (ix_on types rc l (fun j => j) B : _ = map g1 _).
    unfold begin_eval, begin_copy. cbv zeta.
    destruct (if m_has_zbl m then _ else _) as [[? ?]|]; cbn [bind]; [|reflexivity].
    destruct (compute_Y _ _ _ _ _ _) as [[[? ?] ?]|]; cbn [bind]; [|reflexivity].
    destruct (compute_R0 _ _ _ _ _ _ _ _) as [[? ?]|]; cbn [bind]; [|reflexivity].
    destruct (compute_A0 _ _ _ _ _ _ _ _) as [?|]; cbn [bind]; [|reflexivity].
    destruct (compute_A0_scaled _ _ _ _ _ _ _) as [?|]; cbn [bind]; [|reflexivity].
    destruct (compute_M0 _ _ _ _ _ _ _) as [[[? ?] ?]|]; cbn [bind]; [|reflexivity].
    destruct (compute_H1 _ _ _ _) as [?|]; cbn [bind b_H1]; [|reflexivity]. rewrite <- Hlen. reflexivity.
  - intros ii Hii. assert (Hii' : ii < length B) by lia. set (i := nth ii B 0). assert (Hi : In i B) by (apply nth_In; exact Hii').
    assert (HiL : i < nlocal l) by (apply (il_in l types L); exact Hi).
    rewrite (rd_some _ _ 0) by exact Hii'. fold i. cbn [bind].
    assert (F1 : forall C (g : nat -> C), length (map g (firstn ii B)) = ii) by (intros; rewrite map_length, firstn_length; lia).
    assert (F2 : length (firstn ii B) = ii) by (rewrite firstn_length; lia).
    rewrite wr_sf by lia. cbn [bind]. destruct (type_step l types B L i) as (t & T1 & T2 & T3); [lia|]. rewrite T1. cbn [bind]. rewrite T2, T3. cbn [bind].
    rewrite wr_sf by (rewrite ?F1; lia). cbn [bind].
    destruct (atom_step l types B L i Hi) as (E1 & E2 & E3 & E4 & E5). rewrite E3, E4, E5. cbn [bind]. rewrite E2. cbn [bind].
    rewrite wr_sf by (rewrite ?F1; lia). cbn [bind]. rewrite E1. cbn [bind].
    set (D := kpairs l rc (firstn ii B)). set (LN := map (fun i => length (kept rc l i)) (firstn ii B)).
    rewrite (for_trace (fun jj => let D' := D ++ map (pair i) (kept_to l rc i jj) in (sf vnn (LN ++ [length (kept_to l rc i jj)]), sf vj (map g1 D'), sf vt (map g3 D'),
      sf vxyz (flat_map (gx l) D'), sf vr (map g4 D'), length D')) _ _ _ (sf vnn (LN ++ [length (kept rc l i)]), sf vj (map g1 (D ++ map (pair i) (kept rc l i))),
      sf vt (map g3 (D ++ map (pair i) (kept rc l i))), sf vxyz (flat_map (gx l) (D ++ map (pair i) (kept rc l i))),
      sf vr (map g4 (D ++ map (pair i) (kept rc l i))), length (D ++ map (pair i) (kept rc l i)))).
    + cbn [bind]. rewrite (firstn_map_S (spec_of types l) B ii Hii'), (firstn_map_S (fun i => length (kept rc l i)) B ii Hii'), (kpairs_S l rc B ii Hii').
      rewrite <- (map_id (firstn (S ii) B)), (firstn_map_S (fun i => i) B ii Hii'), map_id. reflexivity.
    + unfold kept_to. cbn [firstn filter map length]. cbv zeta. rewrite app_nil_r. reflexivity.
    + cbv zeta. rewrite (kept_all l rc types B L i Hi). reflexivity.
    + intros jj Hjj. cbv zeta. destruct (nbr_step l rc types B L i jj Hi Hjj) as (jz & j & G1 & G2 & G3 & G4 & G5 & G6 & G7).
      pose proof (kpairs_le l rc types B L B ii jj Hi Hii' Hjj) as Hle. fold i D E in Hle.
      rewrite G1. cbn [bind]. rewrite G2, G4, G5, G6. cbn [bind]. rewrite sep2_eq. rewrite G7 in Hle |- *. 
      destruct (nltb (sep2 (atom_x l) i j) (nmul rc rc)).
      * rewrite app_length in Hle. cbn [length] in Hle. set (D' := D ++ map (pair i) (kept_to l rc i jj)).
        assert (LD : length D' = length D + length (kept_to l rc i jj)) by (unfold D'; rewrite app_length, map_length; reflexivity).
        assert (ED : D ++ map (pair i) (kept_to l rc i jj ++ [j]) = D' ++ [(i, j)]) by (unfold D'; rewrite map_app, app_assoc; reflexivity).
        rewrite ED.
        rewrite rd_sf by (unfold LN; rewrite F1; reflexivity). cbn [bind]. rewrite wr_sf_last by (unfold LN; rewrite ?F1; lia). cbn [bind].
        rewrite wr_sf by (rewrite map_length; lia). cbn [bind].
        destruct (type_step l types B L j G3) as (u & U1 & U2 & U3). rewrite U1. cbn [bind]. rewrite U2, U3. cbn [bind].
        rewrite wr_sf by (rewrite map_length; lia). cbn [bind].
        rewrite wr_sf by (rewrite length_gx; lia). cbn [bind].
        rewrite wr_sf by (rewrite app_length, length_gx; cbn [length]; lia). cbn [bind].
        rewrite wr_sf by (rewrite !app_length, length_gx; cbn [length]; lia). cbn [bind].
        rewrite wr_sf by (rewrite map_length; lia). cbn [bind].
        rewrite !map_app, flat_map_app', !app_length. cbn [map length flat_map app]. rewrite <- !app_assoc. reflexivity.
      * rewrite app_nil_r. reflexivity.
Qed.

(** the features of the local atoms are put in front of those of the ghosts *)
Lemma begin_copy_ok old H : B = seq 0 (nlocal l) -> exists h, begin_copy (cube (length B) LMs K H) old = Some h /\
  length h = nall * (LMs * K) /\ nread (length B) h LMs K H.
Proof.
  intros HB. pose proof (il_len l types L) as Hlen. unfold begin_copy. set (w := LMs * K). set (c := cube (length B) LMs K H).
  assert (Lc : length c = length B * w) by (apply length_cube).
  assert (HBn : length B = nlocal l) by (rewrite HB; apply seq_length).
  assert (L0 : length (resize nzero old (nall*LMs*K)) = nall * w) by (rewrite length_resize; unfold w; lia).
  set (v0 := resize nzero old (nall*LMs*K)) in *.
  exists (sf v0 c). split; [|split].
  - rewrite <- Hlen. apply (for_trace (fun ii => sf v0 (firstn (ii * w) c))).
    + reflexivity.
    + f_equal. symmetry. apply firstn_all2. lia.
    + intros ii Hii. rewrite (rd_some _ _ 0) by lia. cbn [bind]. 
      replace (nth ii B 0) with ii by (rewrite HB, seq_nth by lia; reflexivity).
      apply (for_trace (fun k => sf v0 (firstn (ii * w + k) c))).
      * f_equal. f_equal. lia.
      * f_equal. f_equal. lia.
      * intros k Hk. fold w in Hk. assert (ii * w + k < length c) by nia.
        replace (ii * LMs * K + k) with (ii * w + k) by (unfold w; lia). rewrite (rd_some c (ii * w + k) nzero) by assumption. cbn [bind].
        replace (ii * w + S k) with (S (ii * w + k)) by lia. rewrite (firstn_S_nth c _ (nth (ii * w + k) c nzero)) by (apply nth_error_nth'; assumption).
        apply wr_sf; rewrite firstn_length; nia.
  - rewrite length_sf; [unfold w in *; lia|]. nia.
  - intros i b j k Hi Hb Hj ->. pose proof (rd_cube (length B) LMs K H i b j _ eq_refl Hi Hb Hj) as E. fold c in E. unfold rd in E |- *.
    unfold sf. rewrite nth_error_app1; [exact E|]. apply nth_error_Some. rewrite E. discriminate.
Qed.

Lemma mpi_begin_ok b p : B = seq 0 (nlocal l) -> bufs_live m P0 P1 live b -> exists b' p',
  mpi_begin sph m rc types l b p = Some (b', p') /\ begun sph m P0 P1 live s b' p' (tab (length s) (zE m s)) (eb s 3 (zF m s)) /\
  p_node_i p' = B /\ length (p_H1 p') = nall * (LMs * K) /\ nread (length s) (p_H1 p') LMs K (pH1 sph m P0 s).
Proof.
  intros HB Lb. rewrite mpi_begin_eq. replace (length B) with (length s) by apply length_on.
  destruct (begin_eval_ok sph Hsph m P0 P1 live s W Wz nall SW b Lb) as (b' & E1 & E2 & E3). rewrite E1. cbn [bind].
  rewrite E2, length_on. destruct (begin_copy_ok (p_H1 p) (pH1 sph m P0 s) HB) as (h & E4 & E5 & E6). rewrite E4. cbn [bind].
  eexists b', _. split; [reflexivity|]. split; [rewrite <- (length_on types rc l (fun j => j) B); apply E3; reflexivity|]. split; [reflexivity|]. split; assumption.
Qed.
End Mpi.
