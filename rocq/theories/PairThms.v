(** The LAMMPS pair style hands the system [nd_input] to the evaluator. *)
From Coq Require Import List Arith ZArith Lia Bool Permutation.
From Verif Require Import Base BaseLemmas MaceModel MaceSpec PairModel PairSpec.
Import ListNotations.

(** ** vectors that are filled from left to right: [L] has been written, the rest is old *)
Definition sf {A} (v L : list A) : list A := L ++ skipn (length L) v.
Lemma sf_nil {A} (v : list A) : sf v [] = v.
Proof. reflexivity. Qed.
Lemma sf_full {A} (v L : list A) : length L = length v -> sf v L = L.
Proof. intros H. unfold sf. rewrite H, skipn_all. apply app_nil_r. Qed.
Lemma length_sf {A} (v L : list A) : length L <= length v -> length (sf v L) = length v.
Proof. intros H. unfold sf. rewrite app_length, skipn_length. lia. Qed.
Lemma skipn_cons {A} (v : list A) k : k < length v -> exists a, skipn k v = a :: skipn (S k) v.
Proof.
  revert k. induction v as [|a v IH]; intros k H; [simpl in H; lia|]. destruct k; [exists a; reflexivity|].
  simpl in H. destruct (IH k) as (b & Hb); [lia|]. exists b. exact Hb.
Qed.
Lemma wr_sf {A} (v L : list A) k x : k = length L -> length L < length v -> wr (sf v L) k x = Some (sf v (L ++ [x])).
Proof.
  intros -> H. rewrite wr_some by (rewrite length_sf; lia). f_equal. unfold sf. rewrite app_length. cbn [length].
  destruct (skipn_cons v (length L) H) as (a & Ha). rewrite Ha. replace (length L + 1) with (S (length L)) by lia.
  generalize (skipn (S (length L)) v) as w. clear. induction L as [|b L IH]; intros w; [reflexivity|]. cbn [app length upd]. f_equal. apply IH.
Qed.
Lemma rd_sf {A} (v L : list A) k x : k = length L -> rd (sf v (L ++ [x])) k = Some x.
Proof. intros ->. unfold sf. rewrite <- app_assoc. unfold rd. rewrite nth_error_app2, Nat.sub_diag by lia. reflexivity. Qed.
Lemma wr_sf_last {A} (v L : list A) k x y : k = length L -> length L < length v -> wr (sf v (L ++ [x])) k y = Some (sf v (L ++ [y])).
Proof.
  intros -> H. rewrite wr_some by (rewrite length_sf; rewrite ?app_length; simpl; lia). f_equal. unfold sf. rewrite !app_length. cbn [length].
  generalize (skipn (length L + 1) v) as w. clear. induction L as [|b L IH]; intros w; [reflexivity|]. cbn [app length upd]. f_equal. apply IH.
Qed.

(** ** kept neighbours seen by position [jj] of the list *)
Lemma neighmask_mod z : neighmask z = Z.to_nat (z mod 2 ^ 29).
Proof. unfold neighmask. change 536870911%Z with (Z.ones 29). rewrite Z.land_ones by lia. reflexivity. Qed.

Lemma nth_firstn_lt {A} (v : list A) k j d : j < k -> nth j (firstn k v) d = nth j v d.
Proof. revert k j. induction v as [|a v IH]; intros [|k] [|j] H; try reflexivity; try lia. cbn. apply IH. lia. Qed.
Lemma umap_get_app_not mp1 mp2 k : ~ In k (map fst mp1) -> umap_get (mp1 ++ mp2) k = umap_get mp2 k.
Proof.
  induction mp1 as [|[a v] mp1 IH]; intros H; [reflexivity|]. cbn [umap_get app map fst] in *. destruct (Nat.eqb_spec a k); [exfalso; apply H; left; auto|].
  apply IH. intros C. apply H. right. exact C.
Qed.

Section Generic.
Context {N : Num}.
Variable l : lmp N.
Variable rc : N.
Variable types : list nat.
Variable A : list nat.
Hypothesis L : lmp_ok (length types) A l.
Notation nall := (nlocal l + nghost l).
Local Notation acc i := (fun j => nltb (sep2 (atom_x l) i j) (nmul rc rc)).

Definition kept_to (i jj : nat) : list nat := filter (acc i) (firstn jj (listed l i)).

Lemma length_listed i : In i A -> length (listed l i) = nth i (numneigh l) 0.
Proof. intros H. unfold listed. rewrite map_length, firstn_length. destruct (lo_A _ _ _ L i H) as (_ & _ & _ & H4 & _). lia. Qed.
Lemma kept_all i : In i A -> kept_to i (nth i (numneigh l) 0) = kept rc l i.
Proof. intros H. unfold kept_to, kept. rewrite <- length_listed by exact H. rewrite firstn_all. reflexivity. Qed.

(** one step of the neighbour loop: the masked entry, its coordinates, and whether it is kept *)
Lemma nbr_step i jj : In i A -> jj < nth i (numneigh l) 0 -> exists jz j,
  rd (nth i (firstneigh l) []) jj = Some jz /\ neighmask jz = j /\ j < nall /\
  rd (atom_x l) (3*j) = Some (nth (3*j+0) (atom_x l) nzero) /\ rd (atom_x l) (3*j+1) = Some (nth (3*j+1) (atom_x l) nzero) /\
  rd (atom_x l) (3*j+2) = Some (nth (3*j+2) (atom_x l) nzero) /\
  kept_to i (S jj) = kept_to i jj ++ (if acc i j then [j] else []).
Proof.
  intros Hi Hj. destruct (lo_A _ _ _ L i Hi) as (_ & _ & _ & H4 & H5).
  set (jz := nth jj (nth i (firstneigh l) []) 0%Z). set (j := neighmask jz). exists jz, j.
  assert (Ej : nth_error (listed l i) jj = Some j).
  { unfold listed. rewrite nth_error_map. rewrite nth_error_nth' with (d := 0%Z) by (rewrite firstn_length; lia). cbn [option_map].
    f_equal. unfold j, jz. rewrite neighmask_mod, nth_firstn_lt by exact Hj. reflexivity. }
  assert (Hjn : j < nall) by (apply H5; apply nth_error_In in Ej; exact Ej). pose proof (lo_x _ _ _ L) as Lx.
  split; [apply rd_some; lia|]. split; [reflexivity|]. split; [exact Hjn|].
  split; [rewrite Nat.add_0_r; apply rd_some; lia|]. split; [apply rd_some; lia|]. split; [apply rd_some; lia|].
  unfold kept_to. rewrite (firstn_S_nth _ _ j Ej), filter_app. reflexivity.
Qed.

Lemma atom_step i : In i A -> rd (numneigh l) i = Some (nth i (numneigh l) 0) /\ rd (firstneigh l) i = Some (nth i (firstneigh l) []) /\
  rd (atom_x l) (3*i) = Some (nth (3*i+0) (atom_x l) nzero) /\ rd (atom_x l) (3*i+1) = Some (nth (3*i+1) (atom_x l) nzero) /\
  rd (atom_x l) (3*i+2) = Some (nth (3*i+2) (atom_x l) nzero).
Proof.
  intros Hi. destruct (lo_A _ _ _ L i Hi) as (H1 & H2 & H3 & _). pose proof (lo_x _ _ _ L) as Lx.
  repeat split; try (rewrite Nat.add_0_r); apply rd_some; lia.
Qed.

Lemma type_step i : i < nall -> exists t, rd (atom_type l) i = Some t /\ (1 <=? t) = true /\ rd types (t - 1) = Some (spec_of types l i).
Proof.
  intros Hi. pose proof (lo_type _ _ _ L) as Lt. exists (nth i (atom_type l) 0). split; [apply rd_some; lia|].
  assert (Ht : 1 <= nth i (atom_type l) 0 <= length types) by (apply (lo_types _ _ _ L); apply nth_In; lia).
  split; [apply Nat.leb_le; lia|]. unfold spec_of. apply rd_some. lia.
Qed.

Lemma sep2_eq i j : (nadd (nadd (nmul (nsub (nth (3*j+0) (atom_x l) nzero) (nth (3*i+0) (atom_x l) nzero)) (nsub (nth (3*j+0) (atom_x l) nzero) (nth (3*i+0) (atom_x l) nzero)))
   (nmul (nsub (nth (3*j+1) (atom_x l) nzero) (nth (3*i+1) (atom_x l) nzero)) (nsub (nth (3*j+1) (atom_x l) nzero) (nth (3*i+1) (atom_x l) nzero))))
   (nmul (nsub (nth (3*j+2) (atom_x l) nzero) (nth (3*i+2) (atom_x l) nzero)) (nsub (nth (3*j+2) (atom_x l) nzero) (nth (3*i+2) (atom_x l) nzero)))) = sep2 (atom_x l) i j.
Proof. reflexivity. Qed.

Lemma rd_ilist ii : ii < length (ilist l) -> rd (ilist l) ii = Some (nth ii (ilist l) 0).
Proof. apply rd_some. Qed.

Lemma count_edges_ok : (forall i, In i (ilist l) -> In i A) ->
  count_edges l (nmul rc rc) = Some (length (flat_map (kept rc l) (ilist l))).
Proof.
  intros HA. destruct (lo_il _ _ _ L) as [Hn HP]. assert (Hlen : length (ilist l) = inum l) by (rewrite Hn, (Permutation_length HP), seq_length; reflexivity).
  unfold count_edges. apply (for_trace (fun ii => length (flat_map (kept rc l) (firstn ii (ilist l))))).
  - reflexivity.
  - rewrite <- Hlen, firstn_all. reflexivity.
  - intros ii Hii. rewrite rd_ilist by lia. set (i := nth ii (ilist l) 0). assert (Hi : In i A) by (apply HA; apply nth_In; lia). cbn [bind].
    destruct (atom_step i Hi) as (E1 & E2 & E3 & E4 & E5). rewrite E3, E4, E5. cbn [bind]. rewrite E2. cbn [bind]. rewrite E1. cbn [bind].
    rewrite (firstn_S_nth _ _ i) by (apply nth_error_nth'; lia). rewrite flat_map_app', app_length. cbn [flat_map]. rewrite app_nil_r.
    set (o := length (flat_map (kept rc l) (firstn ii (ilist l)))).
    apply (for_trace (fun jj => o + length (kept_to i jj))).
    + unfold kept_to. cbn. lia.
    + rewrite kept_all by exact Hi. reflexivity.
    + intros jj Hjj. destruct (nbr_step i jj Hi Hjj) as (jz & j & F1 & F2 & F3 & F4 & F5 & F6 & F7). rewrite F1. cbn [bind]. rewrite F2.
      rewrite F4, F5, F6. cbn [bind]. cbv zeta. rewrite sep2_eq, F7, app_length. destruct (nltb _ _); cbn [length]; f_equal; lia.
Qed.

(** ** positions in the list of atoms *)
Definition um (B : list nat) (k : nat) : umap := rev (map (fun ii => (nth ii B 0, ii)) (seq 0 k)).
Lemma um_S B k : um B (S k) = (nth k B 0, k) :: um B k.
Proof. unfold um. rewrite seq_S, map_app, rev_app_distr. reflexivity. Qed.
Lemma um_get B k p : NoDup B -> k <= length B -> p < k -> umap_get (um B k) (nth p B 0) = p.
Proof.
  intros ND. induction k as [|k IH]; intros Hk Hp; [lia|]. rewrite um_S. cbn [umap_get].
  destruct (Nat.eqb_spec (nth k B 0) (nth p B 0)) as [E|E].
  - rewrite NoDup_nth in ND. apply ND in E; lia.
  - apply IH; [lia|]. destruct (Nat.eq_dec p k); [subst; congruence|lia].
Qed.
Lemma position_nth B p : NoDup B -> p < length B -> position (nth p B 0) B = p.
Proof.
  revert p. induction B as [|b B IH]; intros p ND Hp; [simpl in Hp; lia|]. inversion ND as [|? ? N1 N2]; subst. cbn [position].
  destruct p as [|p]; cbn [nth]; [rewrite Nat.eqb_refl; reflexivity|]. simpl in Hp. destruct (Nat.eqb_spec (nth p B 0) b) as [E|E].
  - exfalso. apply N1. rewrite <- E. apply nth_In. lia.
  - rewrite IH; [reflexivity|exact N2|lia].
Qed.
Lemma um_position B a : NoDup B -> In a B -> umap_get (um B (length B)) a = position a B.
Proof. intros ND H. destruct (In_nth _ _ 0 H) as (p & Hp & <-). rewrite um_get, position_nth by auto. reflexivity. Qed.
Lemma position_lt a B : In a B -> position a B < length B.
Proof.
  induction B as [|b B IH]; intros H; [destruct H|]. cbn [position length]. destruct (Nat.eqb_spec a b); [lia|].
  destruct H as [E|H]; [congruence|]. apply IH in H. lia.
Qed.

(** ** pairs in the order of evaluation *)
Definition kpairs (B : list nat) : list (nat * nat) := flat_map (fun i => map (pair i) (kept rc l i)) B.
Lemma length_kpairs B : length (kpairs B) = length (flat_map (kept rc l) B).
Proof. unfold kpairs. induction B as [|i B IH]; [reflexivity|]. cbn [flat_map]. rewrite !app_length, map_length, IH. reflexivity. Qed.
Lemma map_kpairs {C} (g : nat -> nat -> C) B : map (fun p => g (fst p) (snd p)) (kpairs B) = flat_map (fun i => map (g i) (kept rc l i)) B.
Proof. unfold kpairs. induction B as [|i B IH]; [reflexivity|]. cbn [flat_map]. rewrite map_app, IH, map_map. reflexivity. Qed.
Lemma flat_kpairs {C} (g : nat -> nat -> list C) B :
  flat_map (fun p => g (fst p) (snd p)) (kpairs B) = flat_map (fun i => flat_map (g i) (kept rc l i)) B.
Proof.
  unfold kpairs. induction B as [|i B IH]; [reflexivity|]. cbn [flat_map]. rewrite flat_map_app', IH. f_equal.
  generalize (kept rc l i) as k. clear. induction k as [|j k IH]; [reflexivity|]. cbn. rewrite IH. reflexivity.
Qed.
Lemma kpairs_S B ii : ii < length B ->
  kpairs (firstn (S ii) B) = kpairs (firstn ii B) ++ map (pair (nth ii B 0)) (kept rc l (nth ii B 0)).
Proof.
  intros H. rewrite (firstn_S_nth _ _ (nth ii B 0)) by (apply nth_error_nth'; lia). unfold kpairs. rewrite flat_map_app'. cbn [flat_map].
  rewrite app_nil_r. reflexivity.
Qed.
Lemma kpairs_le B ii jj : In (nth ii B 0) A -> ii < length B -> jj < nth (nth ii B 0) (numneigh l) 0 ->
  length (kpairs (firstn ii B)) + length (kept_to (nth ii B 0) (S jj)) <= length (kpairs B).
Proof.
  intros Hi Hii Hjj. set (i := nth ii B 0) in *.
  assert (E : length (kept_to i (S jj)) <= length (kept rc l i)).
  { rewrite <- (kept_all i Hi). unfold kept_to. rewrite <- (firstn_skipn (S jj) (firstn (nth i (numneigh l) 0) (listed l i))).
    rewrite firstn_firstn, filter_app, app_length, Nat.min_l by lia. lia. }
  assert (G : kpairs B = kpairs (firstn (S ii) B) ++ kpairs (skipn (S ii) B)).
  { unfold kpairs. rewrite <- flat_map_app', firstn_skipn. reflexivity. }
  rewrite G, kpairs_S by exact Hii. rewrite !app_length, map_length. fold i. lia.
Qed.
Lemma firstn_map_S {C} (g : nat -> C) B ii : ii < length B -> map g (firstn (S ii) B) = map g (firstn ii B) ++ [g (nth ii B 0)].
Proof. intros H. rewrite (firstn_S_nth _ _ (nth ii B 0)) by (apply nth_error_nth'; lia). apply map_app. Qed.
Lemma map_app1 {C D} (g : C -> D) L1 x : map g L1 ++ [g x] = map g (L1 ++ [x]).
Proof. rewrite map_app. reflexivity. Qed.

Notation tx := (atom_x l).
Definition gx (p : nat * nat) : list N := [sep tx (fst p) (snd p) 0; sep tx (fst p) (snd p) 1; sep tx (fst p) (snd p) 2].
Lemma length_gx D : length (flat_map gx D) = 3 * length D.
Proof. rewrite length_flat_map_const with (c := 3) by reflexivity. lia. Qed.
End Generic.

Section NoDomain.
Context {N : Num}.
Variable l : lmp N.
Variable rc : N.
Variable types : list nat.
Notation B := (ilist l).
Hypothesis L : lmp_ok (length types) B l.
Variable owner : nat -> nat.
Hypothesis O : owner_ok owner l.
Notation nall := (nlocal l + nghost l).

Lemma il_len : length B = inum l.
Proof. destruct (lo_il _ _ _ L) as [Hn HP]. rewrite Hn, (Permutation_length HP), seq_length. reflexivity. Qed.
Lemma il_nodup : NoDup B.
Proof. destruct (lo_il _ _ _ L) as [Hn HP]. eapply Permutation_NoDup; [symmetry; exact HP|apply seq_NoDup]. Qed.
Lemma il_in i : In i B <-> i < nlocal l.
Proof.
  destruct (lo_il _ _ _ L) as [Hn HP]. split; intros H.
  - apply (Permutation_in _ HP) in H. apply in_seq in H. lia.
  - apply (Permutation_in _ (Permutation_sym HP)). apply in_seq. lia.
Qed.

Lemma nd_ok sph m fl b p a : compute_no_domain_decomposition sph m rc types fl l b p a =
  (let x := nd_input types rc owner l in
   b' <- call sph m b x ;;
   a' <- tally fl (i_num_nodes x) (i_num_nodes x) B (i_num_neigh x) (flat_map (fun i => map owner (kept rc l i)) B)
           (i_xyz x) (b_node_energies b') (b_node_forces b') a ;;
   Some (b', mkPB (i_node_types x) (i_num_neigh x) (i_neigh_indices x) (i_neigh_types x) (i_xyz x) (i_r x) B
       (flat_map (fun i => map owner (kept rc l i)) B) (p_is_local p) (p_is_ghost p) (p_ghost_indices p) (p_H1 p) (p_H1_adj p), a')).
Proof.
  pose proof il_len as Hlen. unfold compute_no_domain_decomposition. rewrite (count_edges_ok l rc types B L) by auto. cbn [bind].
  rewrite <- (length_kpairs l rc).
  assert (EU : for_ (inum l) (fun ii mp => i <- rd (ilist l) ii ;; Some ((i, ii) :: mp)) ([] : umap) = Some (um B (length B))).
  { rewrite Hlen. apply (for_trace (um B)); [reflexivity|reflexivity|]. intros ii Hii. rewrite (rd_some _ _ 0) by lia. cbn [bind]. rewrite um_S. reflexivity. }
  rewrite EU. cbn [bind].
  set (E := length (kpairs l rc B)).
  set (vni := resize 0 (p_node_i p) (inum l)). set (vnt := resize 0 (p_node_types p) (inum l)). set (vnn := resize 0 (p_num_neigh p) (inum l)).
  set (vj := resize 0 (p_neigh_j p) E). set (vx := resize 0 (p_neigh_indices p) E). set (vt := resize 0 (p_neigh_types p) E).
  set (vxyz := resize nzero (p_xyz p) (3 * E)). set (vr := resize nzero (p_r p) E).
  assert (Lni : length vni = length B) by (unfold vni; rewrite length_resize; lia).
  assert (Lnt : length vnt = length B) by (unfold vnt; rewrite length_resize; lia).
  assert (Lnn : length vnn = length B) by (unfold vnn; rewrite length_resize; lia).
  assert (Lj : length vj = E) by apply length_resize. assert (Lx : length vx = E) by apply length_resize.
  assert (Lt : length vt = E) by apply length_resize. assert (Lxyz : length vxyz = 3 * E) by apply length_resize.
  assert (Lr : length vr = E) by apply length_resize.
  set (g1 := fun q : nat * nat => owner (snd q)). set (g2 := fun q : nat * nat => position (owner (snd q)) B).
  set (g3 := fun q : nat * nat => spec_of types l (snd q)). set (g4 := fun q : nat * nat => nsqrt (sep2 (atom_x l) (fst q) (snd q))).
  rewrite (for_trace (fun ii => (sf vni (firstn ii B), sf vnt (map (spec_of types l) (firstn ii B)), sf vnn (map (fun i => length (kept rc l i)) (firstn ii B)),
     sf vj (map g1 (kpairs l rc (firstn ii B))), sf vx (map g2 (kpairs l rc (firstn ii B))), sf vt (map g3 (kpairs l rc (firstn ii B))),
     sf vxyz (flat_map (gx l) (kpairs l rc (firstn ii B))), sf vr (map g4 (kpairs l rc (firstn ii B))), length (kpairs l rc (firstn ii B))))
     (inum l) _ _ _ eq_refl eq_refl).
  - cbn [bind]. rewrite <- Hlen, firstn_all. rewrite !sf_full by (rewrite ?map_length, ?length_gx; fold E; lia).
    unfold call, nd_input. cbn [i_num_nodes i_node_types i_num_neigh i_neigh_indices i_neigh_types i_xyz i_r].
    rewrite <- (map_kpairs l rc (fun _ j => owner j)), <- (map_kpairs l rc (fun _ j => position (owner j) B)), <- (map_kpairs l rc (fun _ j => spec_of types l j)),
      <- (map_kpairs l rc (fun i j => nsqrt (sep2 (atom_x l) i j))), <- (flat_kpairs l rc (fun i j => [sep (atom_x l) i j 0; sep (atom_x l) i j 1; sep (atom_x l) i j 2])).
    reflexivity.
  - intros ii Hii. assert (Hii' : ii < length B) by lia. set (i := nth ii B 0). assert (Hi : In i B) by (apply nth_In; exact Hii').
    assert (HiL : i < nlocal l) by (apply il_in; exact Hi).
    rewrite (rd_some _ _ 0) by exact Hii'. fold i. cbn [bind].
    assert (F1 : forall C (g : nat -> C), length (map g (firstn ii B)) = ii) by (intros; rewrite map_length, firstn_length; lia).
    assert (F2 : length (firstn ii B) = ii) by (rewrite firstn_length; lia).
    rewrite wr_sf by lia. cbn [bind]. destruct (type_step l types B L i) as (t & T1 & T2 & T3); [lia|]. rewrite T1. cbn [bind]. rewrite T2, T3. cbn [bind].
    rewrite wr_sf by (rewrite ?F1; lia). cbn [bind].
    destruct (atom_step l types B L i Hi) as (E1 & E2 & E3 & E4 & E5). rewrite E3, E4, E5. cbn [bind]. rewrite E2. cbn [bind].
    rewrite wr_sf by (rewrite ?F1; lia). cbn [bind]. rewrite E1. cbn [bind].
    set (D := kpairs l rc (firstn ii B)). set (LN := map (fun i => length (kept rc l i)) (firstn ii B)).
    rewrite (for_trace (fun jj => let D' := D ++ map (pair i) (kept_to l rc i jj) in (sf vnn (LN ++ [length (kept_to l rc i jj)]), sf vj (map g1 D'), sf vx (map g2 D'), sf vt (map g3 D'),
      sf vxyz (flat_map (gx l) D'), sf vr (map g4 D'), length D')) _ _ _ (sf vnn (LN ++ [length (kept rc l i)]), sf vj (map g1 (D ++ map (pair i) (kept rc l i))),
      sf vx (map g2 (D ++ map (pair i) (kept rc l i))), sf vt (map g3 (D ++ map (pair i) (kept rc l i))), sf vxyz (flat_map (gx l) (D ++ map (pair i) (kept rc l i))),
      sf vr (map g4 (D ++ map (pair i) (kept rc l i))), length (D ++ map (pair i) (kept rc l i)))).
    + cbn [bind]. rewrite (firstn_map_S (spec_of types l) B ii Hii'), (firstn_map_S (fun i => length (kept rc l i)) B ii Hii'), (kpairs_S l rc B ii Hii').
      rewrite <- (map_id (firstn (S ii) B)), (firstn_map_S (fun i => i) B ii Hii'), map_id. reflexivity.
    + unfold kept_to. cbn [firstn filter map length]. cbv zeta. rewrite app_nil_r. reflexivity.
    + cbv zeta. rewrite (kept_all l rc types B L i Hi). reflexivity.
    + intros jj Hjj. cbv zeta. destruct (nbr_step l rc types B L i jj Hi Hjj) as (jz & j & G1 & G2 & G3 & G4 & G5 & G6 & G7).
      pose proof (kpairs_le l rc types B L B ii jj Hi Hii' Hjj) as Hle. fold i D E in Hle.
      rewrite G1. cbn [bind]. rewrite G2, G4, G5, G6. cbn [bind]. rewrite sep2_eq. rewrite G7 in Hle |- *. 
      destruct (nltb (sep2 (atom_x l) i j) (nmul rc rc)).
      * rewrite app_length in Hle. cbn [length] in Hle. set (D' := D ++ map (pair i) (kept_to l rc i jj)).
        assert (LD : length D' = length D + length (kept_to l rc i jj)) by (unfold D'; rewrite app_length, map_length; reflexivity).
        assert (ED : D ++ map (pair i) (kept_to l rc i jj ++ [j]) = D' ++ [(i, j)]) by (unfold D'; rewrite map_app, app_assoc; reflexivity).
        rewrite ED.
        rewrite rd_sf by (unfold LN; rewrite F1; reflexivity). cbn [bind]. rewrite wr_sf_last by (unfold LN; rewrite ?F1; lia). cbn [bind].
        rewrite (rd_some (atom_tag l) j 0) by (rewrite (oo_tag _ _ O); exact G3). cbn [bind]. rewrite (oo_map _ _ O j G3). cbn [bind].
        rewrite wr_sf by (rewrite map_length; lia). cbn [bind].
        rewrite um_position by (try apply il_nodup; apply il_in; apply (oo_lt _ _ O j G3)).
        rewrite wr_sf by (rewrite map_length; lia). cbn [bind].
        destruct (type_step l types B L j G3) as (u & U1 & U2 & U3). rewrite U1. cbn [bind]. rewrite U2, U3. cbn [bind].
        rewrite wr_sf by (rewrite map_length; lia). cbn [bind].
        rewrite wr_sf by (rewrite length_gx; lia). cbn [bind].
        rewrite wr_sf by (rewrite app_length, length_gx; cbn [length]; lia). cbn [bind].
        rewrite wr_sf by (rewrite !app_length, length_gx; cbn [length]; lia). cbn [bind].
        rewrite wr_sf by (rewrite map_length; lia). cbn [bind].
        rewrite !map_app, flat_map_app', !app_length. cbn [map length flat_map app]. rewrite <- !app_assoc. reflexivity.
      * rewrite app_nil_r. reflexivity.
Qed.
End NoDomain.
