(** The views that the Kokkos pair style sets up for the evaluator: the same for every order of the iterations, whatever the views
    contained before.  Used in proofs only. *)
From Coq Require Import List Arith ZArith Bool Lia Permutation.
From Verif Require Import Base BaseLemmas MaceModel MaceSpec PairModel PairSpec PairThms PairKokkosModel KkPairModel.
Import ListNotations.
Local Open Scope nat_scope.

Lemma length_grown {A} (z : A) v n : n <= length (grown z v n).
Proof. unfold grown. destruct (Nat.ltb_spec (length v) n); [rewrite repeat_length; lia|lia]. Qed.
Lemma length_sub {A} (z : A) v n : length (sub (grown z v n) n) = n.
Proof. unfold sub. rewrite firstn_length. pose proof (length_grown z v n). lia. Qed.

(** [L] written over [v] from position [o] on *)
Definition ins {A} (v : list A) (o : nat) (L : list A) : list A := firstn o v ++ sf (skipn o v) L.
Lemma ins_nil {A} (v : list A) o : ins v o [] = v.
Proof. unfold ins. rewrite sf_nil. apply firstn_skipn. Qed.
Lemma length_ins {A} (v : list A) o L : o + length L <= length v -> length (ins v o L) = length v.
Proof. intros H. unfold ins. rewrite app_length, length_sf by (rewrite skipn_length; lia). rewrite firstn_length, skipn_length. lia. Qed.
Lemma wr_app_r {A} (u w : list A) k x : length u <= k -> wr (u ++ w) k x = (r <- wr w (k - length u) x ;; Some (u ++ r)).
Proof.
  intros H. unfold wr. rewrite app_length. destruct (Nat.ltb_spec (k - length u) (length w)) as [B|B].
  - rewrite (proj2 (Nat.ltb_lt k _)) by lia. cbn [bind]. f_equal. clear B. revert k H. induction u as [|y u IH]; intros k H.
    + cbn. rewrite Nat.sub_0_r. reflexivity.
    + destruct k as [|k]; cbn [length] in H; [lia|]. cbn. f_equal. apply IH. lia.
  - rewrite (proj2 (Nat.ltb_ge k _)) by lia. reflexivity.
Qed.
Lemma wr_ins {A} (v L : list A) o k x : k = o + length L -> k < length v -> wr (ins v o L) k x = Some (ins v o (L ++ [x])).
Proof.
  intros -> H. unfold ins. assert (E : length (firstn o v) = o) by (rewrite firstn_length; lia).
  rewrite wr_app_r by lia. rewrite E. replace (o + length L - o) with (length L) by lia.
  rewrite wr_sf by (rewrite ?skipn_length; lia). reflexivity.
Qed.
Lemma nth_error_ins {A} (v L : list A) o p : o + length L <= length v ->
  nth_error (ins v o L) p = if (o <=? p) && (p <? o + length L) then nth_error L (p - o) else nth_error v p.
Proof.
  intros H. unfold ins, sf. assert (E : length (firstn o v) = o) by (rewrite firstn_length; lia).
  destruct (Nat.leb_spec o p) as [A1|A1]; cbn [andb].
  - rewrite nth_error_app2 by lia. rewrite E. destruct (Nat.ltb_spec p (o + length L)) as [A2|A2].
    + rewrite nth_error_app1 by lia. reflexivity.
    + rewrite nth_error_app2 by lia.
      rewrite <- (firstn_skipn o v) at 2. rewrite nth_error_app2 by lia. rewrite E.
      rewrite <- (firstn_skipn (length L) (skipn o v)) at 2. rewrite nth_error_app2 by (rewrite firstn_length; lia).
      rewrite firstn_length, skipn_length. f_equal. lia.
  - rewrite nth_error_app1 by lia. rewrite <- (firstn_skipn o v) at 2. rewrite nth_error_app1 by lia. reflexivity.
Qed.

(** all blocks, in any order *)
Section Blocks.
Context {A : Type}.
Variables (n : nat) (L : nat -> list A).
Definition boff (ii : nat) : nat := offs L (seq 0 n) ii.
Definition fillb (ord : list nat) (X : list A) : list A := fold_left (fun X ii => ins X (boff ii) (L ii)) ord X.
Lemma boff_S ii : ii < n -> boff (S ii) = boff ii + length (L ii).
Proof. intros H. apply offs_S. rewrite (nth_error_nth' _ 0) by (rewrite seq_length; lia). rewrite seq_nth by lia. reflexivity. Qed.
Lemma boff_le ii jj : ii <= jj -> jj <= n -> boff ii <= boff jj.
Proof. intros H. induction H as [|jj H IH]; intros Hj; [lia|]. rewrite boff_S by lia. specialize (IH ltac:(lia)). lia. Qed.
Lemma boff_in ii : ii < n -> boff ii + length (L ii) <= length (flat_map L (seq 0 n)).
Proof.
  intros H. rewrite <- boff_S by lia. rewrite <- offs_all, seq_length. apply boff_le; lia.
Qed.
Lemma length_fillb ord X : (forall ii, In ii ord -> ii < n) -> length X = length (flat_map L (seq 0 n)) -> length (fillb ord X) = length X.
Proof.
  revert X. induction ord as [|ii ord IH]; intros X H E; [reflexivity|]. cbn [fillb fold_left]. fold (fillb ord (ins X (boff ii) (L ii))).
  pose proof (boff_in ii (H ii (or_introl eq_refl))) as B.
  assert (E' : length (ins X (boff ii) (L ii)) = length X) by (apply length_ins; lia).
  rewrite IH; [exact E'| intros; apply H; right; auto | lia].
Qed.
Lemma fillb_nth ord : forall X ii p, (forall ii, In ii ord -> ii < n) -> length X = length (flat_map L (seq 0 n)) -> ii < n -> p < length (L ii) ->
  nth_error (fillb ord X) (boff ii + p) = if in_dec Nat.eq_dec ii ord then nth_error (L ii) p else nth_error X (boff ii + p).
Proof.
  induction ord as [|jj ord IH]; intros X ii p H E Hi Hp; [reflexivity|]. cbn [fillb fold_left]. fold (fillb ord (ins X (boff jj) (L jj))).
  assert (Hj : jj < n) by (apply H; left; auto). pose proof (boff_in jj Hj) as B.
  rewrite IH; [|intros; apply H; right; auto|rewrite length_ins; lia|exact Hi|exact Hp].
  rewrite nth_error_ins by lia. pose proof (boff_S ii Hi) as S1. pose proof (boff_S jj Hj) as S2.
  destruct (in_dec Nat.eq_dec ii ord) as [I1|I1], (in_dec Nat.eq_dec ii (jj :: ord)) as [I2|I2]; auto.
  - exfalso. apply I2. right. auto.
  - destruct I2 as [->|I2]; [|contradiction]. rewrite (proj2 (Nat.leb_le _ _)), (proj2 (Nat.ltb_lt _ _)) by lia. cbn [andb]. f_equal. lia.
  - assert (ii <> jj) by (intros ->; apply I2; left; auto).
    destruct (Nat.leb_spec (boff jj) (boff ii + p)) as [A1|A1]; [|reflexivity]. destruct (Nat.ltb_spec (boff ii + p) (boff jj + length (L jj))) as [A2|A2]; [|reflexivity].
    exfalso. destruct (Nat.lt_trichotomy ii jj) as [C|[C|C]]; [|contradiction|].
    + pose proof (boff_le (S ii) jj C ltac:(lia)). lia.
    + pose proof (boff_le (S jj) ii C ltac:(lia)). lia.
Qed.
Lemma block_of q k : k <= n -> q < boff k -> exists ii p, ii < k /\ p < length (L ii) /\ q = boff ii + p.
Proof.
  induction k as [|k IH]; intros Hk Hq; [unfold boff in Hq; rewrite offs_0 in Hq; lia|].
  destruct (lt_dec q (boff k)) as [C|C].
  - destruct (IH ltac:(lia) C) as (ii & p & ? & ? & ?). exists ii, p. auto with arith.
  - rewrite boff_S in Hq by lia. exists k, (q - boff k). repeat split; lia.
Qed.
Lemma fillb_all ord X : Permutation (seq 0 n) ord -> length X = length (flat_map L (seq 0 n)) -> fillb ord X = flat_map L (seq 0 n).
Proof.
  intros P E. assert (H : forall ii, In ii ord <-> ii < n).
  { intros ii. split; intros I.
    - apply (Permutation_in _ (Permutation_sym P)) in I. apply in_seq in I. lia.
    - apply (Permutation_in _ P). apply in_seq. lia. }
  assert (HL : length (fillb ord X) = length (flat_map L (seq 0 n))) by (rewrite length_fillb; auto; intros; apply H; auto).
  assert (G : forall q, nth_error (fillb ord X) q = nth_error (flat_map L (seq 0 n)) q).
  { intros q. destruct (lt_dec q (length (flat_map L (seq 0 n)))) as [C|C].
    - assert (C' := C). rewrite <- offs_all, seq_length in C'. destruct (block_of q n (le_n _) C') as (ii & p & Hi & Hp & ->).
      rewrite fillb_nth; auto; [|intros; apply H; auto]. destruct (in_dec Nat.eq_dec ii ord) as [_|I]; [|exfalso; apply I, H, Hi].
      symmetry. apply nth_error_flat_map_offs; auto. rewrite (nth_error_nth' _ 0) by (rewrite seq_length; lia). rewrite seq_nth by lia. reflexivity.
    - rewrite !(proj2 (nth_error_None _ _)) by lia. reflexivity. }
  revert HL G. generalize (fillb ord X) as U, (flat_map L (seq 0 n)) as V. clear.
  induction U as [|u U IH]; intros [|v V] HL G; try discriminate; [reflexivity|]. f_equal; [specialize (G 0); cbn in G; congruence|].
  apply IH; [cbn in HL; lia|]. intros q. apply (G (S q)).
Qed.
End Blocks.

Section Setup.
Context {N : Num}.
Variable l : lmp N.
Variable rc : N.
Variable types : list nat.
Variable A : list nat.
Hypothesis L : lmp_ok (length types) A l.
Variable mace_types : list Z.
Hypothesis HT : forall k t, rd types k = Some t -> rd mace_types k = Some (Z.of_nat t).
Variable B : list nat.
Hypothesis HB : forall i, In i B -> In i A.
Notation n := (length B).
Variable idx : nat -> option nat.
Hypothesis Hidx : forall ii, ii < n -> idx ii = Some (nth ii B 0).
Variables (nbr : nat -> option (option nat)) (tgt : nat -> nat).
Hypothesis Hnbr : forall j, j < nlocal l + nghost l -> nbr j = Some (Some (tgt j)).
Notation nth_B ii := (nth ii B 0).

Lemma kspecies_ok i : i < nlocal l + nghost l -> kspecies l mace_types i = Some (spec_of types l i).
Proof.
  intros H. destruct (type_step l types A L i H) as (t & E1 & E2 & E3). unfold kspecies. rewrite E1. cbn [bind]. rewrite E2. cbn [bind].
  rewrite (HT _ _ E3). cbn [bind]. rewrite (proj2 (Z.ltb_ge _ 0)) by lia. rewrite Nat2Z.id. reflexivity.
Qed.
Lemma B_in ii : ii < n -> In (nth_B ii) A.
Proof. intros H. apply HB, nth_In, H. Qed.
Lemma B_lt ii : ii < n -> nth_B ii < nlocal l + nghost l.
Proof. intros H. apply (lo_A _ _ _ L), B_in, H. Qed.

Lemma set_node_ok ii X Y Z : ii < n -> length X = n -> length Y = n -> length Z = n ->
  set_node l mace_types (nmul rc rc) idx ii (X, Y, Z) =
    Some (ins X ii [nth_B ii], ins Y ii [spec_of types l (nth_B ii)], ins Z ii [length (kept rc l (nth_B ii))]).
Proof.
  intros H LX LY LZ. unfold set_node. rewrite Hidx by exact H. cbn [bind]. set (i := nth_B ii). assert (Hi : In i A) by (apply B_in; exact H).
  assert (W : forall (T : list nat) x, length T = n -> wr T ii x = Some (ins T ii [x])).
  { intros T x E. pose proof (wr_ins T [] ii ii x) as Q. rewrite ins_nil in Q. apply Q; cbn [length]; lia. }
  rewrite W by exact LX. cbn [bind]. rewrite kspecies_ok by (apply B_lt; exact H). cbn [bind]. rewrite W by exact LY. cbn [bind].
  destruct (atom_step l types A L i Hi) as (E1 & E2 & E3 & E4 & E5). rewrite E3, E4, E5. cbn [bind]. rewrite E1. cbn [bind]. rewrite E2. cbn [bind].
  rewrite (for_trace (fun jj => length (kept_to l rc i jj)) (nth i (numneigh l) 0) _ _ (length (kept rc l i))).
  - cbn [bind]. rewrite W by exact LZ. reflexivity.
  - reflexivity.
  - rewrite (kept_all l rc types A L i Hi). reflexivity.
  - intros jj Hjj. destruct (nbr_step l rc types A L i jj Hi Hjj) as (jz & j & G1 & G2 & G3 & G4 & G5 & G6 & G7).
    rewrite G1. cbn [bind]. rewrite G2, G4, G5, G6. cbn [bind]. rewrite sep2_eq, G7, app_length.
    destruct (nltb (sep2 (atom_x l) i j) (nmul rc rc)); cbn [length]; f_equal; lia.
Qed.

Notation LN ii := ([length (kept rc l (nth_B ii))]).
Lemma nodes_ok ord X Y Z : Permutation (seq 0 n) ord -> length X = n -> length Y = n -> length Z = n ->
  run_all (set_node l mace_types (nmul rc rc) idx) ord (X, Y, Z) =
    Some (B, map (spec_of types l) B, map (fun i => length (kept rc l i)) B).
Proof.
  intros P LX LY LZ.
  assert (O1 : forall (g : nat -> nat) ii, ii <= n -> boff n (fun ii => [g ii]) ii = ii).
  { intros g ii. induction ii as [|ii IH]; intros H; [apply offs_0|]. rewrite boff_S by lia. rewrite IH by lia. cbn [length]. lia. }
  assert (G : forall ord, (forall ii, In ii ord -> ii < n) -> forall X Y Z, length X = n -> length Y = n -> length Z = n ->
     run_all (set_node l mace_types (nmul rc rc) idx) ord (X, Y, Z) =
       Some (fillb n (fun ii => [nth_B ii]) ord X, fillb n (fun ii => [spec_of types l (nth_B ii)]) ord Y, fillb n (fun ii => [length (kept rc l (nth_B ii))]) ord Z)).
  { clear X Y Z LX LY LZ P ord. intros ord. induction ord as [|ii ord IH]; intros H X Y Z LX LY LZ; [reflexivity|]. cbn [run_all].
    assert (Hii : ii < n) by (apply H; left; auto).
    rewrite set_node_ok by auto. cbn [bind]. rewrite IH; [|intros; apply H; right; auto| | |]; try (rewrite length_ins; cbn [length]; lia).
    unfold fillb. cbn [fold_left]. rewrite !O1 by lia. reflexivity. }
  rewrite G by (auto; intros ii Hii; apply (Permutation_in _ (Permutation_sym P)) in Hii; apply in_seq in Hii; lia).
  assert (E : forall g : nat -> nat, flat_map (fun ii => [g (nth_B ii)]) (seq 0 n) = map g B).
  { intros g. transitivity (map (fun ii => g (nth_B ii)) (seq 0 n)).
    - generalize (seq 0 n) as s. clear. induction s as [|a s IH]; [reflexivity|]. cbn [flat_map map app]. f_equal; exact IH.
    - rewrite <- (map_map (fun ii => nth_B ii) g). f_equal. symmetry. apply (tab_nth B 0). }
  assert (E' : forall (g : nat -> nat), length (flat_map (fun ii => [g (nth_B ii)]) (seq 0 n)) = n) by (intros; rewrite E, map_length; reflexivity).
  rewrite (fillb_all n (fun ii => [nth_B ii])) by (auto; rewrite (E' (fun i => i)); exact LX).
  rewrite (fillb_all n (fun ii => [spec_of types l (nth_B ii)])) by (auto; rewrite (E' (spec_of types l)); exact LY).
  rewrite (fillb_all n (fun ii => [length (kept rc l (nth_B ii))])) by (auto; rewrite (E' (fun i => length (kept rc l i))); exact LZ).
  rewrite (E (fun i => i)), map_id, (E (spec_of types l)), (E (fun i => length (kept rc l i))). reflexivity.
Qed.

Notation NN := (map (fun i => length (kept rc l i)) B).
Definition eoff (ii : nat) : nat := list_sum (firstn ii NN).
Lemma eoff_S ii : ii < n -> eoff (S ii) = eoff ii + length (kept rc l (nth_B ii)).
Proof.
  intros H. unfold eoff. rewrite !firstn_map. rewrite (firstn_S_nth B ii (nth_B ii)) by (apply nth_error_nth'; exact H).
  rewrite map_app, list_sum_app. cbn. lia.
Qed.
Lemma edges_count : for_ n (fun ii e => c <- rd NN ii ;; Some (e + c)) 0 = Some (length (kpairs l rc B)).
Proof.
  apply (for_trace eoff).
  - reflexivity.
  - unfold eoff. rewrite firstn_all2 by (rewrite map_length; lia). rewrite length_kpairs, length_flat_map. reflexivity.
  - intros ii H. rewrite (rd_some _ _ 0) by (rewrite map_length; exact H). cbn [bind]. rewrite eoff_S by exact H.
    rewrite (nth_indep _ 0 (length (kept rc l 0))) by (rewrite map_length; exact H). rewrite (map_nth (fun i => length (kept rc l i))). reflexivity.
Qed.
Lemma scan_ok fn : length fn = n -> first_neigh_scan n NN fn = Some (tab n eoff).
Proof.
  intros Lf. unfold first_neigh_scan.
  rewrite (for_trace (fun ii => (sf fn (tab ii eoff), eoff ii)) n _ _ (tab n eoff, eoff n)).
  - reflexivity.
  - reflexivity.
  - rewrite sf_full by (rewrite length_tab; lia). reflexivity.
  - intros ii H. rewrite wr_sf by (rewrite ?length_tab; lia). cbn [bind]. rewrite (rd_some _ _ 0) by (rewrite map_length; exact H). cbn [bind].
    rewrite eoff_S by exact H. rewrite (nth_indep _ 0 (length (kept rc l 0))) by (rewrite map_length; exact H). rewrite (map_nth (fun i => length (kept rc l i))).
    unfold tab. rewrite seq_S, map_app. reflexivity.
Qed.

Notation bp ii := (map (pair (nth_B ii)) (kept rc l (nth_B ii))).
Lemma boff_k {C} (g : nat * nat -> C) ii : ii <= n -> boff n (fun ii => map g (bp ii)) ii = eoff ii.
Proof.
  induction ii as [|ii IH]; intros H; [unfold boff; rewrite offs_0; reflexivity|]. rewrite boff_S, eoff_S, IH, !map_length by lia. reflexivity.
Qed.
Lemma boff_x ii : ii <= n -> boff n (fun ii => flat_map (gx l) (bp ii)) ii = 3 * eoff ii.
Proof.
  induction ii as [|ii IH]; intros H; [unfold boff; rewrite offs_0; reflexivity|].
  rewrite boff_S, eoff_S, IH, length_gx, !map_length by lia. lia.
Qed.
Lemma flat_k {C} (g : nat * nat -> C) : flat_map (fun ii => map g (bp ii)) (seq 0 n) = map g (kpairs l rc B).
Proof.
  assert (EB : map (fun ii => nth_B ii) (seq 0 n) = B) by (symmetry; apply (tab_nth B 0)).
  transitivity (map g (kpairs l rc (map (fun ii => nth_B ii) (seq 0 n)))); [|rewrite EB; reflexivity]. clear EB.
  generalize (seq 0 n) as s. unfold kpairs. induction s as [|a s IH]; [reflexivity|]. cbn [flat_map map]. rewrite map_app, IH. reflexivity.
Qed.
Lemma flat_x : flat_map (fun ii => flat_map (gx l) (bp ii)) (seq 0 n) = flat_map (gx l) (kpairs l rc B).
Proof.
  assert (EB : map (fun ii => nth_B ii) (seq 0 n) = B) by (symmetry; apply (tab_nth B 0)).
  transitivity (flat_map (gx l) (kpairs l rc (map (fun ii => nth_B ii) (seq 0 n)))); [|rewrite EB; reflexivity]. clear EB.
  generalize (seq 0 n) as s. unfold kpairs. induction s as [|a s IH]; [reflexivity|]. cbn [flat_map map]. rewrite flat_map_app', IH. reflexivity.
Qed.

Notation g1 := (fun q : nat * nat => tgt (snd q)).
Notation g2 := (fun q : nat * nat => spec_of types l (snd q)).
Notation g3 := (fun q : nat * nat => nsqrt (sep2 (atom_x l) (fst q) (snd q))).
Notation E := (length (kpairs l rc B)).
Lemma set_edges_ok ii X Y Z W : ii < n -> length X = E -> length Y = E -> length Z = 3 * E -> length W = E ->
  set_edges l mace_types (nmul rc rc) idx nbr (tab n eoff) ii (X, Y, Z, W) =
    Some (ins X (eoff ii) (map g1 (bp ii)), ins Y (eoff ii) (map g2 (bp ii)), ins Z (3 * eoff ii) (flat_map (gx l) (bp ii)), ins W (eoff ii) (map g3 (bp ii))).
Proof.
  intros H LX LY LZ LW. unfold set_edges. rewrite Hidx by exact H. cbn [bind]. set (i := nth_B ii). assert (Hi : In i A) by (apply B_in; exact H).
  destruct (atom_step l types A L i Hi) as (E1 & E2 & E3 & E4 & E5). rewrite E3, E4, E5. cbn [bind].
  rewrite rd_tab by exact H. cbn [bind]. rewrite E1. cbn [bind]. rewrite E2. cbn [bind]. set (o := eoff ii).
  assert (Eo : o = length (kpairs l rc (firstn ii B))).
  { unfold o, eoff. rewrite length_kpairs, length_flat_map, firstn_map. reflexivity. }
  rewrite (for_trace (fun jj => let D := map (pair i) (kept_to l rc i jj) in
     (ins X o (map g1 D), ins Y o (map g2 D), ins Z (3 * o) (flat_map (gx l) D), ins W o (map g3 D), o + length D)) (nth i (numneigh l) 0) _ _
     (let D := map (pair i) (kept rc l i) in
     (ins X o (map g1 D), ins Y o (map g2 D), ins Z (3 * o) (flat_map (gx l) D), ins W o (map g3 D), o + length D))).
  - reflexivity.
  - unfold kept_to. cbn [firstn filter map flat_map length]. cbv zeta. rewrite !ins_nil, Nat.add_0_r. reflexivity.
  - cbv zeta. rewrite (kept_all l rc types A L i Hi). reflexivity.
  - intros jj Hjj. cbv zeta. destruct (nbr_step l rc types A L i jj Hi Hjj) as (jz & j & G1 & G2 & G3 & G4 & G5 & G6 & G7).
    pose proof (kpairs_le l rc types A L B ii jj Hi H Hjj) as Hle. fold i in Hle. rewrite <- Eo in Hle.
    rewrite G1. cbn [bind]. rewrite G2, Hnbr by exact G3. cbn [bind]. rewrite G4, G5, G6. cbn [bind]. rewrite sep2_eq. rewrite G7 in Hle |- *.
    destruct (nltb (sep2 (atom_x l) i j) (nmul rc rc)).
    + rewrite app_length in Hle. cbn [length] in Hle. set (K := kept_to l rc i jj) in *.
      assert (LD : length (map (pair i) K) = length K) by apply map_length.
      rewrite map_app. cbn [map].
      rewrite wr_ins by (rewrite ?map_length; lia). cbn [bind]. rewrite kspecies_ok by exact G3. cbn [bind].
      rewrite wr_ins by (rewrite ?map_length; lia). cbn [bind].
      rewrite wr_ins by (rewrite ?length_gx; lia). cbn [bind].
      rewrite wr_ins by (rewrite ?app_length, ?length_gx; cbn [length]; lia). cbn [bind].
      rewrite wr_ins by (rewrite ?app_length, ?length_gx; cbn [length]; lia). cbn [bind].
      rewrite wr_ins by (rewrite ?map_length; lia). cbn [bind].
      rewrite !map_app, flat_map_app', !app_length. cbn [map length flat_map app]. rewrite <- !app_assoc. rewrite Nat.add_assoc. reflexivity.
    + rewrite app_nil_r. reflexivity.
Qed.

Lemma edges_ok ord X Y Z W : Permutation (seq 0 n) ord -> length X = E -> length Y = E -> length Z = 3 * E -> length W = E ->
  run_all (set_edges l mace_types (nmul rc rc) idx nbr (tab n eoff)) ord (X, Y, Z, W) =
    Some (map g1 (kpairs l rc B), map g2 (kpairs l rc B), flat_map (gx l) (kpairs l rc B), map g3 (kpairs l rc B)).
Proof.
  intros P LX LY LZ LW.
  assert (IN : forall ii, ii < n -> eoff ii + length (bp ii) <= E).
  { intros ii H. pose proof (boff_in n (fun ii => map (fun q => q) (bp ii)) ii H) as Q. rewrite flat_k, boff_k, !map_length in Q by lia. rewrite map_length. exact Q. }
  assert (G : forall ord, (forall ii, In ii ord -> ii < n) -> forall X Y Z W, length X = E -> length Y = E -> length Z = 3 * E -> length W = E ->
     run_all (set_edges l mace_types (nmul rc rc) idx nbr (tab n eoff)) ord (X, Y, Z, W) =
       Some (fillb n (fun ii => map g1 (bp ii)) ord X, fillb n (fun ii => map g2 (bp ii)) ord Y,
             fillb n (fun ii => flat_map (gx l) (bp ii)) ord Z, fillb n (fun ii => map g3 (bp ii)) ord W)).
  { clear X Y Z W LX LY LZ LW P ord. intros ord. induction ord as [|ii ord IH]; intros H X Y Z W LX LY LZ LW; [reflexivity|]. cbn [run_all].
    assert (Hii : ii < n) by (apply H; left; auto). pose proof (IN ii Hii) as B1.
    rewrite set_edges_ok by auto. cbn [bind].
    rewrite IH; [|intros; apply H; right; auto| | | |]; try (rewrite length_ins; rewrite ?length_gx, ?map_length in *; lia).
    unfold fillb. cbn [fold_left]. rewrite !boff_k, boff_x by lia. reflexivity. }
  rewrite G by (auto; intros ii Hii; apply (Permutation_in _ (Permutation_sym P)) in Hii; apply in_seq in Hii; lia).
  rewrite (fillb_all n (fun ii => map g1 (bp ii))) by (auto; rewrite flat_k, map_length; exact LX).
  rewrite (fillb_all n (fun ii => map g2 (bp ii))) by (auto; rewrite flat_k, map_length; exact LY).
  rewrite (fillb_all n (fun ii => flat_map (gx l) (bp ii))) by (auto; rewrite flat_x, length_gx; exact LZ).
  rewrite (fillb_all n (fun ii => map g3 (bp ii))) by (auto; rewrite flat_k, map_length; exact LW).
  rewrite !flat_k, flat_x. reflexivity.
Qed.

(** the subviews handed over *)
Definition set_up : kviews N :=
  mkKV B (map (spec_of types l) B) NN (tab n eoff)
    (flat_map (fun i => map tgt (kept rc l i)) B) (flat_map (fun i => map (spec_of types l) (kept rc l i)) B)
    (flat_map (fun i => flat_map (fun j => [sep (atom_x l) i j 0; sep (atom_x l) i j 1; sep (atom_x l) i j 2]) (kept rc l i)) B)
    (flat_map (fun i => map (fun j => nsqrt (sep2 (atom_x l) i j)) (kept rc l i)) B).
Lemma setup_ok ord1 ord2 v : Permutation (seq 0 n) ord1 -> Permutation (seq 0 n) ord2 ->
  exists v', setup l mace_types (nmul rc rc) ord1 ord2 n idx nbr v = Some (set_up, v').
Proof.
  intros P1 P2. unfold setup.
  rewrite (nodes_ok ord1) by (auto using length_sub; unfold sub; rewrite firstn_length, repeat_length; pose proof (length_grown 0 (kv_num_neigh v) n); lia).
  cbn [bind]. rewrite edges_count. cbn [bind]. rewrite scan_ok by apply length_sub. cbn [bind].
  rewrite (edges_ok ord2) by (auto using length_sub). cbn [bind]. eexists. f_equal. f_equal. unfold set_up.
  rewrite <- (map_kpairs l rc (fun _ j => tgt j)), <- (map_kpairs l rc (fun _ j => spec_of types l j)),
      <- (map_kpairs l rc (fun i j => nsqrt (sep2 (atom_x l) i j))), <- (flat_kpairs l rc (fun i j => [sep (atom_x l) i j 0; sep (atom_x l) i j 1; sep (atom_x l) i j 2])).
  reflexivity.
Qed.
End Setup.
