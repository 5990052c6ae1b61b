(** Rearranging and extending systems, seen in the argument arrays. *)
From Coq Require Import List Arith ZArith Lia Bool Permutation.
From Verif Require Import Base BaseLemmas Segs SplineModel MaceModel Sys SysLoops MaceGrid MacePure MaceStages1 MaceSpec MaceSpec2 MaceFlat.
Import ListNotations.

Section Flat2.
Context {N : Num}.

Fixpoint ebx {B} (g : nat -> edge N -> list B) (o : nat) (s : sys N) : list B :=
  match s with [] => [] | nd :: r => flat_map (g o) (n_edges nd) ++ ebx g (S o) r end.

Lemma ebx_app {B} (g : nat -> edge N -> list B) s1 s2 o : ebx g o (s1 ++ s2) = ebx g o s1 ++ ebx g (o + length s1) s2.
Proof.
  revert o; induction s1 as [|nd s1 IH]; intros o; cbn [app ebx length]; [rewrite Nat.add_0_r; reflexivity|].
  rewrite IH, app_assoc. do 2 f_equal. lia.
Qed.
Lemma ebx_ext {B} (g h : nat -> edge N -> list B) s o :
  (forall i e, i < length s -> In e (es s i) -> g (o + i) e = h (o + i) e) -> ebx g o s = ebx h o s.
Proof.
  revert o; induction s as [|nd s IH]; intros o H; [reflexivity|]. cbn [ebx]. f_equal.
  - apply flat_map_ext_in. intros e He. specialize (H 0 e). rewrite Nat.add_0_r in H. apply H; [simpl; lia|exact He].
  - apply IH. intros i e Hi He. replace (S o + i) with (o + S i) by lia. apply H; [simpl; lia|exact He].
Qed.
Lemma ebx_epairs {B} (g : nat -> edge N -> list B) s : flat_map (fun p => g (fst p) (snd p)) (epairs s) = ebx g 0 s.
Proof.
  unfold epairs. rewrite flat_map_flat_map.
  assert (G : forall s0 o, (forall i, i < length s0 -> nd_ s (o + i) = nd_ s0 i) ->
     flat_map (fun x => flat_map (fun p => g (fst p) (snd p)) (map (pair x) (es s x))) (seq o (length s0)) = ebx g o s0).
  { induction s0 as [|nd s0 IH]; intros o H; [reflexivity|]. cbn [length seq flat_map ebx]. f_equal.
    - rewrite flat_map_map. cbn [fst snd]. unfold es. specialize (H 0). rewrite Nat.add_0_r in H. rewrite H by (simpl; lia). reflexivity.
    - apply IH. intros i Hi. replace (S o + i) with (o + S i) by lia. rewrite H by (simpl; lia). reflexivity. }
  apply G. intros i _. reflexivity.
Qed.
Lemma eb_ebx c (F : nat -> edge N -> nat -> N) s : eb s c F = ebx (fun i e => tab c (F i e)) 0 s.
Proof. unfold eb. apply (ebx_epairs (fun i e => tab c (F i e))). Qed.
Lemma ebx_length {B} (g : nat -> edge N -> list B) c s o : (forall i e, length (g i e) = c) ->
  length (ebx g o s) = c * length (all_edges s).
Proof.
  intros H. revert o; induction s as [|nd s IH]; intros o; [simpl; lia|]. cbn [ebx]. unfold all_edges in *. cbn [flat_map].
  rewrite !app_length, IH. rewrite (length_flat_map_const _ _ c); [lia|]. auto.
Qed.

(** ** reordering *)
Definition de : edge N := mkEdge 0 0 nzero nzero nzero nzero.
Fixpoint re (s : sys N) (sgs : list (list nat)) : sys N :=
  match s, sgs with
  | nd :: s, sg :: sgs => mkNode (n_type nd) (gather de (n_edges nd) sg) :: re s sgs
  | _, _ => []
  end.

Definition sgs_ok (sgs : list (list nat)) (nn : list nat) := Forall2 (fun sg n => Permutation sg (seq 0 n)) sgs nn.

Lemma gather_app_l {A} (d : A) l1 l2 l3 sg : Permutation sg (seq 0 (length l2)) ->
  gather d (l1 ++ l2 ++ l3) (map (Nat.add (length l1)) sg) = gather d l2 sg.
Proof.
  intros H. unfold gather. rewrite map_map. apply map_ext_in. intros p Hp. apply (Permutation_in _ H), in_seq in Hp.
  rewrite app_nth2_plus, app_nth1 by lia. reflexivity.
Qed.

Lemma all_edges_re s sgs E0 : sgs_ok sgs (f_num_neigh s) ->
  all_edges (re s sgs) = gather de (E0 ++ all_edges s) (positions (length E0) sgs (f_num_neigh s)).
Proof.
  revert sgs E0; induction s as [|nd s IH]; intros sgs E0 H; inversion H as [|sg n sgs' nn' Hs Hr E1 E2]; subst; [reflexivity|].
  change (all_edges (re (nd :: s) (sg :: sgs'))) with (gather de (n_edges nd) sg ++ all_edges (re s sgs')).
  change (all_edges (nd :: s)) with (n_edges nd ++ all_edges s).
  change (f_num_neigh (nd :: s)) with (length (n_edges nd) :: f_num_neigh s). cbn [positions].
  unfold gather at 2. rewrite map_app. fold (gather de (E0 ++ n_edges nd ++ all_edges s) (map (Nat.add (length E0)) sg)).
  rewrite gather_app_l by exact Hs. f_equal. rewrite (IH sgs' (E0 ++ n_edges nd)) by exact Hr.
  rewrite app_length, <- app_assoc. reflexivity.
Qed.

Lemma gather_map {A B} (h : A -> B) d l ps : map h (gather d l ps) = gather (h d) (map h l) ps.
Proof. unfold gather. rewrite map_map. apply map_ext. intros p. rewrite map_nth. reflexivity. Qed.

Lemma nth_3 {A} (h : A -> N * N * N) (d : A) (l : list A) p :
  h d = (nzero, nzero, nzero) ->
  let L := flat_map (fun e => let '(a, b, c) := h e in [a; b; c]) l in
  (nth (3 * p) L nzero, nth (3 * p + 1) L nzero, nth (3 * p + 2) L nzero) = h (nth p l d).
Proof.
  intros H0 L. subst L. revert p; induction l as [|e l IH]; intros p.
  - cbn [flat_map]. assert (Z : forall k, nth k (@nil N) nzero = nzero) by (intros []; reflexivity). rewrite !Z.
    destruct p; cbn [nth]; symmetry; exact H0.
  - destruct p as [|p].
    + cbn [flat_map nth]. destruct (h e) as [[a b] c]. reflexivity.
    + cbn [flat_map nth]. rewrite <- IH. destruct (h e) as [[a b] c].
      replace (3 * S p) with (S (S (S (3 * p)))) by lia.
      replace (S (S (S (3 * p))) + 1) with (S (S (S (3 * p + 1)))) by lia.
      replace (S (S (S (3 * p))) + 2) with (S (S (S (3 * p + 2)))) by lia. reflexivity.
Qed.

Lemma gather_xyz (l : list (edge N)) ps :
  flat_map (fun e => [e_x e; e_y e; e_z e]) (gather de l ps) = gather3 (flat_map (fun e => [e_x e; e_y e; e_z e]) l) ps.
Proof.
  unfold gather, gather3. rewrite flat_map_map. apply flat_map_ext_in. intros p _.
  pose proof (nth_3 (fun e : edge N => (e_x e, e_y e, e_z e)) de l p eq_refl) as H. cbv zeta in H.
  apply pair_equal_spec in H. destruct H as [H H3]. apply pair_equal_spec in H. destruct H as [H1 H2].
  rewrite H1, H2, H3. reflexivity.
Qed.

Lemma length_re s sgs : sgs_ok sgs (f_num_neigh s) -> length (re s sgs) = length s.
Proof.
  revert sgs; induction s as [|nd s IH]; intros sgs H; inversion H; subst; [reflexivity|]. cbn [re length]. f_equal. apply IH; auto.
Qed.

Lemma re_types s sgs : sgs_ok sgs (f_num_neigh s) -> f_node_types (re s sgs) = f_node_types s /\ f_num_neigh (re s sgs) = f_num_neigh s.
Proof.
  revert sgs; induction s as [|nd s IH]; intros sgs H; inversion H as [|sg n sgs' nn' Hs Hr E1 E2]; subst; [auto|].
  destruct (IH _ Hr) as [A B]. cbn. unfold f_node_types, f_num_neigh in *. rewrite A, B. split; [reflexivity|]. f_equal.
  unfold gather. rewrite map_length, (Permutation_length Hs), seq_length. reflexivity.
Qed.

Lemma flat_re s sgs : sgs_ok sgs (f_num_neigh s) -> flat (re s sgs) = reorder_input sgs (flat s).
Proof.
  intros H. unfold flat, reorder_input. cbn [i_num_nodes i_node_types i_num_neigh i_neigh_indices i_neigh_types i_xyz i_r].
  destruct (re_types s sgs H) as [-> ->]. rewrite length_re by auto.
  unfold f_neigh_indices, f_neigh_types, f_xyz, f_r. rewrite (all_edges_re s sgs [] H). cbn [app length].
  rewrite !gather_map, gather_xyz. reflexivity.
Qed.

Lemma re_es s sgs i : sgs_ok sgs (f_num_neigh s) -> i < length s ->
  ty (re s sgs) i = ty s i /\ Permutation (es (re s sgs) i) (es s i).
Proof.
  revert sgs i; induction s as [|nd s IH]; intros sgs i H Hi; [simpl in Hi; lia|].
  inversion H as [|sg n sgs' nn' Hs Hr E1 E2]; subst. destruct i as [|i].
  - cbn. split; [reflexivity|]. transitivity (gather de (n_edges nd) (seq 0 (length (n_edges nd)))).
    + unfold gather. apply Permutation_map. exact Hs.
    + unfold gather. rewrite (map_seq_nth (fun x => x) (n_edges nd) de), map_id. reflexivity.
  - destruct (IH sgs' i Hr ltac:(simpl in Hi; lia)) as [A B]. split; [exact A|exact B].
Qed.

Lemma gather3_app (l : list N) p q : gather3 l (p ++ q) = gather3 l p ++ gather3 l q.
Proof. unfold gather3. apply flat_map_app'. Qed.

Lemma gather3_seg (P R : list N) (g : edge N -> nat -> N) E sg k : length P = 3 * k -> Permutation sg (seq 0 (length E)) ->
  gather3 (P ++ flat_map (fun e => tab 3 (g e)) E ++ R) (map (Nat.add k) sg) = flat_map (fun e => tab 3 (g e)) (gather de E sg).
Proof.
  intros HP Hs. unfold gather3, gather. rewrite !flat_map_map. apply flat_map_ext_in. intros p Hp.
  apply (Permutation_in _ Hs), in_seq in Hp.
  assert (L : length (flat_map (fun e => tab 3 (g e)) E) = length E * 3) by (apply length_flat_map_const; intros; apply length_tab).
  assert (G : forall a, a < 3 -> nth (3 * (k + p) + a) (P ++ flat_map (fun e => tab 3 (g e)) E ++ R) nzero = g (nth p E de) a).
  { intros a Ha. rewrite app_nth2 by lia. rewrite app_nth1 by lia. apply nth_error_nth.
    replace (3 * (k + p) + a - length P) with (p * 3 + a) by lia.
    rewrite (nth_error_flat_map_const _ _ 3 p a (nth p E de)); auto.
    - rewrite (nth_error_nth' _ nzero) by (rewrite length_tab; auto). rewrite nth_tab by auto. reflexivity.
    - apply nth_error_nth'. lia. }
  pose proof (G 0 ltac:(lia)) as G0. rewrite Nat.add_0_r in G0. rewrite G0, (G 1), (G 2) by lia. reflexivity.
Qed.

Lemma ebx_re (F : nat -> edge N -> nat -> N) s sgs P k o : sgs_ok sgs (f_num_neigh s) -> length P = 3 * k ->
  ebx (fun i e => tab 3 (F i e)) o (re s sgs) =
  gather3 (P ++ ebx (fun i e => tab 3 (F i e)) o s) (positions k sgs (f_num_neigh s)).
Proof.
  revert sgs P k o; induction s as [|nd s IH]; intros sgs P k o H HP; inversion H as [|sg n sgs' nn' Hs Hr E1 E2]; subst; [reflexivity|].
  cbn [re ebx n_edges f_num_neigh map positions]. rewrite gather3_app, gather3_seg by auto. f_equal.
  rewrite (IH sgs' (P ++ flat_map (fun e => tab 3 (F o e)) (n_edges nd)) (k + length (n_edges nd))).
  - rewrite <- app_assoc. reflexivity.
  - exact Hr.
  - rewrite app_length, (length_flat_map_const _ _ 3) by (intros; apply length_tab). lia.
Qed.

(** ** insertion *)
Lemma insert_app {A} (l1 l2 new : list A) p : p = length l1 -> insert_at p new (l1 ++ l2) = l1 ++ new ++ l2.
Proof.
  intros ->. unfold insert_at. rewrite firstn_app, firstn_all, Nat.sub_diag, skipn_app, skipn_all, Nat.sub_diag.
  cbn [firstn skipn app]. rewrite app_nil_r. reflexivity.
Qed.

Lemma insert_app3 {A} (l0 l1 l2 new : list A) p : p = length l0 + length l1 ->
  insert_at p new (l0 ++ l1 ++ l2) = l0 ++ l1 ++ new ++ l2.
Proof. intros ->. rewrite app_assoc, insert_app by (rewrite app_length; reflexivity). rewrite <- app_assoc. reflexivity. Qed.

Lemma all_edges_app' (s1 s2 : sys N) : all_edges (s1 ++ s2) = all_edges s1 ++ all_edges s2.
Proof. unfold all_edges. apply flat_map_app'. Qed.

Lemma f_nn_sum (s : sys N) : list_sum (f_num_neigh s) = length (all_edges s).
Proof.
  induction s as [|nd s IH]; [reflexivity|]. unfold all_edges in *. cbn [f_num_neigh map flat_map]. rewrite app_length, <- IH. reflexivity.
Qed.

Lemma flat_insert s1 t l1 l2 s2 (e : edge N) :
  flat (s1 ++ mkNode t (l1 ++ e :: l2) :: s2) =
  insert_edge (flat (s1 ++ mkNode t (l1 ++ l2) :: s2)) (length s1) (length l1) (e_type e) (e_idx e) (e_x e) (e_y e) (e_z e) (e_r e).
Proof.
  unfold flat, insert_edge. cbn [i_num_nodes i_node_types i_num_neigh i_neigh_indices i_neigh_types i_xyz i_r].
  assert (Hp : edge_pos (f_num_neigh (s1 ++ mkNode t (l1 ++ l2) :: s2)) (length s1) (length l1) = length (all_edges s1) + length l1).
  { unfold edge_pos. f_equal. unfold f_num_neigh at 1. rewrite map_app, firstn_app, map_length, Nat.sub_diag.
    rewrite firstn_all2 by (rewrite map_length; lia). cbn [firstn]. rewrite app_nil_r. apply f_nn_sum. }
  rewrite Hp. unfold f_neigh_indices, f_neigh_types, f_r, f_xyz.
  rewrite !all_edges_app'.
  assert (A : forall l, all_edges (mkNode t l :: s2) = l ++ all_edges s2) by reflexivity.
  rewrite !A. rewrite !map_app, !flat_map_app', <- !app_assoc. cbn [map flat_map].
  f_equal.
  - rewrite !app_length. reflexivity.
  - unfold f_node_types. rewrite !map_app. reflexivity.
  - unfold f_num_neigh. rewrite !map_app. cbn [map n_edges].
    rewrite firstn_app, map_length, Nat.sub_diag, firstn_all2 by (rewrite map_length; lia).
    cbn [firstn]. rewrite app_nil_r. f_equal. rewrite app_nth2 by (rewrite map_length; lia).
    rewrite map_length, Nat.sub_diag. cbn [nth]. rewrite skipn_app, map_length.
    rewrite skipn_all2 by (rewrite map_length; lia). replace (length s1 + 1 - length s1) with 1 by lia. cbn [skipn app].
    rewrite !app_length. cbn [length]. f_equal. lia.
  - rewrite insert_app3 by (rewrite !map_length; reflexivity). reflexivity.
  - rewrite insert_app3 by (rewrite !map_length; reflexivity). reflexivity.
  - rewrite insert_app3; [reflexivity|]. rewrite !(length_flat_map_const _ _ 3) by reflexivity. lia.
  - rewrite insert_app3 by (rewrite !map_length; reflexivity). reflexivity.
Qed.

Lemma ebx_insert (F : nat -> edge N -> nat -> N) s1 t l1 l2 s2 (e : edge N) p :
  p = length (all_edges s1) + length l1 ->
  ebx (fun i e => tab 3 (F i e)) 0 (s1 ++ mkNode t (l1 ++ e :: l2) :: s2) =
  insert_at (3 * p) (tab 3 (F (length s1) e)) (ebx (fun i e => tab 3 (F i e)) 0 (s1 ++ mkNode t (l1 ++ l2) :: s2)).
Proof.
  intros ->. rewrite !ebx_app. cbn [ebx n_edges Nat.add]. rewrite !flat_map_app', <- !app_assoc. cbn [flat_map].
  rewrite insert_app3; [reflexivity|].
  rewrite (ebx_length _ 3), (length_flat_map_const _ _ 3); intros; try apply length_tab. lia.
Qed.

Lemma map_fst_epairs_owners (s : sys N) : map fst (epairs s) = owners (f_num_neigh s).
Proof.
  unfold owners, epairs. rewrite map_flat_map. unfold f_num_neigh at 2. rewrite map_length. apply flat_map_ext_in.
  intros i Hi. apply in_seq in Hi. rewrite map_map. cbn [fst].
  assert (E : nth i (f_num_neigh s) 0 = length (es s i)).
  { unfold f_num_neigh, es, nd_. rewrite (nth_indep _ _ (length (n_edges (@mkNode N 0 [])))) by (rewrite map_length; lia).
    rewrite (map_nth (fun nd : node N => length (n_edges nd))). reflexivity. }
  rewrite E. clear. induction (es s i) as [|e l IH]; cbn; [reflexivity|]. f_equal. exact IH.
Qed.
End Flat2.
