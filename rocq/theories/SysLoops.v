(** Loops over nodes and edges of a flattened system. *)
From Coq Require Import List Arith Lia.
From Verif Require Import Base BaseLemmas Segs Sys.
Import ListNotations.

(** ** buffers that are filled element by element of a list *)

(** the first [i] pieces are written, the rest still holds [old] *)
Definition part {A B} (f : A -> list B) (l : list A) (old : list B) (i : nat) : list B :=
  flat_map f (firstn i l) ++ skipn (offs f l i) old.

Lemma part_0 {A B} (f : A -> list B) l old : old = part f l old 0.
Proof. reflexivity. Qed.

Lemma part_all {A B} (f : A -> list B) l old n :
  length old = length (flat_map f l) -> n = length l -> flat_map f l = part f l old n.
Proof.
  intros H ->. unfold part. rewrite offs_all, <- H, skipn_all, app_nil_r, firstn_all. reflexivity.
Qed.

Lemma offs_le {A B} (f : A -> list B) l i : offs f l i <= length (flat_map f l).
Proof.
  unfold offs. rewrite <- (firstn_skipn i l) at 2. rewrite flat_map_app', app_length. lia.
Qed.

Lemma length_part {A B} (f : A -> list B) l old i :
  length old = length (flat_map f l) -> length (part f l old i) = length old.
Proof.
  intros H. unfold part. rewrite app_length, skipn_length. fold (offs f l i).
  pose proof (offs_le f l i). lia.
Qed.

Lemma skipn_skipn' {A} (l : list A) a b : skipn a (skipn b l) = skipn (b + a) l.
Proof. revert l; induction b as [|b IH]; intros [|x l]; simpl; auto. apply skipn_nil. Qed.

Lemma part_step {A B} (f : A -> list B) l old i x stmt :
  nth_error l i = Some x -> length old = length (flat_map f l) ->
  swr (offs f l i) (length (f x)) stmt (f x) ->
  stmt (part f l old i) = Some (part f l old (S i)).
Proof.
  intros Hx Ho [_ H]. unfold part.
  pose proof (offs_S f l i x Hx) as E. pose proof (offs_le f l (S i)).
  assert (Hl : length (skipn (offs f l i) old) >= length (f x)) by (rewrite skipn_length; lia).
  rewrite <- (firstn_skipn (length (f x)) (skipn (offs f l i) old)).
  rewrite H; [|reflexivity|apply firstn_length_le; lia].
  rewrite skipn_skipn', <- E, (firstn_S_nth _ _ _ Hx), flat_map_app'. simpl. rewrite app_nil_r, <- app_assoc.
  reflexivity.
Qed.

Lemma offs_const {A B} (f : A -> list B) l i c :
  (forall x, In x l -> length (f x) = c) -> i <= length l -> offs f l i = i * c.
Proof.
  intros H Hi. unfold offs. rewrite length_flat_map_const with (c := c).
  - rewrite firstn_length_le; auto.
  - intros x Hx. apply H. rewrite <- (firstn_skipn i l). apply in_or_app; auto.
Qed.

Lemma part_step_const {A B} (f : A -> list B) l old i x c stmt :
  (forall x, In x l -> length (f x) = c) ->
  nth_error l i = Some x -> length old = length (flat_map f l) ->
  swr (i * c) c stmt (f x) ->
  stmt (part f l old i) = Some (part f l old (S i)).
Proof.
  intros Hc Hx Ho H.
  assert (i < length l) by (apply nth_error_Some; congruence).
  apply part_step with (x := x); auto.
  rewrite (offs_const f l i c), (Hc x) by (auto; try lia; eapply nth_error_In; eauto). exact H.
Qed.

(** ** buffers updated in place piece by piece *)
Definition part2 {A B} (f g : A -> list B) (l : list A) (i : nat) : list B :=
  flat_map g (firstn i l) ++ flat_map f (skipn i l).

Lemma part2_0 {A B} (f g : A -> list B) l : flat_map f l = part2 f g l 0.
Proof. reflexivity. Qed.

Lemma part2_all {A B} (f g : A -> list B) l n : n = length l -> flat_map g l = part2 f g l n.
Proof. intros ->. unfold part2. rewrite firstn_all, skipn_all, app_nil_r. reflexivity. Qed.

Lemma skipn_nth {A} (l : list A) i x : nth_error l i = Some x -> skipn i l = x :: skipn (S i) l.
Proof.
  revert i; induction l as [|y l IH]; intros [|i] H; simpl in *; try discriminate.
  - inversion H; auto.
  - apply IH; auto.
Qed.

Lemma part2_step {A B} (f g : A -> list B) l i x stmt :
  nth_error l i = Some x -> sseg (offs g l i) stmt (f x) (g x) ->
  stmt (part2 f g l i) = Some (part2 f g l (S i)).
Proof.
  intros Hx [_ H]. unfold part2. rewrite (skipn_nth _ _ _ Hx). cbn [flat_map].
  rewrite H by reflexivity. rewrite (firstn_S_nth _ _ _ Hx), flat_map_app'. simpl.
  rewrite app_nil_r, <- app_assoc. reflexivity.
Qed.

Lemma part2_step_const {A B} (f g : A -> list B) l i x c stmt :
  (forall x, In x l -> length (g x) = c) ->
  nth_error l i = Some x -> sseg (i * c) stmt (f x) (g x) ->
  stmt (part2 f g l i) = Some (part2 f g l (S i)).
Proof.
  intros Hc Hx H. assert (i < length l) by (apply nth_error_Some; congruence).
  apply part2_step with (x := x); auto. rewrite (offs_const g l i c) by (auto; lia). exact H.
Qed.

Lemma part2_step_tail {A B} (f g : A -> list B) l i x c tail stmt :
  (forall x, In x l -> length (g x) = c) ->
  nth_error l i = Some x -> sseg (i * c) stmt (f x) (g x) ->
  stmt (part2 f g l i ++ tail) = Some (part2 f g l (S i) ++ tail).
Proof.
  intros Hc Hx [_ H]. assert (i < length l) by (apply nth_error_Some; congruence).
  unfold part2. rewrite (skipn_nth _ _ _ Hx). cbn [flat_map].
  rewrite <- !app_assoc. rewrite H by (fold (offs g l i); rewrite (offs_const g l i c); auto; lia).
  rewrite (firstn_S_nth _ _ _ Hx), flat_map_app'. simpl.
  rewrite app_nil_r, <- !app_assoc. reflexivity.
Qed.

(** three consecutive in-place updates of an [x,y,z] triple *)
Lemma sseg_3 {A} base (stmt : list A -> option (list A)) (x y z x' y' z' : A) :
  (forall a, rd a base = Some x -> rd a (base + 1) = Some y -> rd a (base + 2) = Some z ->
     base + 2 < length a ->
     stmt a = Some (upd (upd (upd a base x') (base + 1) y') (base + 2) z')) ->
  sseg base stmt [x; y; z] [x'; y'; z'].
Proof.
  intros H. split; auto. intros pre post Hp.
  assert (E : forall k, k < 3 -> rd (pre ++ [x; y; z] ++ post) (base + k) = nth_error [x; y; z] k).
  { intros k Hk. subst base. rewrite rd_mid by (simpl; lia). reflexivity. }
  rewrite H.
  - subst base. rewrite <- (Nat.add_0_r (length pre)) at 1.
    rewrite !upd_app_r. reflexivity.
  - rewrite <- (Nat.add_0_r base). rewrite E by lia. reflexivity.
  - rewrite E by lia. reflexivity.
  - rewrite E by lia. reflexivity.
  - rewrite !app_length. simpl. lia.
Qed.

(** ** nodes and edges *)
Section NE.
Context {A : Type}.
Implicit Types s : sys A.

Definition eo s (i : nat) : nat := offs n_edges s i.

Definition pairs s : list (node A * edge A) := flat_map (fun nd => map (pair nd) (n_edges nd)) s.

Lemma edge_index_eo s i j : edge_index s i j = eo s i + j.
Proof. reflexivity. Qed.

Lemma eo_0 s : eo s 0 = 0.
Proof. reflexivity. Qed.

Lemma eo_S s i nd : nth_error s i = Some nd -> eo s (S i) = eo s i + length (n_edges nd).
Proof. apply offs_S. Qed.

Lemma map_snd_pairs s : map snd (pairs s) = all_edges s.
Proof.
  unfold pairs, all_edges. rewrite map_flat_map. apply flat_map_ext_in. intros nd _.
  rewrite map_map. simpl. apply map_id.
Qed.

Lemma length_pairs s : length (pairs s) = length (all_edges s).
Proof. rewrite <- map_snd_pairs, map_length. reflexivity. Qed.

Lemma eo_all s : eo s (length s) = length (pairs s).
Proof. unfold eo. rewrite offs_all, length_pairs. reflexivity. Qed.

Lemma offs_pairs s i : offs (fun nd => map (pair nd) (n_edges nd)) s i = eo s i.
Proof.
  unfold eo, offs. rewrite !length_flat_map. f_equal. apply map_ext. intros nd. apply map_length.
Qed.

Lemma nth_pairs s i j nd e :
  nth_error s i = Some nd -> nth_error (n_edges nd) j = Some e ->
  nth_error (pairs s) (eo s i + j) = Some (nd, e).
Proof.
  intros Hn He. rewrite <- offs_pairs. unfold pairs.
  assert (j < length (n_edges nd)) by (apply nth_error_Some; congruence).
  rewrite nth_error_flat_map_offs with (x := nd); auto; [|rewrite map_length; auto].
  apply map_nth_error. auto.
Qed.

Lemma in_pairs s nd e : In (nd, e) (pairs s) <-> In nd s /\ In e (n_edges nd).
Proof.
  unfold pairs. rewrite in_flat_map. split.
  - intros (nd' & H1 & H2). apply in_map_iff in H2. destruct H2 as (e' & E & H2).
    inversion E; subst; auto.
  - intros [H1 H2]. exists nd. split; auto. apply in_map. auto.
Qed.

Lemma rd_types s i nd : nth_error s i = Some nd -> rd (f_node_types s) i = Some (n_type nd).
Proof. intros H. unfold rd, f_node_types. rewrite nth_error_map, H. reflexivity. Qed.

Lemma rd_num_neigh s i nd : nth_error s i = Some nd -> rd (f_num_neigh s) i = Some (length (n_edges nd)).
Proof. intros H. unfold rd, f_num_neigh. rewrite nth_error_map, H. reflexivity. Qed.

Section P.
Variables (s : sys A) (q : nat) (nd : node A) (e : edge A).
Hypothesis H : nth_error (pairs s) q = Some (nd, e).

Lemma nth_all_edges : nth_error (all_edges s) q = Some e.
Proof. rewrite <- map_snd_pairs, nth_error_map, H. reflexivity. Qed.

Lemma rd_neigh_types : rd (f_neigh_types s) q = Some (e_type e).
Proof. unfold rd, f_neigh_types. rewrite nth_error_map, nth_all_edges. reflexivity. Qed.

Lemma rd_neigh_indices : rd (f_neigh_indices s) q = Some (e_idx e).
Proof. unfold rd, f_neigh_indices. rewrite nth_error_map, nth_all_edges. reflexivity. Qed.

Lemma rd_r : rd (f_r s) q = Some (e_r e).
Proof. unfold rd, f_r. rewrite nth_error_map, nth_all_edges. reflexivity. Qed.

(** per-edge buffer with [c] entries for each edge *)
Lemma rd_ebuf {B} (f : node A * edge A -> list B) c p :
  (forall x, In x (pairs s) -> length (f x) = c) -> p < c ->
  rd (flat_map f (pairs s)) (q * c + p) = nth_error (f (nd, e)) p.
Proof. intros Hc Hp. unfold rd. apply nth_error_flat_map_const; auto. Qed.

Lemma f_xyz_pairs : f_xyz s = flat_map (fun p => [e_x (snd p); e_y (snd p); e_z (snd p)]) (pairs s).
Proof. unfold f_xyz. rewrite <- map_snd_pairs, flat_map_map. reflexivity. Qed.

Lemma rd_xyz p : p < 3 -> rd (f_xyz s) (q * 3 + p) = nth_error [e_x e; e_y e; e_z e] p.
Proof. intros Hp. rewrite f_xyz_pairs. rewrite rd_ebuf; auto. Qed.

Lemma rd_x : rd (f_xyz s) (q * 3) = Some (e_x e).
Proof. rewrite <- (Nat.add_0_r (q * 3)). rewrite rd_xyz by lia. reflexivity. Qed.
Lemma rd_y : rd (f_xyz s) (q * 3 + 1) = Some (e_y e).
Proof. rewrite rd_xyz by lia. reflexivity. Qed.
Lemma rd_z : rd (f_xyz s) (q * 3 + 2) = Some (e_z e).
Proof. rewrite rd_xyz by lia. reflexivity. Qed.
End P.

Lemma length_f_xyz s : length (f_xyz s) = length (pairs s) * 3.
Proof. rewrite f_xyz_pairs. apply length_flat_map_const. auto. Qed.
Lemma length_f_r s : length (f_r s) = length (pairs s).
Proof. unfold f_r. rewrite map_length, length_pairs. reflexivity. Qed.

(** per-node buffer with [c] entries per node *)
Lemma rd_nbuf {B} s (f : node A -> list B) i nd c p :
  (forall x, In x s -> length (f x) = c) -> nth_error s i = Some nd -> p < c ->
  rd (flat_map f s) (i * c + p) = nth_error (f nd) p.
Proof. intros Hc H Hp. unfold rd. apply nth_error_flat_map_const; auto. Qed.

(** the double loop: [st i] is the state before node [i], [st2 i nd j] inside node [i] before edge [j] *)
Lemma nodes_loop {St} s (body : nat -> St -> option St) (st : nat -> St) a0 a1 :
  a0 = st 0 -> a1 = st (length s) ->
  (forall i nd, nth_error s i = Some nd -> body i (st i) = Some (st (S i))) ->
  for_ (length s) body a0 = Some a1.
Proof.
  intros H0 H1 H. apply (for_trace st); auto. intros k Hk.
  destruct (nth_error s k) as [nd|] eqn:E; [|apply nth_error_None in E; lia]. eauto.
Qed.

Lemma edges_loop {St} s i nd (body : nat -> St -> option St) (st : nat -> St) a0 a1 :
  nth_error s i = Some nd ->
  a0 = st 0 -> a1 = st (length (n_edges nd)) ->
  (forall j e, nth_error (n_edges nd) j = Some e -> nth_error (pairs s) (eo s i + j) = Some (nd, e) ->
    body j (st j) = Some (st (S j))) ->
  for_ (length (n_edges nd)) body a0 = Some a1.
Proof.
  intros Hn H0 H1 H. apply (for_trace st); auto. intros k Hk.
  destruct (nth_error (n_edges nd) k) as [e|] eqn:E; [|apply nth_error_None in E; lia].
  eapply H; eauto. apply nth_pairs; auto.
Qed.

End NE.

(** ** left-to-right sums over a list *)
Section Fold.
Context {N : Num}.
Definition nfold {X} (l : list X) (g : X -> N) (a : N) : N := fold_left (fun acc x => nadd acc (g x)) l a.

Lemma nfold_app {X} (l1 l2 : list X) g a : nfold (l1 ++ l2) g a = nfold l2 g (nfold l1 g a).
Proof. apply fold_left_app. Qed.

Lemma nfold_snoc {X} (l : list X) x g a : nfold (l ++ [x]) g a = nadd (nfold l g a) (g x).
Proof. rewrite nfold_app. reflexivity. Qed.

Lemma nfold_firstn_S {X} (l : list X) i x g a :
  nth_error l i = Some x -> nfold (firstn (S i) l) g a = nadd (nfold (firstn i l) g a) (g x).
Proof. intros H. rewrite (firstn_S_nth _ _ _ H). apply nfold_snoc. Qed.

Lemma nfold_ext {X} (l : list X) g h a : (forall x, In x l -> g x = h x) -> nfold l g a = nfold l h a.
Proof.
  revert a. induction l as [|x l IH]; intros a H; simpl; auto.
  rewrite (H x) by (simpl; auto). apply IH. intros; apply H; simpl; auto.
Qed.

Lemma nfold_map {X Y} (l : list X) (h : X -> Y) g a : nfold (map h l) g a = nfold l (fun x => g (h x)) a.
Proof. revert a. induction l as [|x l IH]; intros a; simpl; auto. Qed.

End Fold.
