(** Two-dimensional blocks of flat buffers, blocks indexed by (l,m), and loops over lists. *)
From Coq Require Import List Arith Lia.
From Verif Require Import Base BaseLemmas Segs BlasLemmas Sys SysLoops.
Import ListNotations.

(** ** grids *)
Definition grid {A} (n K : nat) (f : nat -> nat -> A) : list A := flat_map (fun a => tab K (f a)) (seq 0 n).

Lemma length_grid {A} n K (f : nat -> nat -> A) : length (grid n K f) = n * K.
Proof.
  unfold grid. rewrite length_flat_map_const with (c := K) by (intros; apply length_tab).
  rewrite seq_length. reflexivity.
Qed.

Lemma nth_error_seq0 n i : i < n -> nth_error (seq 0 n) i = Some i.
Proof. intros H. rewrite (nth_error_nth' _ 0) by (rewrite seq_length; auto). rewrite seq_nth; auto. Qed.

Lemma rd_grid {A} n K (f : nat -> nat -> A) i j p : p = i * K + j -> i < n -> j < K ->
  rd (grid n K f) p = Some (f i j).
Proof.
  intros -> Hi Hj. unfold grid, rd.
  rewrite nth_error_flat_map_const with (c := K) (x := i); auto.
  - apply rd_tab; auto.
  - intros; apply length_tab.
  - apply nth_error_seq0; auto.
Qed.

Lemma nth_grid {A} n K (f : nat -> nat -> A) i j p d : p = i * K + j -> i < n -> j < K ->
  nth p (grid n K f) d = f i j.
Proof. intros. apply rd_nth. apply rd_grid; auto. Qed.

Lemma grid_ext {A} n K (f g : nat -> nat -> A) :
  (forall i j, i < n -> j < K -> f i j = g i j) -> grid n K f = grid n K g.
Proof.
  intros H. apply flat_map_ext_in. intros i Hi. apply in_seq in Hi. apply tab_ext. intros; apply H; lia.
Qed.

Lemma grid_of_list {A} (l : list A) n K d : length l = n * K ->
  l = grid n K (fun i j => nth (i * K + j) l d).
Proof.
  intros H. apply list_eq_nth with (d := d); [rewrite length_grid; auto|].
  intros p Hp. destruct (Nat.eq_dec K 0) as [->|HK]; [lia|].
  pose proof (Nat.div_mod_eq p K). pose proof (Nat.mod_upper_bound p K HK).
  assert (p / K < n) by (apply Nat.div_lt_upper_bound; lia).
  rewrite (nth_grid n K _ (p / K) (p mod K)) by lia. f_equal. lia.
Qed.

(** three levels: node, row, channel *)
Definition cube {A} (n a K : nat) (f : nat -> nat -> nat -> A) : list A :=
  flat_map (fun i => grid a K (f i)) (seq 0 n).

Lemma length_cube {A} n a K (f : nat -> nat -> nat -> A) : length (cube n a K f) = n * (a * K).
Proof.
  unfold cube. rewrite length_flat_map_const with (c := a * K) by (intros; apply length_grid).
  rewrite seq_length. reflexivity.
Qed.

Lemma rd_cube {A} n a K (f : nat -> nat -> nat -> A) i b j p : p = i * (a * K) + (b * K + j) ->
  i < n -> b < a -> j < K -> rd (cube n a K f) p = Some (f i b j).
Proof.
  intros -> Hi Hb Hj. unfold cube, rd.
  assert (b * K + j < a * K) by nia.
  rewrite nth_error_flat_map_const with (c := a * K) (x := i); auto.
  - apply rd_grid with (i := b) (j := j); auto.
  - intros; apply length_grid.
  - apply nth_error_seq0; auto.
Qed.

Lemma cube_ext {A} n a K (f g : nat -> nat -> nat -> A) :
  (forall i b j, i < n -> b < a -> j < K -> f i b j = g i b j) -> cube n a K f = cube n a K g.
Proof.
  intros H. apply flat_map_ext_in. intros i Hi. apply in_seq in Hi. apply grid_ext. intros; apply H; lia.
Qed.

Lemma cube_of_list {A} (l : list A) n a K d : length l = n * (a * K) ->
  l = cube n a K (fun i b j => nth (i * (a * K) + (b * K + j)) l d).
Proof.
  intros H. rewrite (grid_of_list l n (a * K) d H) at 1. unfold grid, cube.
  apply flat_map_ext_in. intros i Hi. apply in_seq in Hi.
  rewrite (grid_of_list (tab (a * K) (fun j => nth (i * (a * K) + j) l d)) a K d) by apply length_tab.
  apply grid_ext. intros b j Hb Hj. rewrite nth_tab by nia. reflexivity.
Qed.

(** ** (l,m) blocks *)
Lemma sum_odd L : lsum (map (fun l => 2 * l + 1) (seq 0 L)) = L * L.
Proof.
  induction L as [|L IH]; auto. rewrite seq_S, map_app, lsum_app, IH. simpl. lia.
Qed.

Lemma sqrt_lm l mm : mm < 2 * l + 1 -> Nat.sqrt (l * l + mm) = l.
Proof. intros H. apply Nat.sqrt_unique. lia. Qed.

Lemma sqrt_lt lm L : lm < L * L -> Nat.sqrt lm < L.
Proof. intros H. pose proof (Nat.sqrt_spec' lm). nia. Qed.

Lemma lm_split lm L : lm < L * L -> exists l mm, l < L /\ mm < 2 * l + 1 /\ lm = l * l + mm.
Proof.
  intros H. exists (Nat.sqrt lm), (lm - Nat.sqrt lm * Nat.sqrt lm).
  pose proof (Nat.sqrt_spec' lm). pose proof (sqrt_lt lm L H). repeat split; try lia.
Qed.

Lemma flat_map_lm {A} (F : nat -> list A) L :
  flat_map (fun l => flat_map (fun mm => F (l * l + mm)) (seq 0 (2 * l + 1))) (seq 0 L) = flat_map F (seq 0 (L * L)).
Proof.
  induction L as [|L IH]; auto. rewrite flat_map_S, IH. cbn [plus].
  replace (S L * S L) with (L * L + (2 * L + 1)) by lia.
  rewrite (seq_app (L * L) (2 * L + 1) 0), flat_map_app'. f_equal.
  cbn [plus]. symmetry. apply flat_map_seq_shift.
Qed.

(** in-place update of all cells of a grid, block by block *)
Lemma sseg_lm {A} base L K (body : nat -> nat -> list A -> option (list A)) (f g : nat -> nat -> A) :
  (forall l mm, l < L -> mm < 2 * l + 1 ->
     sseg (base + (l * l + mm) * K) (body l mm) (tab K (f (l * l + mm))) (tab K (g (l * l + mm)))) ->
  sseg base (for_ L (fun l => for_ (2 * l + 1) (body l))) (grid (L * L) K f) (grid (L * L) K g).
Proof.
  intros H. unfold grid. rewrite <- !flat_map_lm. apply sseg_for. intros l Hl.
  apply sseg_for_const with (sz := K); [intros; apply length_tab|].
  intros mm Hm. replace (base + _ + mm * K) with (base + (l * l + mm) * K); [apply H; auto|].
  rewrite flat_map_lm with (F := fun a => tab K (f a)).
  rewrite length_flat_map_const with (c := K) by (intros; apply length_tab). rewrite seq_length. lia.
Qed.

(** overwriting a grid block by block *)
Lemma swr_l {A} base len L K (body : nat -> list A -> option (list A)) (g : nat -> nat -> A) :
  (forall l, l < L -> swr (base + l * l * K) ((2 * l + 1) * K) (body l)
      (flat_map (fun mm => tab K (g (l * l + mm))) (seq 0 (2 * l + 1)))) ->
  len = L * L * K ->
  swr base len (for_ L body) (grid (L * L) K g).
Proof.
  intros H ->. unfold grid. rewrite <- flat_map_lm.
  apply swr_for with (sz := fun l => (2 * l + 1) * K).
  - intros l Hl. replace (lsum _) with (l * l * K); [apply H; auto|].
    rewrite <- sum_odd. clear. induction (seq 0 l) as [|x t IH]; simpl in *; nia.
  - rewrite <- sum_odd. clear. induction (seq 0 L) as [|x t IH]; simpl in *; nia.
Qed.

(** ** loops over lists *)
Fixpoint fl {X St} (l : list X) (body : X -> St -> option St) (s : St) : option St :=
  match l with [] => Some s | x :: t => s' <- body x s ;; fl t body s' end.

Lemma fl_app {X St} (l1 l2 : list X) (body : X -> St -> option St) s :
  fl (l1 ++ l2) body s = (s' <- fl l1 body s ;; fl l2 body s').
Proof.
  revert s. induction l1 as [|x l1 IH]; intros s; simpl; auto.
  destruct (body x s); simpl; auto.
Qed.

Lemma fl_ext {X St} (l : list X) (b1 b2 : X -> St -> option St) s :
  (forall x s, In x l -> b1 x s = b2 x s) -> fl l b1 s = fl l b2 s.
Proof.
  revert s. induction l as [|x l IH]; intros s H; simpl; auto.
  rewrite H by (simpl; auto). destruct (b2 x s); simpl; auto. apply IH. intros; apply H; simpl; auto.
Qed.

Lemma fl_flat_map {X Y St} (g : Y -> list X) (l : list Y) (body : X -> St -> option St) s :
  fl (flat_map g l) body s = fl l (fun y => fl (g y) body) s.
Proof.
  revert s. induction l as [|y l IH]; intros s; simpl; auto. rewrite fl_app.
  destruct (fl (g y) body s); simpl; auto.
Qed.

Lemma fl_map {X Y St} (g : Y -> X) (l : list Y) (body : X -> St -> option St) s :
  fl (map g l) body s = fl l (fun y => body (g y)) s.
Proof. revert s. induction l as [|y l IH]; intros s; simpl; auto. destruct (body (g y) s); simpl; auto. Qed.

Lemma for_from_fl {St} n lo (body : nat -> St -> option St) s : for_from n lo body s = fl (seq lo n) body s.
Proof. revert lo s. induction n as [|n IH]; intros lo s; simpl; auto. destruct (body lo s); simpl; auto. Qed.

Lemma for_fl {St} n (body : nat -> St -> option St) s : for_ n body s = fl (seq 0 n) body s.
Proof. apply for_from_fl. Qed.

Lemma for_range_fl {St} lo hi (body : nat -> St -> option St) s :
  for_range lo hi body s = fl (seq lo (hi - lo)) body s.
Proof. apply for_from_fl. Qed.

Lemma fl_trace {X St} (st : nat -> St) (l : list X) (body : X -> St -> option St) s0 s1 :
  s0 = st 0 -> s1 = st (length l) ->
  (forall i x, nth_error l i = Some x -> body x (st i) = Some (st (S i))) ->
  fl l body s0 = Some s1.
Proof.
  intros -> -> H. revert st H. induction l as [|x l IH]; intros st H; simpl; auto.
  rewrite (H 0 x eq_refl). cbn [bind]. apply (IH (fun i => st (S i))).
  intros i y Hy. apply (H (S i) y Hy).
Qed.

Lemma flat_map_tab {A B} (f : A -> list B) n (g : nat -> A) : flat_map f (tab n g) = flat_map (fun i => f (g i)) (seq 0 n).
Proof. unfold tab. apply flat_map_map. Qed.
