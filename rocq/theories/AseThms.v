(** Lemmas about the ASE calculator model. *)
From Coq Require Import List Arith ZArith Lia Bool Sorted Permutation.
From Verif Require Import Base BaseLemmas MaceModel Sys MacePure MaceSpec MaceSpec2 MacePipe MaceLoad MaceFlat MaceThms AseModel AseSpec.
Import ListNotations.

Lemma py_index_species nums Z t : species_of nums Z t -> py_index nums Z = Some t.
Proof.
  revert t. induction nums as [|a nums IH]; intros t [H1 H2]; [destruct t; discriminate|].
  cbn [py_index]. destruct (Nat.eqb_spec a Z) as [E|E].
  - destruct t as [|t]; [reflexivity|]. exfalso. apply (H2 0); [lia|]. cbn. congruence.
  - destruct t as [|t]; [cbn in H1; congruence|]. rewrite (IH t); [reflexivity|]. split; [exact H1|]. intros t' Ht'. apply (H2 (S t')). lia.
Qed.

Lemma py_map_some {A B} (g : A -> option B) l (h : A -> B) : (forall a, In a l -> g a = Some (h a)) -> py_map g l = Some (map h l).
Proof.
  induction l as [|a l IH]; intros H; [reflexivity|]. cbn [py_map map]. rewrite H by (simpl; auto). cbn [bind].
  rewrite IH by (intros; apply H; simpl; auto). reflexivity.
Qed.

Lemma np_max_list l : l <> [] -> np_max l = Some (list_max l).
Proof.
  induction l as [|a l IH]; intros H; [congruence|]. cbn [np_max]. destruct l as [|b l]; [cbn; f_equal; lia|].
  rewrite IH by discriminate. reflexivity.
Qed.
Lemma list_max_in l a : In a l -> a <= list_max l.
Proof. intros H. assert (F : Forall (fun k => k <= list_max l) l) by (apply list_max_le; lia). rewrite Forall_forall in F. auto. Qed.

Lemma bc_len_ok l k : (forall a, In a l -> a < k) -> bc_len l k = k.
Proof.
  intros H. unfold bc_len. destruct l as [|a l]; [reflexivity|]. rewrite np_max_list by discriminate.
  assert (list_max (a :: l) < k); [|lia]. apply list_max_lt; [discriminate|]. apply Forall_forall. auto.
Qed.

Lemma bincount_ok l k : (forall a, In a l -> a < k) -> bincount l k = map (count_occ Nat.eq_dec l) (seq 0 k).
Proof.
  intros H. unfold bincount. rewrite bc_len_ok by auto.
  assert (G : forall l c, length c = k -> (forall a, In a l -> a < k) ->
    fold_left (fun c j => upd c j (S (nth j c 0))) l c = map (fun a => nth a c 0 + count_occ Nat.eq_dec l a) (seq 0 k)).
  { clear. induction l as [|j l IH]; intros c Hc H; cbn [fold_left].
    - apply (list_eq_nth _ _ 0); [rewrite map_length, seq_length; auto|]. intros i Hi.
      etransitivity; [|symmetry; apply (nth_tab k (fun a => nth a c 0 + count_occ Nat.eq_dec [] a) i 0); lia]. cbn. lia.
    - rewrite IH; [|rewrite length_upd; auto|intros; apply H; simpl; auto]. apply map_ext_in. intros a Ha. apply in_seq in Ha.
      rewrite nth_upd by (rewrite Hc; apply H; simpl; auto). cbn [count_occ].
      destruct (Nat.eqb_spec j a) as [E|E]; destruct (Nat.eq_dec j a) as [E'|E']; try congruence; subst; lia. }
  rewrite G by (auto; apply repeat_length). apply map_ext_in. intros a _. rewrite nth_repeat. reflexivity.
Qed.

Section Generic.
Context {N : Num}.

(** the entries of [w] at the positions where [l] is [a], summed in order *)
Definition pick (l : list nat) (w : nat -> N) (q a : nat) : N :=
  fold_left (fun s p => if nth p l 0 =? a then nadd s (w p) else s) (seq 0 q) nzero.

Lemma bc_len_in l k a : In a l -> a < bc_len l k.
Proof. intros H. unfold bc_len. rewrite np_max_list by (intros ->; destruct H). apply list_max_in in H. lia. Qed.
Lemma bincount_w_gen l w k : length l = length w ->
  bincount_w l w k = Some (tab (bc_len l k) (fun a => pick l (fun p => nth p w nzero) (length l) a)).
Proof.
  intros Hl. unfold bincount_w. rewrite Hl at 1. rewrite Nat.eqb_refl. pose proof (bc_len_in l k) as H. set (K := bc_len l k) in *. clearbody K.
  apply (for_trace (fun q => tab K (fun a => pick l (fun p => nth p w nzero) q a))).
  - unfold tab, pick. cbn [seq fold_left]. clear. generalize 0 as s. induction K as [|k IH]; intros s; [reflexivity|]. cbn. rewrite (IH (S s)) at 1. reflexivity.
  - reflexivity.
  - intros q Hq. rewrite (rd_some l q 0) by auto. cbn [bind]. rewrite (rd_some w q nzero) by lia. cbn [bind].
    assert (Hj : nth q l 0 < K) by (apply H; apply nth_In; auto). unfold addto. rewrite rd_tab by auto. cbn [bind].
    rewrite wr_some by (rewrite length_tab; auto). f_equal.
    apply (list_eq_nth _ _ nzero); [rewrite length_upd, !length_tab; auto|]. intros a Ha. rewrite length_upd, length_tab in Ha.
    rewrite nth_upd by (rewrite length_tab; auto). rewrite !nth_tab by auto. unfold pick. rewrite seq_S, fold_left_app. cbn [fold_left Nat.add].
    destruct (Nat.eqb_spec (nth q l 0) a) as [->|E]; reflexivity.
Qed.
Lemma bincount_w_ok l w k : length l = length w -> (forall a, In a l -> a < k) ->
  bincount_w l w k = Some (tab k (fun a => pick l (fun p => nth p w nzero) (length l) a)).
Proof. intros Hl H. rewrite bincount_w_gen by auto. rewrite bc_len_ok by auto. reflexivity. Qed.

Lemma np_sub_tab n (g h : nat -> N) : np_sub (tab n g) (tab n h) = Some (tab n (fun a => nsub (g a) (h a))).
Proof.
  unfold np_sub. rewrite !length_tab, Nat.eqb_refl. f_equal. unfold tab. generalize (seq 0 n) as s. clear. induction s as [|a s IH]; [reflexivity|].
  cbn [map combine fst snd]. rewrite IH. reflexivity.
Qed.
Lemma length_col (a : list N) c n : length a = 3 * n -> length (col a c) = n /\ forall q, q < n -> nth q (col a c) nzero = nth (3 * q + c) a nzero.
Proof.
  intros H. unfold col. assert (E : length a / 3 = n) by (rewrite H, Nat.mul_comm, Nat.div_mul; lia). rewrite E. split.
  - rewrite map_length, seq_length. reflexivity.
  - intros q Hq. apply (nth_tab n (fun q => nth (3 * q + c) a nzero) q nzero Hq).
Qed.

Variable sph : nat -> N -> N -> N -> list N * list N.
Hypothesis Hsph : sph_ok sph.
Variable srt : list (list (list nat)) -> list (list (list nat)).
Hypothesis Hsrt : forall l, Permutation l (srt l).
Variable f : mace_file N.
Hypothesis F : file_ok f.
Notation live b := (bufs_live (ldm f) (ldp0 srt f) (ldp1 srt f) (ldlive f) b).

Variables numbers types il jl : list nat.
Hypothesis SM : species_map (f_atomic_numbers f) numbers types.
Hypothesis NL : nl_ok (length numbers) il jl.
Hypothesis Hne : il <> [].
Notation n := (S (list_max il)).

Lemma jl_in a : In a jl <-> In a il.
Proof. rewrite !(count_occ_In Nat.eq_dec), (nl_sym _ _ _ NL). reflexivity. Qed.
Lemma jl_lt a : In a jl -> a < n.
Proof. intros H. apply jl_in in H. apply list_max_in in H. lia. Qed.
Lemma n_le : n <= length numbers.
Proof.
  assert (list_max il < length numbers); [|lia]. apply list_max_lt; [exact Hne|]. apply Forall_forall. apply (nl_i _ _ _ NL).
Qed.
Lemma species_at a : a < length numbers -> (z <- rd numbers a ;; py_index (f_atomic_numbers f) z) = Some (nth a types 0).
Proof.
  intros Ha. rewrite (rd_some numbers a 0 Ha). cbn [bind]. apply py_index_species. apply (proj2 SM a).
  - apply (nth_error_nth' numbers 0 Ha).
  - apply nth_error_nth'. rewrite (proj1 SM). exact Ha.
Qed.

Definition pair_sum (F : list N) (l : list nat) (a c : nat) : N := pick l (fun q => nth (3 * q + c) F nzero) (length il) a.
Definition stress_sum (F xyz : list N) (V : N) (a c : nat) : N :=
  ndiv (fold_left nadd (map (fun q => nmul (nopp (nth (3 * q + a) F nzero)) (nth (3 * q + c) xyz nzero)) (seq 0 (length il))) nzero) V.

Lemma pick_ext l w w' q a : (forall p, p < q -> w p = w' p) -> pick l w q a = pick l w' q a.
Proof.
  intros H. unfold pick. assert (G : forall s k, (forall p, In p s -> p < q) -> fold_left (fun s p => if nth p l 0 =? a then nadd s (w p) else s) s k =
    fold_left (fun s p => if nth p l 0 =? a then nadd s (w' p) else s) s k).
  { induction s as [|p s IH]; intros k Hs; [reflexivity|]. cbn [fold_left]. rewrite H by (apply Hs; simpl; auto). apply IH. intros; apply Hs; simpl; auto. }
  apply G. intros p Hp. apply in_seq in Hp. lia.
Qed.

Lemma calc_ok b V r xyz : live b -> input_ok f (nl_input n types il jl r xyz) -> exists b',
  call sph (ldm f) b (nl_input n types il jl r xyz) = Some b' /\ live b' /\ length (b_node_energies b') = n /\
  length (b_node_forces b') = 3 * length il /\
  let G := b_node_forces b' in
  calculate sph (ldm f) b numbers (Some V) il jl r xyz = Some (b', mkRes
    (fold_left nadd (b_node_energies b') nzero) (b_node_energies b')
    (flat_map (fun a => [nsub (pair_sum G jl a 0) (pair_sum G il a 0); nsub (pair_sum G jl a 1) (pair_sum G il a 1);
                         nsub (pair_sum G jl a 2) (pair_sum G il a 2)]) (seq 0 (length numbers)))
    (let s := stress_sum G xyz V in [s 0 0; s 1 1; s 2 2; ndiv (nadd (s 1 2) (s 2 1)) (nofZ 2); ndiv (nadd (s 0 2) (s 2 0)) (nofZ 2);
       ndiv (nadd (s 0 1) (s 1 0)) (nofZ 2)])).
Proof.
  intros Hb Hx. destruct (call_ok sph Hsph srt f F b _ Hb Hx) as (b' & E & L & HE & HF).
  pose proof (io_xyz _ _ Hx) as Lx. pose proof (io_idx _ _ Hx) as Lj. cbn [nl_input i_xyz i_num_neigh i_neigh_indices] in Lx, Lj.
  rewrite <- Lj in Lx. pose proof (nl_len _ _ _ NL) as Lij.
  assert (LF : length (b_node_forces b') = 3 * length il).
  { rewrite HF, MaceStages1.length_eb. rewrite <- (MaceStages1.length_xyz (sys_of _)).
    pose proof (flat_sys_of f _ Hx) as EF. apply (f_equal i_xyz) in EF. cbn [flat i_xyz] in EF. rewrite EF. cbn [nl_input i_xyz]. lia. }
  exists b'. split; [exact E|]. split; [exact L|]. split; [rewrite HE; apply length_tab|]. split; [exact LF|]. cbv zeta.
  unfold calculate. rewrite np_max_list by exact Hne. cbn [bind]. replace (list_max il + 1) with n by lia. cbn [ldm m_atomic_numbers].
  rewrite (py_map_some _ (seq 0 n) (fun a => nth a types 0)) by (intros a Ha; apply in_seq in Ha; apply species_at; pose proof n_le; lia). cbn [bind].
  rewrite (py_map_some _ jl (fun a => nth a types 0)) by (intros a Ha; apply species_at; apply (nl_i _ _ _ NL); apply jl_in; exact Ha). cbn [bind].
  rewrite (bincount_ok jl n) by apply jl_lt.
  assert (EC : compute_node_energies_forces sph (ldm f) b n (map (fun a => nth a types 0) (seq 0 n)) (map (count_occ Nat.eq_dec jl) (seq 0 n)) jl
     (map (fun a => nth a types 0) jl) xyz r = Some b').
  { rewrite <- E. unfold call, nl_input. cbn [i_num_nodes i_node_types i_num_neigh i_neigh_indices i_neigh_types i_xyz i_r].
    replace (map (fun a => nth a types 0) (seq 0 n)) with (firstn n types).
    - replace (map (count_occ Nat.eq_dec jl) (seq 0 n)) with (map (count_occ Nat.eq_dec il) (seq 0 n)); [reflexivity|].
      apply map_ext. intros a. symmetry. apply (nl_sym _ _ _ NL).
    - assert (Ln : n <= length types) by (rewrite (proj1 SM); apply n_le).
      apply (list_eq_nth _ _ 0); [rewrite firstn_length, map_length, seq_length; lia|]. intros a Ha. rewrite firstn_length in Ha.
      transitivity (nth a types 0).
      + rewrite <- (firstn_skipn n types) at 2. symmetry. apply app_nth1. rewrite firstn_length. lia.
      + symmetry. apply (nth_tab n (fun a => nth a types 0) a 0). lia. }
  cbn [ldm] in EC |- *. rewrite EC. cbn [bind]. rewrite LF.
  replace (3 * length il) with (length il * 3) at 1 by lia. rewrite Nat.mod_mul by lia. cbn [Nat.eqb negb].
  assert (EF : firstn (3 * length il) (b_node_forces b') = b_node_forces b') by (rewrite <- LF; apply firstn_all). rewrite EF.
  set (G := b_node_forces b') in *.
  assert (BC : forall l c, length l = length il -> (forall a, In a l -> a < length numbers) ->
     bincount_w l (col G c) (length numbers) = Some (tab (length numbers) (fun a => pair_sum G l a c))).
  { intros l c Hl Hin. destruct (length_col G c (length il) LF) as [C1 C2]. rewrite bincount_w_ok by (congruence || auto). f_equal.
    apply tab_ext. intros a Ha. unfold pair_sum. rewrite Hl. apply pick_ext. intros p Hp. apply C2. exact Hp. }
  assert (Ij : forall a, In a jl -> a < length numbers) by (intros a Ha; apply (nl_i _ _ _ NL); apply jl_in; exact Ha).
  rewrite !(BC jl), !(BC il) by (auto; apply (nl_i _ _ _ NL)). cbn [bind]. rewrite !np_sub_tab. cbn [bind].
  rewrite !length_tab, Nat.eqb_refl. cbn [andb negb].
  assert (Lx' : length G = length xyz) by lia. rewrite <- Lx', Nat.eqb_refl. cbn [negb]. do 3 f_equal.
  - apply flat_map_ext_in. intros a Ha. apply in_seq in Ha. rewrite !nth_tab by lia. reflexivity.
  - assert (D3 : length G / 3 = length il) by (rewrite LF, Nat.mul_comm, Nat.div_mul; lia). rewrite D3. reflexivity.
Qed.

(** the edges of the call belong to the first atoms of the pairs *)
Lemma owners_il : owners (map (count_occ Nat.eq_dec il) (seq 0 n)) = il.
Proof.
  unfold owners. rewrite map_length, seq_length.
  rewrite (flat_map_ext_in _ (fun i => repeat i (count_occ Nat.eq_dec il i))).
  2:{ intros i Hi. apply in_seq in Hi. f_equal. apply (nth_tab n (count_occ Nat.eq_dec il) i 0). lia. }
  assert (G : forall l s k, StronglySorted le l -> (forall a, In a l -> s <= a < s + k) ->
    flat_map (fun i => repeat i (count_occ Nat.eq_dec l i)) (seq s k) = l).
  { clear. intros l s k. revert l s. induction k as [|k IH]; intros l s Hs H.
    - destruct l as [|a l]; [reflexivity|]. specialize (H a (or_introl eq_refl)). lia.
    - cbn [seq flat_map]. induction Hs as [|a l Hs IHs Hf].
      + cbn [count_occ repeat app]. clear. induction (seq (S s) k); auto.
      + destruct (Nat.eq_dec a s) as [->|Hne].
        * cbn [count_occ]. destruct (Nat.eq_dec s s) as [_|C]; [|congruence]. cbn [repeat app]. f_equal.
          etransitivity; [|apply IHs; intros; apply H; simpl; auto]. f_equal. apply flat_map_ext_in. intros i Hi. apply in_seq in Hi.
          destruct (Nat.eq_dec s i); [lia|reflexivity].
        * assert (Ha : s < a) by (specialize (H a (or_introl eq_refl)); lia).
          assert (Hall : forall c, In c (a :: l) -> S s <= c < S s + k).
          { intros c [<-|Hc]; [specialize (H a (or_introl eq_refl)); lia|]. rewrite Forall_forall in Hf. specialize (Hf c Hc).
            specialize (H c (or_intror Hc)). lia. }
          assert (E0 : count_occ Nat.eq_dec (a :: l) s = 0).
          { apply count_occ_not_In. intros C. specialize (Hall s C). lia. }
          rewrite E0. cbn [repeat app]. apply IH; [constructor; auto|exact Hall]. }
  apply G; [apply (nl_sorted _ _ _ NL)|]. intros a Ha. apply list_max_in in Ha. lia.
Qed.

Lemma load_calls hist : Forall (input_ok f) hist -> exists b0 bh, load_from_json srt f = Some (ldm f, b0) /\
  calls sph (ldm f) b0 hist = Some bh /\ live bh.
Proof.
  intros Hh. destruct (load_ok srt Hsrt f F) as (b0 & E0 & L0). destruct (calls_ok sph Hsph srt f F b0 hist L0 Hh) as (bh & Eh & Lh).
  exists b0, bh. auto.
Qed.

(** what [calculate] evaluates *)
Lemma ase_energies hist V r xyz : Forall (input_ok f) hist -> input_ok f (nl_input n types il jl r xyz) ->
  exists m b0 bh b1 b2 res, load_from_json srt f = Some (m, b0) /\ calls sph m b0 hist = Some bh /\
    calculate sph m bh numbers (Some V) il jl r xyz = Some (b1, res) /\
    call sph m bh (nl_input n types il jl r xyz) = Some b2 /\ res_energies res = b_node_energies b2 /\
    length (res_energies res) = n /\ res_energy res = fold_left nadd (res_energies res) nzero.
Proof.
  intros Hh Hx. destruct (load_calls hist Hh) as (b0 & bh & E0 & Eh & Lh).
  destruct (calc_ok bh V r xyz Lh Hx) as (b' & E1 & _ & E3 & _ & E5). cbv zeta in E5.
  eexists (ldm f), b0, bh, b', b', _. split; [exact E0|]. split; [exact Eh|]. split; [exact E5|]. split; [exact E1|].
  split; [reflexivity|]. split; [exact E3|reflexivity].
Qed.
Lemma ase_volume hist V V' r xyz : Forall (input_ok f) hist -> input_ok f (nl_input n types il jl r xyz) ->
  exists m b0 bh b1 res res', load_from_json srt f = Some (m, b0) /\ calls sph m b0 hist = Some bh /\
    calculate sph m bh numbers (Some V) il jl r xyz = Some (b1, res) /\
    calculate sph m bh numbers (Some V') il jl r xyz = Some (b1, res') /\
    res_energy res = res_energy res' /\ res_energies res = res_energies res' /\ res_forces res = res_forces res'.
Proof.
  intros Hh Hx. destruct (load_calls hist Hh) as (b0 & bh & E0 & Eh & Lh).
  destruct (calc_ok bh V r xyz Lh Hx) as (b' & E1 & _ & E3 & _ & E5).
  destruct (calc_ok bh V' r xyz Lh Hx) as (b2 & E1' & _ & _ & _ & E5'). rewrite E1 in E1'. injection E1' as <-. cbv zeta in E5, E5'.
  eexists (ldm f), b0, bh, b', _, _. split; [exact E0|]. split; [exact Eh|]. split; [exact E5|]. split; [exact E5'|]. repeat split.
Qed.
End Generic.

Lemma no_volume (N : Num) sph (m : mace_model N) b numbers il jl r xyz : calculate sph m b numbers None il jl r xyz = None.
Proof.
  unfold calculate. destruct (np_max il); [cbn [bind]|reflexivity]. destruct (py_map _ _); [cbn [bind]|reflexivity].
  destruct (py_map _ _); [cbn [bind]|reflexivity]. destruct (compute_node_energies_forces _ _ _ _ _ _ _ _ _ _); [cbn [bind]|reflexivity].
  destruct (negb _); [reflexivity|]. do 3 (match goal with |- (_ <- ?e ;; _) = _ => destruct e end; [cbn [bind]|reflexivity]).
  destruct (negb _); [reflexivity|]. destruct (negb _); reflexivity.
Qed.
