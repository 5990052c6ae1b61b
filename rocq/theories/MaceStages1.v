(** Stages of [MACE]: loops, radial functions, spherical harmonics. *)
From Coq Require Import List Arith ZArith Lia Bool.
From Verif Require Import Base BaseLemmas Segs BlasModel BlasLemmas SplineModel SplineProofs MpModel MlpModel
  ZblModel MaceModel Sys SysLoops MaceGrid MacePure.
Import ListNotations.

(** [part] as a split around the piece to be written *)
Lemma part_split {A B} (f : A -> list B) l old i x c :
  (forall x, In x l -> length (f x) = c) ->
  nth_error l i = Some x -> length old = length l * c ->
  exists pre seg post, part f l old i = pre ++ seg ++ post /\ part f l old (S i) = pre ++ f x ++ post /\
    length pre = i * c /\ length seg = c.
Proof.
  intros Hc Hx Ho. assert (Hi : i < length l) by (apply nth_error_Some; congruence).
  assert (Hlf : length (flat_map f l) = length l * c) by (apply length_flat_map_const; auto).
  pose proof (offs_const f l i c Hc ltac:(lia)) as Ei.
  pose proof (offs_const f l (S i) c Hc ltac:(lia)) as ES.
  exists (flat_map f (firstn i l)), (firstn c (skipn (i * c) old)), (skipn (S i * c) old).
  repeat split.
  - unfold part. rewrite Ei. f_equal. rewrite <- (firstn_skipn c (skipn (i * c) old)) at 1. f_equal.
    rewrite skipn_skipn'. f_equal. lia.
  - unfold part. rewrite ES, (firstn_S_nth _ _ _ Hx), flat_map_app'. simpl. rewrite app_nil_r, <- app_assoc.
    reflexivity.
  - exact Ei.
  - apply firstn_length_le. rewrite skipn_length. nia.
Qed.

Lemma pair_index_lt T t u : t < T -> u < T -> t <= u ->
  t * (2 * T - t - 1) / 2 + u < T * (T + 1) / 2.
Proof.
  intros Ht Hu Hle.
  assert (H1 : exists a, t * (2 * T - t - 1) = 2 * a).
  { destruct (Nat.Even_or_Odd t) as [[b ->]|[b ->]].
    - exists (b * (2 * T - 2 * b - 1)). lia.
    - exists ((2 * b + 1) * (T - b - 1)). nia. }
  assert (H2 : exists a, T * (T + 1) = 2 * a).
  { destruct (Nat.Even_or_Odd T) as [[b ->]|[b ->]].
    - exists (b * (2 * b + 1)). lia.
    - exists ((2 * b + 1) * (b + 1)). lia. }
  destruct H1 as [a Ha], H2 as [b Hb]. rewrite Ha, Hb.
  rewrite (Nat.mul_comm 2 a), (Nat.mul_comm 2 b), !Nat.div_mul by lia.
  assert (Ha' : t * (2 * T - t - 1) + t * t + t = 2 * T * t) by nia.
  nia.
Qed.

Section Basics.
Context {N : Num}.
Variable m : mace_model N.
Variable s : sys N.
Notation n := (length s).
Notation T := (length (m_atomic_numbers m)).

Lemma tyij_lt t u : t < T -> u < T -> tyij m t u < T * (T + 1) / 2.
Proof.
  intros Ht Hu. unfold tyij. destruct (Nat.leb_spec t u); apply pair_index_lt; lia.
Qed.

Lemma nd_nth i nd : nth_error s i = Some nd -> nd_ s i = nd.
Proof. intros H. unfold nd_. apply (nth_error_nth _ _ _ H). Qed.

Lemma nth_nd i : i < n -> nth_error s i = Some (nd_ s i).
Proof. intros H. apply nth_error_nth'. auto. Qed.

Lemma map_snd_epairs : map snd (epairs s) = all_edges s.
Proof.
  unfold epairs, all_edges. rewrite map_flat_map.
  rewrite <- (flat_map_seq_nth n_edges s (mkNode 0 [])).
  apply flat_map_ext_in. intros i _. rewrite map_map. simpl. apply map_id.
Qed.

Lemma length_epairs : length (epairs s) = length (pairs s).
Proof. rewrite length_pairs, <- map_snd_epairs, map_length. reflexivity. Qed.

Lemma nth_epairs i j e : i < n -> nth_error (es s i) j = Some e -> nth_error (epairs s) (eo s i + j) = Some (i, e).
Proof.
  intros Hi He. unfold epairs.
  assert (j < length (es s i)) by (apply nth_error_Some; congruence).
  replace (eo s i) with (offs (fun i => map (pair i) (es s i)) (seq 0 n) i).
  - rewrite nth_error_flat_map_offs with (x := i); auto; [| |rewrite map_length; auto].
    + apply map_nth_error. auto.
    + apply nth_error_seq0. auto.
  - unfold eo, offs. rewrite !length_flat_map.
    replace (firstn i (seq 0 n)) with (seq 0 i).
    + rewrite <- (map_seq_nth (fun nd => length (n_edges nd)) (firstn i s) (mkNode 0 [])).
      rewrite firstn_length_le by lia. f_equal. apply map_ext_in. intros a Ha. apply in_seq in Ha.
      rewrite map_length. unfold es, nd_. f_equal. f_equal.
      rewrite <- (firstn_skipn i s) at 1. apply app_nth1. rewrite firstn_length_le; lia.
    + replace n with (i + (n - i)) by lia. rewrite seq_app, firstn_app, seq_length, Nat.sub_diag.
      simpl. rewrite app_nil_r. rewrite firstn_all2; auto. rewrite seq_length; lia.
Qed.

Lemma in_epairs i e : In (i, e) (epairs s) <-> i < n /\ In e (es s i).
Proof.
  unfold epairs. rewrite in_flat_map. split.
  - intros (i' & H1 & H2). apply in_map_iff in H2. destruct H2 as (e' & E & H2).
    inversion E; subst. apply in_seq in H1. split; auto. lia.
  - intros [H1 H2]. exists i. split; [apply in_seq; lia|apply in_map; auto].
Qed.

Lemma eo_S' i : i < n -> eo s (S i) = eo s i + length (es s i).
Proof. intros H. apply eo_S. apply nth_nd. auto. Qed.

Lemma eo_n : eo s n = length (epairs s).
Proof. rewrite eo_all, length_epairs. reflexivity. Qed.

Lemma rd_ty i : i < n -> rd (f_node_types s) i = Some (ty s i).
Proof. intros H. apply rd_types. apply nth_nd; auto. Qed.

Lemma rd_nn i : i < n -> rd (f_num_neigh s) i = Some (length (es s i)).
Proof. intros H. apply rd_num_neigh. apply nth_nd; auto. Qed.

Lemma eloop {St} i (body : nat -> St -> option St) (st : nat -> St) a0 a1 :
  i < n -> a0 = st 0 -> a1 = st (length (es s i)) ->
  (forall j e, nth_error (es s i) j = Some e -> In e (es s i) -> nth_error (epairs s) (eo s i + j) = Some (i, e) ->
    body j (st j) = Some (st (S j))) ->
  for_ (length (es s i)) body a0 = Some a1.
Proof.
  intros Hi H0 H1 H. apply (for_trace st); auto. intros k Hk.
  destruct (nth_error (es s i) k) as [e|] eqn:E; [|apply nth_error_None in E; lia].
  eapply H; eauto; [eapply nth_error_In; eauto|apply nth_epairs; auto].
Qed.

Section At.
Variables (q i : nat) (e : edge N).
Hypothesis H : nth_error (epairs s) q = Some (i, e).

Lemma ep_all : nth_error (all_edges s) q = Some e.
Proof. rewrite <- map_snd_epairs, nth_error_map, H. reflexivity. Qed.

Lemma ep_lt : q < length (epairs s).
Proof. apply nth_error_Some. congruence. Qed.

Lemma rd_nty : rd (f_neigh_types s) q = Some (e_type e).
Proof. unfold rd, f_neigh_types. rewrite nth_error_map, ep_all. reflexivity. Qed.

Lemma rd_nidx : rd (f_neigh_indices s) q = Some (e_idx e).
Proof. unfold rd, f_neigh_indices. rewrite nth_error_map, ep_all. reflexivity. Qed.

Lemma rd_rij : rd (f_r s) q = Some (e_r e).
Proof. unfold rd, f_r. rewrite nth_error_map, ep_all. reflexivity. Qed.

Lemma rd_eb c (f : nat -> edge N -> nat -> N) p k : p < c -> k = q * c + p -> rd (eb s c f) k = Some (f i e p).
Proof.
  intros Hp ->. unfold eb, rd. rewrite nth_error_flat_map_const with (c := c) (x := (i, e)); auto.
  - apply rd_tab; auto.
  - intros; apply length_tab.
Qed.

Lemma rd_comp a k : a < 3 -> k = q * 3 + a -> rd (f_xyz s) k = Some (comp e a).
Proof.
  intros Ha ->. unfold f_xyz, rd.
  rewrite nth_error_flat_map_const with (c := 3) (x := e); auto.
  - destruct a as [|[|[|a]]]; try lia; reflexivity.
  - apply ep_all.
Qed.
End At.

Lemma length_eb c (f : nat -> edge N -> nat -> N) : length (eb s c f) = length (epairs s) * c.
Proof. unfold eb. apply length_flat_map_const. intros; apply length_tab. Qed.

Lemma eb_ext c (f g : nat -> edge N -> nat -> N) :
  (forall i e p, i < n -> In e (es s i) -> p < c -> f i e p = g i e p) -> eb s c f = eb s c g.
Proof.
  intros H. apply flat_map_ext_in. intros [i e] Hp. apply in_epairs in Hp. simpl. apply tab_ext.
  intros p Hp'. apply H; tauto.
Qed.

Lemma length_xyz : length (f_xyz s) = length (epairs s) * 3.
Proof. rewrite length_f_xyz, length_epairs. reflexivity. Qed.
Lemma length_r : length (f_r s) = length (epairs s).
Proof. rewrite length_f_r, length_epairs. reflexivity. Qed.

(** ** one spline set *)
Lemma css_derivs_ok (S : spline_set) (r : N) vpre vseg vpost dpre dseg dpost vb db :
  vb = length vpre -> db = length dpre -> in_set S r -> length (css_c S) = 4 * css_num S * (css_nodes S - 1) ->
  length vseg = css_num S -> length dseg = css_num S ->
  css_evaluate_derivs S r (vpre ++ vseg ++ vpost) vb (dpre ++ dseg ++ dpost) db =
  Some (vpre ++ tab (css_num S) (setv S r) ++ vpost, dpre ++ tab (css_num S) (setd S r) ++ dpost).
Proof.
  intros -> -> Hin Hlen Hl Hld. unfold css_evaluate_derivs. unfold in_set in Hin.
  set (i := cell S r).
  assert (Hi : ntrunc (ndiv r (css_h S)) = Z.of_nat i) by (unfold i, cell; rewrite Z2Nat.id; lia).
  assert (Hlt : i < css_nodes S - 1) by lia.
  assert (Hc : forall q j, q < 4 -> j < css_num S ->
     rdZ (css_c S) (Z.of_nat ((4 * i + q) * css_num S) + Z.of_nat j) = Some (coef S r q j)).
  { intros q j Hq Hj. rewrite <- Nat2Z.inj_add, rdZ_nat. unfold coef, at_. fold i. apply rd_some. nia. }
  rewrite Hi. fold (@nofnat N i).
  rewrite (tab_nth vseg nzero), Hl. rewrite (tab_nth dseg nzero), Hld.
  replace (4 * Z.of_nat i * Z.of_nat (css_num S))%Z with (Z.of_nat ((4 * i + 0) * css_num S)) by lia.
  rewrite (for_read_wr _ (coef S r 0)) by (intros; apply Hc; lia).
  cbn [bind].
  replace (Z.of_nat ((4 * i + 0) * css_num S) + Z.of_nat (css_num S))%Z
     with (Z.of_nat ((4 * i + 1) * css_num S)) by lia.
  rewrite (for_read_add _ (coef S r 1) (fun c => nmul _ c)) by (intros; apply Hc; lia).
  cbn [bind].
  replace (Z.of_nat ((4 * i + 1) * css_num S) + Z.of_nat (css_num S))%Z
     with (Z.of_nat ((4 * i + 2) * css_num S)) by lia.
  rewrite (for_read_add _ (coef S r 2) (fun c => nmul _ c)) by (intros; apply Hc; lia).
  cbn [bind].
  replace (Z.of_nat ((4 * i + 2) * css_num S) + Z.of_nat (css_num S))%Z
     with (Z.of_nat ((4 * i + 3) * css_num S)) by lia.
  rewrite (for_read_add _ (coef S r 3) (fun c => nmul _ c)) by (intros; apply Hc; lia).
  cbn [bind].
  replace ((4 * Z.of_nat i + 1) * Z.of_nat (css_num S))%Z with (Z.of_nat ((4 * i + 1) * css_num S)) by lia.
  rewrite (for_read_wr _ (coef S r 1)) by (intros; apply Hc; lia).
  cbn [bind].
  replace (Z.of_nat ((4 * i + 1) * css_num S) + Z.of_nat (css_num S))%Z
     with (Z.of_nat ((4 * i + 2) * css_num S)) by lia.
  rewrite (for_read_add _ (coef S r 2) (fun c => nmul _ c)) by (intros; apply Hc; lia).
  cbn [bind].
  replace (Z.of_nat ((4 * i + 2) * css_num S) + Z.of_nat (css_num S))%Z
     with (Z.of_nat ((4 * i + 3) * css_num S)) by lia.
  rewrite (for_read_add _ (coef S r 3) (fun c => nmul _ c)) by (intros; apply Hc; lia).
  reflexivity.
Qed.

(** ** compute_R0, compute_R1 *)
Hypothesis W : mace_wf m.
Variable nH : nat.
Hypothesis SW : sys_wf m s nH.

Notation K := (m_num_channels m).
Notation nle := (length (m_Phi1_l m)).

Lemma tab_rd (S : list spline_set) c t u : tables_ok m S c -> t < T -> u < T ->
  rd S (tyij m t u) = Some (nth (tyij m t u) S dset) /\
  css_num (nth (tyij m t u) S dset) = c /\
  length (css_c (nth (tyij m t u) S dset)) = 4 * c * (css_nodes (nth (tyij m t u) S dset) - 1).
Proof.
  intros [H1 H2] Ht Hu. pose proof (tyij_lt t u Ht Hu).
  split; [apply rd_some; lia|]. apply H2. apply nth_In. lia.
Qed.

Lemma tab_0 (S : list spline_set) c : tables_ok m S c -> 1 <= T ->
  exists s0, rd S 0 = Some s0 /\ css_num s0 = c.
Proof.
  intros [H1 H2] HT. exists (nth 0 S dset).
  assert (1 <= T * (T + 1) / 2) by (apply Nat.div_le_lower_bound; nia).
  split; [apply rd_some; lia|]. apply H2. apply nth_In. lia.
Qed.

Lemma chk t u : t < T -> u < T -> ((t <? 2 * T) && (u <? 2 * T))%bool = true.
Proof. intros. apply andb_true_intro. split; apply Nat.ltb_lt; lia. Qed.

Lemma compute_R0_ok R0 R0d_ :
  compute_R0 m n (f_node_types s) (f_num_neigh s) (f_neigh_types s) (f_r s) R0 R0d_ =
  Some (eb s ((m_l_max m + 1) * K) (R0v m s), eb s ((m_l_max m + 1) * K) (R0d m s)).
Proof.
  set (c := (m_l_max m + 1) * K). pose proof (mw_s0 _ W) as Ht. fold c in Ht.
  destruct (tab_0 _ _ Ht (mw_T _ W)) as (s0 & Es & Ec).
  unfold compute_R0. rewrite Es. cbn [bind]. rewrite Ec, length_r, length_resize.
  set (oV := resize nzero R0 (length (epairs s) * c)).
  set (oD := resize nzero R0d_ (length (epairs s) * c)).
  assert (LV : length oV = length (epairs s) * c) by apply length_resize.
  assert (LD : length oD = length (epairs s) * c) by apply length_resize.
  set (fV := fun p : nat * edge N => tab c (R0v m s (fst p) (snd p))).
  set (fD := fun p : nat * edge N => tab c (R0d m s (fst p) (snd p))).
  assert (CV : forall x, In x (epairs s) -> length (fV x) = c) by (intros; apply length_tab).
  assert (CD : forall x, In x (epairs s) -> length (fD x) = c) by (intros; apply length_tab).
  set (st := fun q => (part fV (epairs s) oV q, part fD (epairs s) oD q, q)).
  match goal with |- bind ?L _ = _ =>
    assert (E : L = Some (eb s c (R0v m s), eb s c (R0d m s), length (epairs s))) end.
  2:{ rewrite E. reflexivity. }
  apply (for_trace (fun i => st (eo s i))).
  - reflexivity.
  - rewrite eo_n. unfold st. rewrite <- !part_all; auto; rewrite length_flat_map_const with (c := c); auto.
  - intros i Hi. rewrite rd_ty, rd_nn by auto. cbn [bind].
    apply (eloop i _ (fun j => st (eo s i + j))); auto.
    + rewrite Nat.add_0_r. reflexivity.
    + rewrite eo_S' by auto. reflexivity.
    + intros j e Hj Hin Hq. set (q := eo s i + j) in *. unfold st.
      pose proof (sw_ty _ _ _ SW i Hi) as Hti. pose proof (sw_ety _ _ _ SW i e Hi Hin) as Htj.
      rewrite (rd_nty _ _ _ Hq). cbn [bind]. rewrite chk by auto.
      fold (tyij m (ty s i) (e_type e)).
      destruct (tab_rd _ _ _ _ Ht Hti Htj) as (E1 & E2 & E3). rewrite E1. cbn [bind].
      rewrite (rd_rij _ _ _ Hq). cbn [bind].
      destruct (part_split fV (epairs s) oV q (i, e) c CV Hq LV) as (p1 & g1 & t1 & A1 & A2 & A3 & A4).
      destruct (part_split fD (epairs s) oD q (i, e) c CD Hq LD) as (p2 & g2 & t2 & B1 & B2 & B3 & B4).
      rewrite A1, B1.
      rewrite css_derivs_ok; try lia; [|apply (sw_s0 _ _ _ SW i e Hi Hin)].
      cbn [bind]. rewrite E2. replace (eo s i + S j) with (S q) by (unfold q; lia).
      rewrite A2, B2. replace (q + 1) with (S q) by lia. reflexivity.
Qed.

Lemma compute_R1_ok R1 R1d_ :
  compute_R1 m n (f_node_types s) (f_num_neigh s) (f_neigh_types s) (f_r s) R1 R1d_ =
  Some (eb s (nle * K) (R1v m s), eb s (nle * K) (R1d m s)).
Proof.
  set (c := nle * K). pose proof (mw_s1 _ W) as Ht. fold c in Ht.
  destruct (tab_0 _ _ Ht (mw_T _ W)) as (s0 & Es & Ec).
  unfold compute_R1. rewrite Es. cbn [bind]. rewrite Ec, length_r, length_resize.
  set (oV := resize nzero R1 (length (epairs s) * c)).
  set (oD := resize nzero R1d_ (length (epairs s) * c)).
  assert (LV : length oV = length (epairs s) * c) by apply length_resize.
  assert (LD : length oD = length (epairs s) * c) by apply length_resize.
  set (fV := fun p : nat * edge N => tab c (R1v m s (fst p) (snd p))).
  set (fD := fun p : nat * edge N => tab c (R1d m s (fst p) (snd p))).
  assert (CV : forall x, In x (epairs s) -> length (fV x) = c) by (intros; apply length_tab).
  assert (CD : forall x, In x (epairs s) -> length (fD x) = c) by (intros; apply length_tab).
  set (st := fun q => (part fV (epairs s) oV q, part fD (epairs s) oD q, q)).
  match goal with |- bind ?L _ = _ =>
    assert (E : L = Some (eb s c (R1v m s), eb s c (R1d m s), length (epairs s))) end.
  2:{ rewrite E. reflexivity. }
  apply (for_trace (fun i => st (eo s i))).
  - reflexivity.
  - rewrite eo_n. unfold st. rewrite <- !part_all; auto; rewrite length_flat_map_const with (c := c); auto.
  - intros i Hi. rewrite rd_ty, rd_nn by auto. cbn [bind].
    apply (eloop i _ (fun j => st (eo s i + j))); auto.
    + rewrite Nat.add_0_r. reflexivity.
    + rewrite eo_S' by auto. reflexivity.
    + intros j e Hj Hin Hq. set (q := eo s i + j) in *. unfold st.
      pose proof (sw_ty _ _ _ SW i Hi) as Hti. pose proof (sw_ety _ _ _ SW i e Hi Hin) as Htj.
      rewrite (rd_nty _ _ _ Hq). cbn [bind]. rewrite chk by auto.
      fold (tyij m (ty s i) (e_type e)).
      destruct (tab_rd _ _ _ _ Ht Hti Htj) as (E1 & E2 & E3). rewrite E1. cbn [bind].
      rewrite (rd_rij _ _ _ Hq). cbn [bind].
      destruct (part_split fV (epairs s) oV q (i, e) c CV Hq LV) as (p1 & g1 & t1 & A1 & A2 & A3 & A4).
      destruct (part_split fD (epairs s) oD q (i, e) c CD Hq LD) as (p2 & g2 & t2 & B1 & B2 & B3 & B4).
      rewrite A1, B1.
      rewrite css_derivs_ok; try lia; [|apply (sw_s1 _ _ _ SW i e Hi Hin)].
      cbn [bind]. rewrite E2. replace (eo s i + S j) with (S q) by (unfold q; lia).
      rewrite A2, B2. replace (q + 1) with (S q) by lia. reflexivity.
Qed.

End Basics.
