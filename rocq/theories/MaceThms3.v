(** Neighbour order and inert edges (over the reals); which table an edge uses. *)
From Coq Require Import List Arith ZArith Lia Bool Reals Lra Permutation.
From Verif Require Import Base BaseLemmas Segs Instances SplineModel SplineProofs MpModel MpSpec MpProofs MlpModel ZblModel MaceModel Sys SysLoops
  MacePure MaceStages1 MacePipe MaceSpec MaceSpec2 MaceLoad MaceFlat MaceFlat2 MaceThms MaceTab MaceInert ExportSpec ExportProofs.
Import ListNotations.

Section R.
Variable sph : nat -> RNum -> RNum -> RNum -> list RNum * list RNum.
Hypothesis Hsph : sph_ok sph.
Variable srt : list (list (list nat)) -> list (list (list nat)).
Hypothesis Hsrt : forall l, Permutation l (srt l).
Variable f : mace_file RNum.
Hypothesis F : file_ok f.
Notation T := (length (f_atomic_numbers f)).
Notation K := (f_num_channels f).

Lemma row_zero c (vals ders : list (list (list RNum))) q p (r : RNum) : radial_ok T c vals ders -> (q < length vals)%nat -> (p < c)%nat ->
  (forall v row, In v vals -> In row v -> in_cells (f_radial_spline_h f) (length row) r) ->
  spline_zero (f_radial_spline_h f) (nth p (nth q vals []) []) (nth p (nth q ders []) []) r ->
  setv (nth q (ld_set f vals ders) dset) r p = 0%R /\ setd (nth q (ld_set f vals ders) dset) r p = 0%R.
Proof.
  intros (H1 & H2 & H3) Hq Hp Hd Hz. rewrite nth_set by auto. destruct (H3 q Hq) as (kn & Hkn & L1 & L2 & R1 & R2).
  set (h := f_radial_spline_h f) in *. set (vs := nth q vals []) in *. set (ds := nth q ders []) in *.
  assert (I0 : In (nth 0 vs []) vs) by (apply nth_In; lia). assert (Ip : In (nth p vs []) vs) by (apply nth_In; lia).
  assert (Iq : In vs vals) by (apply nth_In; auto).
  assert (Jp : In (nth p ds []) ds) by (apply nth_In; lia).
  rewrite (R1 _ I0). 
  assert (Hin : in_set (splset h vs ds kn) r).
  { unfold in_set. cbn [splset css_h css_nodes]. rewrite <- (R1 _ I0). apply (Hd vs _ Iq I0). }
  destruct (setv_csv h vs ds kn r p Hin ltac:(lia) (R1 _ Ip)) as [-> ->].
  apply spline_zero_cs; auto; [rewrite (R1 _ Ip); auto|rewrite (R2 _ Jp), (R1 _ Ip); auto].
Qed.

Lemma ld_inert t (e : edge RNum) : (t < T)%nat -> (e_type e < T)%nat -> in_domain f (e_r e) -> inert_at f t (e_type e) (e_r e) ->
  inert (ldm f) t e.
Proof.
  intros Ht Hu (D0 & D1 & D2 & D3) (I1 & I2).
  pose proof (tyij_upairs (ldm f) t (e_type e) Ht Hu) as Eq. cbn [ldm m_atomic_numbers] in Eq.
  destruct (I1 _ Eq) as (J0 & J1 & J2 & J3).
  assert (Hq : (tyij (ldm f) t (e_type e) < T * (T + 1) / 2)%nat) by (apply (tyij_lt (ldm f)); cbn; auto).
  constructor.
  - intros p Hp. apply (row_zero _ _ _ _ _ _ (fo_R0 _ F)); auto. destruct (fo_R0 _ F) as [L _]. lia.
  - intros p Hp. apply (row_zero _ _ _ _ _ _ (fo_R1 _ F)); auto. destruct (fo_R1 _ F) as [L _]. lia.
  - intros E. cbn [ldm m_A0_scaled] in E. destruct (fo_A0s _ F E) as (L & L2 & L3). unfold spl0. cbn [ldm m_A0_splines]. rewrite E.
    rewrite nth_spls by lia. destruct (L3 (tyij (ldm f) t (e_type e)) ltac:(lia)) as [M1 M2]. apply spline_zero_cs; auto.
  - intros E. cbn [ldm m_A1_scaled] in E. destruct (fo_A1s _ F E) as (L & L2 & L3). unfold spl1. cbn [ldm m_A1_splines]. rewrite E.
    rewrite nth_spls by lia. destruct (L3 (tyij (ldm f) t (e_type e)) ltac:(lia)) as [M1 M2]. apply spline_zero_cs; auto.
  - intros E. cbn [ldm m_has_zbl] in E.
    destruct (I2 E (nth t (f_atomic_numbers f) 0%nat) (nth (e_type e) (f_atomic_numbers f) 0%nat)) as [Z1 Z2];
      [apply nth_error_nth'; auto|apply nth_error_nth'; auto|].
    unfold zen, zgr. cbn [ldm m_zbl m_atomic_numbers]. unfold zget. rewrite Z1, Z2, RNum_zero. auto.
Qed.

Lemma forces_same s s' (D : nat -> list (edge RNum)) :
  length s' = length s -> (forall i, (i < length s)%nat -> ty s' i = ty s i) ->
  (forall i, (i < length s)%nat -> Permutation (es s' i) (D i ++ es s i)) ->
  (forall i e, (i < length s)%nat -> In e (es s i) -> (e_idx e < length s)%nat) ->
  (forall i e, (i < length s)%nat -> In e (D i) -> (e_idx e < length s)%nat) ->
  (forall i e, (i < length s)%nat -> In e (D i) -> inert (ldm f) (ty s i) e) ->
  tab (length s') (resE sph srt f s') = tab (length s) (resE sph srt f s) /\
  eb s' 3 (resF sph srt f s') = eb s' 3 (resF sph srt f s).
Proof.
  intros Hn Hty Hes Hix HixD Hin. split.
  - rewrite Hn. apply tab_ext. intros i Hi. unfold resE.
    apply (pE_i sph (ldm f) (ld_wf f F) (ldp0 srt f) (ldp1 srt f) (ldfe f) s s' D); auto.
  - rewrite !eb_ebx. apply ebx_ext. cbn [Nat.add]. intros i e Hi He. apply tab_ext. intros a Ha. unfold resF. rewrite Hn in Hi.
    apply (pF_i sph (ldm f) (ld_wf f F) (ldp0 srt f) (ldp1 srt f) (ldfg f) s s' D); auto.
    apply (Permutation_in _ (Hes i Hi)), in_app_or in He. destruct He; eauto.
Qed.

Lemma gather_In {A} (d : A) l ps x : In x (gather d l ps) -> (forall p, In p ps -> (p < length l)%nat) -> In x l.
Proof. unfold gather. intros H Hp. apply in_map_iff in H. destruct H as (p & <- & H). apply nth_In. auto. Qed.

Lemma positions_lt sgs nn o : Forall2 (fun sg n => Permutation sg (seq 0 n)) sgs nn -> forall p, In p (positions o sgs nn) -> (p < o + list_sum nn)%nat.
Proof.
  intros H; revert o; induction H as [|sg n sgs nn Hs H IH]; intros o p Hp; [destruct Hp|]. cbn [positions] in Hp. cbn [list_sum fold_right].
  apply in_app_or in Hp. destruct Hp as [Hp|Hp].
  - apply in_map_iff in Hp. destruct Hp as (p' & <- & Hp). apply (Permutation_in _ Hs), in_seq in Hp. unfold list_sum. lia.
  - specialize (IH (o + n)%nat p Hp). unfold list_sum in *. lia.
Qed.
Lemma positions_length sgs nn o : Forall2 (fun sg n => Permutation sg (seq 0 n)) sgs nn -> length (positions o sgs nn) = list_sum nn.
Proof.
  intros H; revert o; induction H as [|sg n sgs nn Hs H IH]; intros o; [reflexivity|]. cbn [positions]. rewrite app_length, map_length, IH.
  rewrite (Permutation_length Hs), seq_length. reflexivity.
Qed.

Lemma reorder_ok x sgs : input_ok f x -> Forall2 (fun sg n => Permutation sg (seq 0 n)) sgs (i_num_neigh x) ->
  input_ok f (reorder_input sgs x).
Proof.
  intros [A1 A2 A3 A4 A5 A6 A7 A8 A9 A10] H. pose proof (positions_length _ _ 0 H) as L. pose proof (positions_lt _ _ 0 H) as P.
  unfold reorder_input. constructor; cbn [i_num_nodes i_node_types i_num_neigh i_neigh_indices i_neigh_types i_xyz i_r]; auto;
    try (unfold gather; rewrite map_length; exact L).
  - unfold gather3. rewrite (length_flat_map_const _ _ 3), L by reflexivity. lia.
  - intros t Ht. apply A8. apply (gather_In _ _ _ _ Ht). intros p Hp. specialize (P p Hp). lia.
  - intros j Ht. apply A9. apply (gather_In _ _ _ _ Ht). intros p Hp. specialize (P p Hp). lia.
  - intros r Ht. apply A10. apply (gather_In _ _ _ _ Ht). intros p Hp. specialize (P p Hp). lia.
Qed.

Lemma lemma_C07 x sgs : input_ok f x -> Forall2 (fun sg n => Permutation sg (seq 0 n)) sgs (i_num_neigh x) ->
  exists m b0 b1 b2, load_from_json srt f = Some (m, b0) /\
    call sph m b0 x = Some b1 /\ call sph m b0 (reorder_input sgs x) = Some b2 /\
    b_node_energies b2 = b_node_energies b1 /\
    b_node_forces b2 = gather3 (b_node_forces b1) (positions 0 sgs (i_num_neigh x)).
Proof.
  intros Hx Hs. destruct (load_ok srt Hsrt f F) as (b0 & E & L).
  pose proof (flat_sys_of f x Hx) as Ex. pose proof (reorder_ok x sgs Hx Hs) as Hy. set (s := sys_of x) in *.
  assert (Hx' : input_ok f (flat s)) by (rewrite Ex; exact Hx).
  assert (Hs' : sgs_ok sgs (f_num_neigh s)).
  { unfold sgs_ok. replace (f_num_neigh s) with (i_num_neigh x) by (rewrite <- Ex; reflexivity). exact Hs. }
  pose proof (flat_re s sgs Hs') as Er. rewrite Ex in Er.
  assert (Hy' : input_ok f (flat (re s sgs))) by (rewrite Er; exact Hy).
  destruct (call_flat sph Hsph srt f F b0 s L Hx') as (b1 & E1 & _ & A1 & B1).
  destruct (call_flat sph Hsph srt f F b0 _ L Hy') as (b2 & E2 & _ & A2 & B2).
  rewrite Ex in E1. rewrite Er in E2. exists (ldm f), b0, b1, b2. do 3 (split; [assumption|]).
  rewrite A1, A2, B1, B2. pose proof (ld_sys_wf f F s Hx') as W1.
  destruct (forces_same s (re s sgs) (fun _ => [])) as [Q1 Q2].
  - apply length_re; auto.
  - intros i Hi. apply re_es; auto.
  - intros i Hi. apply re_es; auto.
  - apply (sw_idx _ _ _ W1).
  - intros i e _ [].
  - intros i e _ [].
  - split; [exact Q1|]. rewrite Q2, !eb_ebx.
    rewrite (ebx_re (resF sph srt f s) s sgs [] 0 0 Hs' eq_refl). cbn [app].
    replace (f_num_neigh s) with (i_num_neigh x) by (rewrite <- Ex; reflexivity). reflexivity.
Qed.

Lemma lemma_C08 x i j t u idx (vx vy vz r : RNum) : input_ok f x ->
  rd (i_node_types x) i = Some t -> (j <= nth i (i_num_neigh x) 0)%nat ->
  (u < T)%nat -> (idx < i_num_nodes x)%nat -> in_domain f r -> inert_at f t u r ->
  exists m b0 b1 b2, load_from_json srt f = Some (m, b0) /\
    call sph m b0 x = Some b1 /\ call sph m b0 (insert_edge x i j u idx vx vy vz r) = Some b2 /\
    b_node_energies b2 = b_node_energies b1 /\
    b_node_forces b2 = insert_at (3 * edge_pos (i_num_neigh x) i j) [0%R; 0%R; 0%R] (b_node_forces b1).
Proof.
  intros Hx Hti Hj Hu Hidx Hr Hin. destruct (load_ok srt Hsrt f F) as (b0 & E & L).
  pose proof (flat_sys_of f x Hx) as Ex. set (s := sys_of x) in *.
  assert (Hx' : input_ok f (flat s)) by (rewrite Ex; exact Hx). pose proof (ld_sys_wf f F s Hx') as W1.
  assert (Hls : length s = i_num_nodes x) by (rewrite <- Ex; reflexivity).
  assert (Ety : i_node_types x = f_node_types s) by (rewrite <- Ex; reflexivity).
  assert (Enn : i_num_neigh x = f_num_neigh s) by (rewrite <- Ex; reflexivity).
  assert (Hi : (i < length s)%nat) by (apply rd_lt in Hti; rewrite Ety in Hti; unfold f_node_types in Hti; rewrite map_length in Hti; exact Hti).
  rewrite Ety, (rd_ty s i Hi) in Hti. injection Hti as Hti.
  destruct (nth_error s i) as [nd|] eqn:En; [|apply nth_error_None in En; lia].
  destruct (nth_error_split s i En) as (s1 & s2 & Es & Ls1).
  assert (End : nd_ s i = nd) by (apply nd_nth; auto).
  set (e := @mkEdge RNum u idx vx vy vz r). set (l1 := firstn j (n_edges nd)). set (l2 := skipn j (n_edges nd)).
  assert (El : n_edges nd = l1 ++ l2) by (symmetry; apply firstn_skipn).
  assert (Hj' : (j <= length (n_edges nd))%nat).
  { rewrite Enn in Hj. rewrite (rd_nth _ _ _ 0%nat (rd_nn s i Hi)) in Hj. unfold es in Hj. rewrite End in Hj. exact Hj. }
  assert (Ll1 : length l1 = j) by (unfold l1; rewrite firstn_length; lia).
  assert (Es' : s = s1 ++ mkNode (n_type nd) (l1 ++ l2) :: s2) by (rewrite Es, <- El; destruct nd; reflexivity).
  set (s' := s1 ++ mkNode (n_type nd) (l1 ++ e :: l2) :: s2).
  assert (Ef : flat s' = insert_edge x i j u idx vx vy vz r).
  { unfold s'. rewrite flat_insert, <- Es', Ex, Ll1, Ls1. reflexivity. }
  assert (Hlen : length s' = length s) by (rewrite Es'; unfold s'; rewrite !app_length; reflexivity).
  assert (Hnd' : forall k, k <> i -> nd_ s' k = nd_ s k).
  { intros k Hk. unfold nd_, s'. rewrite Es'. destruct (Nat.lt_ge_cases k (length s1)).
    - rewrite !app_nth1 by auto. reflexivity.
    - rewrite !app_nth2 by auto. destruct (k - length s1)%nat eqn:Ek; [lia|]. reflexivity. }
  assert (Hndi : nd_ s' i = mkNode (n_type nd) (l1 ++ e :: l2)).
  { unfold nd_, s'. rewrite app_nth2, Ls1, Nat.sub_diag by lia. reflexivity. }
  assert (Htnd : n_type nd = t) by (rewrite <- Hti; unfold ty; rewrite End; reflexivity).
  assert (HtT : (t < T)%nat) by (rewrite <- Hti; apply (sw_ty _ _ _ W1 i Hi)).
  pose (D := fun k => if (k =? i)%nat then [e] else [] : list (edge RNum)).
  assert (HD : forall k e', In e' (D k) -> k = i /\ e' = e).
  { intros k e'. unfold D. destruct (Nat.eqb_spec k i); [|intros []]. intros [<-|[]]. auto. }
  assert (Hes : forall k, (k < length s)%nat -> Permutation (es s' k) (D k ++ es s k)).
  { intros k Hk. unfold D, es. destruct (Nat.eqb_spec k i) as [->|Hne].
    - rewrite Hndi, End, El. cbn [n_edges app]. apply Permutation_sym, Permutation_middle.
    - rewrite Hnd' by auto. reflexivity. }
  assert (Hx2 : input_ok f (flat s')).
  { assert (Pall : forall e', In e' (all_edges s') -> e' = e \/ In e' (all_edges s)).
    { intros e' H. rewrite Es'. unfold s' in H. unfold all_edges in *. rewrite flat_map_app' in *. cbn [flat_map n_edges] in *.
      rewrite !in_app_iff in *. cbn [In] in H. intuition auto. }
    assert (Lall : length (all_edges s') = list_sum (f_num_neigh s')) by (rewrite f_nn_sum; reflexivity).
    pose proof Hx' as [A1 A2 A3 A4 A5 A6 A7 A8 A9 A10].
    constructor; cbn [flat i_num_nodes i_node_types i_num_neigh i_neigh_indices i_neigh_types i_xyz i_r] in *;
      unfold f_node_types, f_num_neigh, f_neigh_indices, f_neigh_types, f_r, f_xyz in *;
      rewrite ?map_length in *; auto.
    - rewrite (length_flat_map_const _ _ 3), Lall by reflexivity. lia.
    - intros v Hv. apply A7. unfold s' in Hv. rewrite Es'. rewrite map_app in *. cbn [map n_type] in *. exact Hv.
    - intros v Hv. apply in_map_iff in Hv. destruct Hv as (e' & <- & He'). destruct (Pall _ He') as [->|He2]; [exact Hu|].
      apply A8. apply in_map. exact He2.
    - intros v Hv. rewrite Hlen. apply in_map_iff in Hv. destruct Hv as (e' & <- & He'). destruct (Pall _ He') as [->|He2].
      + cbn [e e_idx]. lia.
      + apply A9. apply in_map. exact He2.
    - intros v Hv. apply in_map_iff in Hv. destruct Hv as (e' & <- & He'). destruct (Pall _ He') as [->|He2]; [exact Hr|].
      apply A10. apply in_map. exact He2. }
  destruct (call_flat sph Hsph srt f F b0 s L Hx') as (b1 & E1 & _ & A1 & B1).
  destruct (call_flat sph Hsph srt f F b0 _ L Hx2) as (b2 & E2 & _ & A2 & B2).
  rewrite Ex in E1. rewrite Ef in E2. exists (ldm f), b0, b1, b2. do 3 (split; [assumption|]).
  rewrite A1, A2, B1, B2.
  assert (He : inert (ldm f) t e) by (apply ld_inert; auto).
  destruct (forces_same s s' D Hlen) as [Q1 Q2]; auto.
  - intros k Hk. unfold ty. destruct (Nat.eq_dec k i) as [->|Hne]; [rewrite Hndi, End; reflexivity|]. rewrite Hnd' by auto. reflexivity.
  - apply (sw_idx _ _ _ W1).
  - intros k e' Hk He'. destruct (HD _ _ He') as [-> ->]. cbn [e e_idx]. lia.
  - intros k e' Hk He'. destruct (HD _ _ He') as [-> ->]. rewrite Hti. exact He.
  - split; [exact Q1|]. rewrite Q2, !eb_ebx.
    pose proof (f_equal (ebx (fun i e => tab 3 (resF sph srt f s i e)) 0) Es') as Eg. rewrite Eg. unfold s'.
    rewrite (ebx_insert (resF sph srt f s) s1 (n_type nd) l1 l2 s2 e (edge_pos (i_num_neigh x) i j)).
    + f_equal. rewrite Ls1. unfold tab. cbn [seq map]. unfold resF.
      rewrite !(pF_inert sph (ldm f) (ldp0 srt f) (ldp1 srt f) (ldfg f) s s eq_refl i e) by (rewrite Hti; exact He). reflexivity.
    + rewrite Enn. unfold edge_pos. rewrite Ll1. f_equal. rewrite Es. unfold f_num_neigh. rewrite map_app, firstn_app, map_length, Ls1, Nat.sub_diag.
      rewrite firstn_all2 by (rewrite map_length; lia). cbn [firstn]. rewrite app_nil_r. apply (f_nn_sum (N:=RNum)).
Qed.
End R.
