(** Edge forces of a call are minus the gradient of the sum of the node energies. *)
From Coq Require Import List Arith ZArith Lia Bool Reals Lra Permutation.
From Verif Require Import Base BaseLemmas Segs Instances BlasLemmas RSums RList GradSums SplineModel SplineProofs SplineR MpModel MpSpec MpProofs MpR MlpModel MlpSpec MlpProofs MlpR
  ZblModel ZblThms MaceModel Sys SysLoops MaceGrid MacePure MaceStages1 MaceStages6 MacePipe MaceSpec MaceSpec2 MaceLoad MaceFlat MaceThms MaceTab MaceThms4
  ExportSpec MaceGrad MaceGradSpec.
Import ListNotations.
Local Open Scope R_scope.

(** ** tables over the reals *)
Lemma in_cells_R h k r : 0 < h -> 0 < r -> (in_cells (N:=RNum) h k r <-> r < h * INR (k - 1)).
Proof.
  intros Hh Hr. unfold in_cells. change (ntrunc (ndiv (n:=RNum) r h)) with (Rtrunc (r / h)).
  destruct (cell_exists h r Hh ltac:(lra)) as (i & Hi). rewrite (trunc_cell h r i Hh Hi). split.
  - intros [_ H]. assert (i + 1 <= k - 1)%nat by lia. apply le_INR in H0. nra.
  - intros H. split; [lia|]. pose proof (cell_lt h r i (k - 1) Hh Hi H). lia.
Qed.

Lemma cells_open h k r : 0 < h -> 0 < r -> in_cells (N:=RNum) h k r ->
  exists eps, 0 < eps /\ forall r', Rabs (r' - r) < eps -> in_cells (N:=RNum) h k r'.
Proof.
  intros Hh Hr H. apply in_cells_R in H; auto. exists (Rmin r (h * INR (k - 1) - r)). split; [apply Rmin_case; lra|].
  intros r' H'. assert (A1 := Rmin_l r (h * INR (k - 1) - r)). assert (A2 := Rmin_r r (h * INR (k - 1) - r)).
  apply Rabs_def2 in H'. apply in_cells_R; lra.
Qed.

Lemma list_open {A} (P : A -> R -> Prop) (l : list A) r :
  (forall x, In x l -> exists eps, 0 < eps /\ forall r', Rabs (r' - r) < eps -> P x r') ->
  exists eps, 0 < eps /\ forall r', Rabs (r' - r) < eps -> forall x, In x l -> P x r'.
Proof.
  induction l as [|a l IH]; intros H; [exists 1; split; [lra|]; intros r' _ x []|].
  destruct IH as (e1 & H1 & I1); [intros; apply H; simpl; auto|]. destruct (H a ltac:(simpl; auto)) as (e2 & H2 & I2).
  exists (Rmin e1 e2). split; [apply Rmin_case; lra|]. intros r' Hr x [<-|Hx].
  - apply I2. eapply Rlt_le_trans; [exact Hr|apply Rmin_r].
  - apply I1; auto. eapply Rlt_le_trans; [exact Hr|apply Rmin_l].
Qed.

Lemma and_open (P Q : R -> Prop) r : (exists eps, 0 < eps /\ forall r', Rabs (r' - r) < eps -> P r') ->
  (exists eps, 0 < eps /\ forall r', Rabs (r' - r) < eps -> Q r') -> exists eps, 0 < eps /\ forall r', Rabs (r' - r) < eps -> P r' /\ Q r'.
Proof.
  intros (e1 & H1 & I1) (e2 & H2 & I2). exists (Rmin e1 e2). split; [apply Rmin_case; lra|]. intros r' Hr. split.
  - apply I1. eapply Rlt_le_trans; [exact Hr|apply Rmin_l].
  - apply I2. eapply Rlt_le_trans; [exact Hr|apply Rmin_r].
Qed.

Lemma domain_open f r : smooth_ok f -> 0 < r -> in_domain f r -> exists eps, 0 < eps /\ forall r', Rabs (r' - r) < eps -> in_domain f r'.
Proof.
  intros S Hr (D1 & D2 & D3 & D4). unfold in_domain. repeat apply and_open.
  - destruct (list_open (fun v r' => forall row, In row v -> in_cells (N:=RNum) (f_radial_spline_h f) (length row) r') (f_radial_spline_values_0 f) r) as (e & He & H).
    + intros v Hv. apply (list_open (fun row r' => in_cells (N:=RNum) (f_radial_spline_h f) (length row) r')). intros row Hrow.
      apply cells_open; auto; [apply (so_h _ S)|apply (D1 v row Hv Hrow)].
    + exists e. split; [exact He|]. intros r' H' v row Hv Hrow. apply (H r' H' v Hv row Hrow).
  - destruct (list_open (fun v r' => forall row, In row v -> in_cells (N:=RNum) (f_radial_spline_h f) (length row) r') (f_radial_spline_values_1 f) r) as (e & He & H).
    + intros v Hv. apply (list_open (fun row r' => in_cells (N:=RNum) (f_radial_spline_h f) (length row) r')). intros row Hrow.
      apply cells_open; auto; [apply (so_h _ S)|apply (D2 v row Hv Hrow)].
    + exists e. split; [exact He|]. intros r' H' v row Hv Hrow. apply (H r' H' v Hv row Hrow).
  - pose proof (so_h0 _ S) as H0. destruct (f_A0_scaled f) eqn:E; [|exists 1; split; [lra|]; intros; discriminate].
    specialize (H0 eq_refl). specialize (D3 eq_refl).
    destruct (list_open (fun row r' => in_cells (N:=RNum) (f_A0_spline_h f) (length row) r') (f_A0_spline_values f) r) as (e & He & H).
    + intros row Hrow. apply cells_open; [exact H0|exact Hr|exact (D3 row Hrow)].
    + exists e. split; [exact He|]. intros r' H' _ row Hrow. apply (H r' H' row Hrow).
  - pose proof (so_h1 _ S) as H0. destruct (f_A1_scaled f) eqn:E; [|exists 1; split; [lra|]; intros; discriminate].
    specialize (H0 eq_refl). specialize (D4 eq_refl).
    destruct (list_open (fun row r' => in_cells (N:=RNum) (f_A1_spline_h f) (length row) r') (f_A1_spline_values f) r) as (e & He & H).
    + intros row Hrow. apply cells_open; [exact H0|exact Hr|exact (D4 row Hrow)].
    + exists e. split; [exact He|]. intros r' H' _ row Hrow. apply (H r' H' row Hrow).
Qed.

Lemma csv_d (h : R) (vs ds : list R) r : 0 < h -> 0 < r -> in_cells (N:=RNum) h (length vs) r ->
  derivable_pt_lim (csv (N:=RNum) (spl (N:=RNum) h vs ds)) r (csd (N:=RNum) (spl (N:=RNum) h vs ds) r).
Proof.
  intros Hh Hr Hc. destruct (cell_exists h r Hh ltac:(lra)) as (i & Hi).
  apply in_cells_R in Hc; auto. pose proof (cell_lt h r i _ Hh Hi Hc) as Hlt.
  apply dlim_eq with (l := dpiece h (vfun (N:=RNum) vs) (vfun (N:=RNum) ds) i r).
  { unfold csd. rewrite (proj1 (proj2 (spl_ret h vs ds r i Hh Hi Hlt))). reflexivity. }
  apply (spline_derivable h (vfun (N:=RNum) vs) (vfun (N:=RNum) ds) (length vs - 1)); auto.
  intros j r' Hj Hr'. unfold csv. rewrite (proj1 (proj2 (spl_ret h vs ds r' j Hh Hr' Hj))). reflexivity.
Qed.

Lemma setv_d (h : R) (vs ds : list (list R)) n r p : 0 < h -> 0 < r -> (p < length vs)%nat -> length (nth p vs []) = n ->
  in_cells (N:=RNum) h n r ->
  derivable_pt_lim (fun r => setv (N:=RNum) (splset (N:=RNum) h vs ds n) r p) r (setd (N:=RNum) (splset (N:=RNum) h vs ds n) r p).
Proof.
  intros Hh Hr Hp Hl Hc. destruct (cells_open h n r Hh Hr Hc) as (eps & He & Ho).
  assert (Hin : forall r', Rabs (r' - r) < eps -> in_set (N:=RNum) (splset (N:=RNum) h vs ds n) r') by (intros r' H'; apply (Ho r' H')).
  apply dlim_ext_loc with (f := csv (N:=RNum) (spl (N:=RNum) h (nth p vs []) (nth p ds []))) (del := eps); auto.
  { intros y Hy. symmetry. apply (setv_csv h vs ds n y p (Hin y Hy) Hp Hl). }
  rewrite (proj2 (setv_csv h vs ds n r p (Hin r ltac:(rewrite Rminus_diag_eq, Rabs_R0; auto)) Hp Hl)).
  apply csv_d; [exact Hh|exact Hr|]. subst n. exact Hc.
Qed.

(** ** systems with moving edges *)
Section Moving.
Variable sph : nat -> RNum -> RNum -> RNum -> list RNum * list RNum.
Hypothesis Hsph : sph_ok (N:=RNum) sph.
Hypothesis Hgr : sph_gradient sph.
Variable srt : list (list (list nat)) -> list (list (list nat)).
Hypothesis Hsrt : forall l, Permutation l (srt l).
Variable f : mace_file RNum.
Hypothesis F : file_ok f.
Hypothesis S : smooth_ok f.
Variable x : input RNum.
Variable X : R -> list R.
Variable X' : list R.
Variable t0 : R.
Notation nE := (list_sum (i_num_neigh x)).
Notation nns := (i_num_neigh x).
Notation T := (length (f_atomic_numbers f)).
Hypothesis Hlen : forall t, length (X t) = (3 * nE)%nat.
Hypothesis Hlen' : length X' = (3 * nE)%nat.
Hypothesis HX : forall p, (p < 3 * nE)%nat -> derivable_pt_lim (fun t => nth p (X t) 0) t0 (nth p X' 0).
Hypothesis SA : smooth_at f x (X t0).

Notation xt t := (with_xyz x (X t)).
Definition mst t : sys RNum := sys_of (xt t).
Definition med t q : edge RNum := mkEdge (A:=RNum) (nth q (i_neigh_types x) 0%nat) (nth q (i_neigh_indices x) 0%nat)
  (nth (3 * q) (X t) 0) (nth (3 * q + 1) (X t) 0) (nth (3 * q + 2) (X t) 0) (sqrt (norm2 (X t) q)).
Definition mB i : list nat := seq (list_sum (firstn i nns)) (nth i nns 0%nat).
Definition mv q a := nth (3 * q + a) X' 0.

Lemma edges_med t : edges_of (xt t) = map (med t) (seq 0 nE).
Proof.
  unfold edges_of. cbn [with_xyz i_num_neigh i_neigh_types i_neigh_indices i_xyz i_r]. apply map_ext_in. intros q Hq. apply in_seq in Hq.
  unfold med. rewrite RNum_zero. f_equal.
  transitivity (nth q (map (fun q => sqrt (norm2 (X t) q)) (seq 0 nE)) ((fun q => sqrt (norm2 (X t) q)) 0%nat)).
  { apply nth_indep. rewrite map_length, seq_length. lia. }
  rewrite (map_nth (fun q => sqrt (norm2 (X t) q))), seq_nth by lia. reflexivity.
Qed.

Lemma skipn_skipn' {A} a b (l : list A) : skipn a (skipn b l) = skipn (b + a) l.
Proof. revert l. induction b as [|b IH]; intros [|y l]; [reflexivity|reflexivity|destruct a; reflexivity|apply (IH l)]. Qed.
Lemma unflat_es {A} (g : A -> edge RNum) ts ns (l : list A) i : length ts = length ns -> (i < length ts)%nat ->
  es (unflat ts ns (map g l)) i = map g (firstn (nth i ns 0%nat) (skipn (list_sum (firstn i ns)) l)) /\ ty (unflat ts ns (map g l)) i = nth i ts 0%nat.
Proof.
  revert ns l i. induction ts as [|t ts IH]; intros [|k ns] l i H1 H2; try (simpl in *; lia).
  destruct i as [|i].
  - cbn. rewrite firstn_map. auto.
  - cbn [unflat]. unfold es, ty, nd_. cbn [nth]. rewrite skipn_map.
    destruct (IH ns (skipn k l) i) as [A1 A2]; [simpl in H1; lia|simpl in H2; lia|].
    unfold es, ty, nd_ in A1, A2. rewrite A1, A2. split; [|reflexivity]. rewrite skipn_skipn'. reflexivity.
Qed.
Lemma unflat_len ts ns (l : list (edge RNum)) : length ts = length ns -> length (unflat ts ns l) = length ts.
Proof. revert ns l. induction ts as [|t ts IH]; intros [|k ns] l H; simpl in *; try lia. rewrite IH; lia. Qed.

Lemma sum_firstn_S ns i : (i < length ns)%nat -> list_sum (firstn (Datatypes.S i) ns) = (list_sum (firstn i ns) + nth i ns 0)%nat.
Proof.
  revert i. induction ns as [|k ns IH]; intros [|i] H; simpl in H; try lia.
  - cbn. lia.
  - change (list_sum (firstn (Datatypes.S (Datatypes.S i)) (k :: ns))) with (k + list_sum (firstn (Datatypes.S i) ns))%nat.
    rewrite IH by lia. cbn [firstn nth]. change (list_sum (k :: firstn i ns)) with (k + list_sum (firstn i ns))%nat. lia.
Qed.
Lemma sum_firstn_le ns i : (i < length ns)%nat -> (list_sum (firstn i ns) + nth i ns 0 <= list_sum ns)%nat.
Proof.
  intros H. rewrite <- sum_firstn_S by auto. rewrite <- (firstn_skipn (Datatypes.S i) ns) at 2. rewrite list_sum_app. lia.
Qed.
Lemma firstn_skipn_seq o k s n : (o + k <= n)%nat -> firstn k (skipn o (seq s n)) = seq (s + o) k.
Proof.
  revert s n. induction o as [|o IH]; intros s n H.
  - cbn [skipn]. rewrite Nat.add_0_r. revert s n H. induction k as [|k IHk]; intros s [|n] H; try reflexivity; try lia.
    cbn [seq firstn]. f_equal. apply IHk. lia.
  - destruct n as [|n]; [lia|]. cbn [seq skipn]. rewrite IH by lia. f_equal. lia.
Qed.

Notation II := (sa_ok _ _ _ SA).
Lemma len_types : length (i_node_types x) = i_num_nodes x.
Proof. apply (io_types _ _ II). Qed.
Lemma len_nns : length nns = i_num_nodes x.
Proof. apply (io_nn _ _ II). Qed.
Lemma mst_len t : length (mst t) = i_num_nodes x.
Proof.
  unfold mst, sys_of. cbn [with_xyz i_node_types i_num_neigh].
  rewrite unflat_len; [apply len_types|]. rewrite len_types, len_nns. reflexivity.
Qed.
Lemma mst_es t i : (i < i_num_nodes x)%nat -> es (mst t) i = map (med t) (mB i) /\ ty (mst t) i = nth i (i_node_types x) 0%nat.
Proof.
  intros Hi. unfold mst, sys_of. rewrite edges_med. cbn [with_xyz i_node_types i_num_neigh]. 
  destruct (unflat_es (med t) (i_node_types x) nns (seq 0 nE) i) as [A1 A2].
  - rewrite len_types, len_nns. reflexivity.
  - rewrite len_types. exact Hi.
  - rewrite A1, A2. split; [|reflexivity]. rewrite firstn_skipn_seq; [reflexivity|]. apply sum_firstn_le. rewrite len_nns. exact Hi.
Qed.
Lemma mB_lt i b : (i < i_num_nodes x)%nat -> In b (mB i) -> (b < nE)%nat.
Proof. intros Hi Hb. unfold mB in Hb. apply in_seq in Hb. pose proof (sum_firstn_le nns i). rewrite len_nns in H. lia. Qed.

Lemma mr_pos b : (b < nE)%nat -> 0 < sqrt (norm2 (X t0) b).
Proof.
  intros Hb. apply sqrt_lt_R0. pose proof (sa_pos _ _ _ SA b Hb) as H. unfold norm2 in *.
  pose proof (Rle_0_sqr (nth (3 * b) (X t0) 0)). pose proof (Rle_0_sqr (nth (3 * b + 1) (X t0) 0)).
  pose proof (Rle_0_sqr (nth (3 * b + 2) (X t0) 0)). unfold Rsqr in *. lra.
Qed.
Lemma mr_dom b : (b < nE)%nat -> in_domain f (sqrt (norm2 (X t0) b)).
Proof.
  intros Hb. apply (io_dom _ _ II). cbn [with_xyz i_r]. apply in_map_iff. exists b. split; [reflexivity|]. apply in_seq. lia.
Qed.
Lemma mx_d b a : (b < nE)%nat -> (a < 3)%nat -> derivable_pt_lim (fun t => nth (3 * b + a) (X t) 0) t0 (mv b a).
Proof. intros Hb Ha. apply HX. lia. Qed.
Lemma mx_d0 b : (b < nE)%nat -> derivable_pt_lim (fun t => nth (3 * b) (X t) 0) t0 (mv b 0).
Proof. intros Hb. pose proof (mx_d b 0 Hb ltac:(lia)) as H. unfold mv in *. rewrite Nat.add_0_r in *. exact H. Qed.

Lemma mr_d b : (b < nE)%nat -> derivable_pt_lim (fun t => sqrt (norm2 (X t) b)) t0 (vr med t0 mv b).
Proof.
  intros Hb. pose proof (mr_pos b Hb) as Hp. pose proof (mx_d0 b Hb) as D0. pose proof (mx_d b 1 Hb ltac:(lia)) as D1.
  pose proof (mx_d b 2 Hb ltac:(lia)) as D2.
  apply dlim_eq with (l := / (2 * sqrt (norm2 (X t0) b)) *
    ((mv b 0 * nth (3 * b) (X t0) 0 + nth (3 * b) (X t0) 0 * mv b 0) + (mv b 1 * nth (3 * b + 1) (X t0) 0 + nth (3 * b + 1) (X t0) 0 * mv b 1)
      + (mv b 2 * nth (3 * b + 2) (X t0) 0 + nth (3 * b + 2) (X t0) 0 * mv b 2))).
  { unfold vr, med. cbn [comp e_x e_y e_z e_r]. field. lra. }
  apply (dlim_comp (fun t => norm2 (X t) b) sqrt).
  - unfold norm2. apply dlim_plus; [apply dlim_plus|]; [pose proof (dlim_mult _ _ _ _ _ D0 D0) as D|pose proof (dlim_mult _ _ _ _ _ D1 D1) as D|pose proof (dlim_mult _ _ _ _ _ D2 D2) as D]; exact D.
  - apply derivable_pt_lim_sqrt. destruct (Rlt_le_dec 0 (norm2 (X t0) b)) as [H|H]; auto. rewrite sqrt_neg_0 in Hp by auto. lra.
Qed.

Notation tp i := (nth i (i_node_types x) 0%nat).
Notation et b := (nth b (i_neigh_types x) 0%nat).
Lemma tp_lt i : (i < i_num_nodes x)%nat -> (tp i < T)%nat.
Proof. intros Hi. apply (io_ty _ _ II). cbn [with_xyz i_node_types]. apply nth_In. rewrite len_types. exact Hi. Qed.
Lemma et_lt b : (b < nE)%nat -> (et b < T)%nat.
Proof. intros Hb. apply (io_nty _ _ II). cbn [with_xyz i_neigh_types]. apply nth_In. pose proof (io_nt _ _ II) as L. cbn [with_xyz i_neigh_types i_num_neigh] in L. lia. Qed.
Lemma ei_lt b : (b < nE)%nat -> (nth b (i_neigh_indices x) 0 < i_num_nodes x)%nat.
Proof. intros Hb. apply (io_ix _ _ II). cbn [with_xyz i_neigh_indices]. apply nth_In. pose proof (io_idx _ _ II) as L. cbn [with_xyz i_neigh_indices i_num_neigh] in L. lia. Qed.

Lemma row_d c (vals ders : list (list (list RNum))) t u r p : radial_ok T c vals ders -> (t < T)%nat -> (u < T)%nat -> 0 < r ->
  (forall v row, In v vals -> In row v -> in_cells (N:=RNum) (f_radial_spline_h f) (length row) r) -> (p < c)%nat ->
  derivable_pt_lim (fun r => setv (N:=RNum) (nth (tyij (ldm f) t u) (ld_set f vals ders) (dset (N:=RNum))) r p) r
     (setd (N:=RNum) (nth (tyij (ldm f) t u) (ld_set f vals ders) (dset (N:=RNum))) r p).
Proof.
  intros R Ht Hu Hr D Hp. pose proof (tyij_lt (ldm f) t u Ht Hu) as L. cbn [ldm m_atomic_numbers] in L. assert (L2 := proj1 R).
  set (q := tyij (ldm f) t u) in *. assert (Hq : (q < length vals)%nat) by lia. rewrite nth_set by auto.
  destruct R as (R1 & R2 & R3). destruct (R3 q Hq) as (kn & Hk & E1 & E2 & K1 & K2).
  assert (E0 : length (nth 0 (nth q vals []) []) = kn) by (apply K1; apply nth_In; lia). rewrite E0.
  assert (E3 : length (nth p (nth q vals []) []) = kn) by (apply K1; apply nth_In; lia).
  assert (Hp' : (p < length (nth q vals []))%nat) by lia.
  apply setv_d; [apply (so_h _ S)|exact Hr|exact Hp'|exact E3|]. rewrite <- E3. apply (D (nth q vals [])); apply nth_In; assumption.
Qed.
Lemma dens_d h (vals ders : list (list RNum)) t u r : density_ok T vals ders -> (t < T)%nat -> (u < T)%nat -> 0 < h -> 0 < r ->
  (forall row, In row vals -> in_cells (N:=RNum) h (length row) r) ->
  derivable_pt_lim (fun r => csv (N:=RNum) (nth (tyij (ldm f) t u) (ld_spl h vals ders) (dspl (N:=RNum))) r) r
     (csd (N:=RNum) (nth (tyij (ldm f) t u) (ld_spl h vals ders) (dspl (N:=RNum))) r).
Proof.
  intros R Ht Hu Hh Hr D. pose proof (tyij_lt (ldm f) t u Ht Hu) as L. cbn [ldm m_atomic_numbers] in L. assert (L2 := proj1 R).
  set (q := tyij (ldm f) t u) in *. assert (Hq : (q < length vals)%nat) by lia. rewrite nth_spls by auto.
  apply csv_d; auto. apply D. apply nth_In. auto.
Qed.

Lemma zbl_d t u r : f_has_zbl f = true -> (t < T)%nat -> (u < T)%nat -> 0 < r ->
  derivable_pt_lim (fun r => zen (N:=RNum) (ldm f) t u r) r (zgr (N:=RNum) (ldm f) t u r).
Proof.
  intros E Ht Hu Hr. destruct (so_zbl _ S E) as (L4 & Hp & Hpos). destruct (fo_zbl _ F E) as [Hz _].
  set (Zt := nth t (f_atomic_numbers f) 0%nat). set (Zu := nth u (f_atomic_numbers f) 0%nat).
  assert (It : In Zt (f_atomic_numbers f)) by (apply nth_In; auto). assert (Iu : In Zu (f_atomic_numbers f)) by (apply nth_In; auto).
  pose proof (rd_some (f_zbl_covalent_radii f) Zt 0 (Hz _ It)) as R1. pose proof (rd_some (f_zbl_covalent_radii f) Zu 0 (Hz _ Iu)) as R2.
  destruct (f_zbl_c f) as [|a0 [|a1 [|a2 [|a3 [|? ?]]]]] eqn:Ec; try discriminate L4.
  set (z := mkZBL (f_zbl_a_exp f) (f_zbl_a_prefactor f) (f_zbl_c f) (f_zbl_covalent_radii f) (f_zbl_p f)).
  destruct (lemma_C25 z Zt Zu _ _ a0 a1 a2 a3 r R1 R2 Ec Hp (Hpos _ _ _ _ It Iu R1 R2) Hr) as (_ & G & EG & D).
  unfold zen, zgr. cbn [ldm m_zbl m_atomic_numbers]. fold z Zt Zu. rewrite EG. cbn [zget].
  apply dlim_ext with (f := fun t => getR (zbl_compute z Zt Zu t)); [|exact D].
  intros y. unfold getR, zget. rewrite RNum_zero. reflexivity.
Qed.

Lemma mY_d b lm : (b < nE)%nat -> (lm < num_lm (ldm f))%nat -> derivable_pt_lim (fun t => Yt sph (ldm f) med t b lm) t0 (dY sph (ldm f) med t0 mv b lm).
Proof.
  intros Hb Hlm. pose proof (mx_d0 b Hb) as D0. pose proof (mx_d b 1 Hb ltac:(lia)) as D1. pose proof (mx_d b 2 Hb ltac:(lia)) as D2.
  pose proof (sa_pos _ _ _ SA b Hb) as Hp. unfold num_lm in Hlm. cbn [ldm m_l_max] in Hlm.
  assert (G := Hgr (f_l_max f) (fun t => nth (3 * b + 2) (X t) 0) (fun t => nth (3 * b) (X t) 0) (fun t => nth (3 * b + 1) (X t) 0) t0 _ _ _ D2 D0 D1).
  specialize (G ltac:(unfold norm2 in Hp; lra) lm Hlm).
  unfold Yt, Yv, dY, Yg, med. cbn [e_x e_y e_z ldm m_l_max]. unfold num_lm, at_. cbn [ldm m_l_max]. rewrite RNum_zero.
  set (L := ((f_l_max f + 1) * (f_l_max f + 1))%nat) in *.
  cbv [rsum]. 
  replace ((0 * L + lm + L) mod (3 * L))%nat with (L + lm)%nat by (rewrite Nat.mod_small; lia).
  replace ((1 * L + lm + L) mod (3 * L))%nat with (2 * L + lm)%nat by (rewrite Nat.mod_small; lia).
  replace ((2 * L + lm + L) mod (3 * L))%nat with lm
    by (replace (2 * L + lm + L)%nat with (lm + 1 * (3 * L))%nat by lia; rewrite Nat.mod_add, Nat.mod_small; lia).
  eapply dlim_eq; [|apply (dlim_scal_r _ _ (ynorm (N:=RNum)) t0 G)].
  cbn [nmul RNum]. ring.
Qed.

Lemma by_pair (vals : list (list R)) V : (forall q t u, nth_error (upairs T) q = Some (t, u) -> V t u = nth q vals []) ->
  forall t u, (t < T)%nat -> (u < T)%nat -> nth (tyij (ldm f) t u) vals [] = V (Nat.min t u) (Nat.max t u).
Proof. intros H t u Ht Hu. symmetry. apply H. apply (tyij_upairs (ldm f) t u Ht Hu). Qed.

Lemma flat0 : flat (mst t0) = xt t0.
Proof. apply (flat_sys_of f). apply II. Qed.
Lemma wf0 : sys_wf (ldm f) (mst t0) (length (mst t0)).
Proof. apply (ld_sys_wf f F). rewrite flat0. apply II. Qed.

Lemma sc0_nz : m_A0_scaled (ldm f) = true -> forall i, (i < i_num_nodes x)%nat -> sc0 (N:=RNum) (ldm f) (mst t0) i <> 0.
Proof.
  cbn [ldm m_A0_scaled]. intros E i Hi. destruct (sa_A0 _ _ _ SA E) as (V & D & HV & Hrho).
  destruct (Hrho i Hi) as (rho & E1 & Hne).
  assert (DS : density_sum (f_A0_spline_h f) V D (xt t0) i = Some (sc0 (ldm f) (mst t0) i)).
  { unfold sc0. apply (dens_sum f _ (f_A0_spline_h f) (f_A0_spline_values f) (f_A0_spline_derivs f) V D (mst t0) (xt t0) flat0 wf0 (fo_A0s _ F E)).
    - apply by_pair. intros q t u Hq. apply (HV q t u Hq).
    - apply by_pair. intros q t u Hq. apply (HV q t u Hq).
    - cbn [ldm m_A0_splines]. rewrite E. reflexivity.
    - intros k e Hk He. apply (sw_A0 _ _ _ wf0 E k e Hk He).
    - rewrite mst_len. exact Hi. }
  rewrite E1 in DS. injection DS as <-. exact Hne.
Qed.
Lemma sc1_nz : m_A1_scaled (ldm f) = true -> forall i, (i < i_num_nodes x)%nat -> sc1 (N:=RNum) (ldm f) (mst t0) i <> 0.
Proof.
  cbn [ldm m_A1_scaled]. intros E i Hi. destruct (sa_A1 _ _ _ SA E) as (V & D & HV & Hrho).
  destruct (Hrho i Hi) as (rho & E1 & Hne).
  assert (DS : density_sum (f_A1_spline_h f) V D (xt t0) i = Some (sc1 (ldm f) (mst t0) i)).
  { unfold sc1. apply (dens_sum f _ (f_A1_spline_h f) (f_A1_spline_values f) (f_A1_spline_derivs f) V D (mst t0) (xt t0) flat0 wf0 (fo_A1s _ F E)).
    - apply by_pair. intros q t u Hq. apply (HV q t u Hq).
    - apply by_pair. intros q t u Hq. apply (HV q t u Hq).
    - cbn [ldm m_A1_splines]. rewrite E. reflexivity.
    - intros k e Hk He. apply (sw_A1 _ _ _ wf0 E k e Hk He).
    - rewrite mst_len. exact Hi. }
  rewrite E1 in DS. injection DS as <-. exact Hne.
Qed.

Lemma fe_d (y : R -> list RNum) (dy : nat -> R) : (forall t, length (y t) = f_num_channels f) ->
  (forall k, (k < f_num_channels f)%nat -> derivable_pt_lim (fun t => nth k (y t) 0) t0 (dy k)) ->
  derivable_pt_lim (fun t => ldfe f (y t)) t0 (rsum (f_num_channels f) (fun k => ldfg f (y t0) k * dy k)).
Proof.
  intros Hl Hd. pose proof (fo_K _ F) as HK.
  assert (G := jac_curve (f_num_channels f) (ldWs f) (f_readout_2_scale_factor f) HK ltac:(simpl; lia) (ld_layers f F) y
     (tab (f_num_channels f) dy) t0).
  specialize (G ltac:(intros k Hk; rewrite nth_tab by auto; apply Hd; auto)).
  specialize (G (act_g (N:=RNum) (f_readout_2_scale_factor f)) 0%nat (act_g_R _) Nat.lt_0_1).
  unfold ldfe, ldfg. rewrite RNum_zero. eapply dlim_eq; [|exact G]. apply rsum_ext. intros k Hk. rewrite nth_tab by auto.
  cbn [Nat.mul Nat.add]. reflexivity.
Qed.

Lemma moving_energy : derivable_pt_lim (fun t => rsum (i_num_nodes x) (fun i => resE sph srt f (mst t) i)) t0
  (- rsum (i_num_nodes x) (fun i => rl (mB i) (fun b => rsum 3 (fun a => resF sph srt f (mst t0) i (med t0 b) a * mv b a)))).
Proof.
  unfold resE, resF.
  apply (energy_curve sph (ldm f) (ld_wf f F) (ldp0 srt f) (ldp1 srt f) (ldfe f) (ldfg f) mst (i_num_nodes x) mB
    (fun i => tp i) med (fun b => et b) (fun b => nth b (i_neigh_indices x) 0%nat)).
  - exact mst_len.
  - intros t i Hi. apply mst_es. exact Hi.
  - intros t i Hi. apply mst_es. exact Hi.
  - reflexivity.
  - reflexivity.
  - intros i b Hi Hb. apply ei_lt. apply (mB_lt i b Hi Hb).
  - intros i Hi. apply tp_lt. exact Hi.
  - intros i b Hi Hb. apply mr_d. apply (mB_lt i b Hi Hb).
  - intros i b p Hi Hb Hp. pose proof (mB_lt i b Hi Hb) as Hb'. apply (row_d _ _ _ _ _ _ p (fo_R0 _ F) (tp_lt i Hi) (et_lt b Hb') (mr_pos b Hb')); auto.
    apply (mr_dom b Hb').
  - intros i b p Hi Hb Hp. pose proof (mB_lt i b Hi Hb) as Hb'. apply (row_d _ _ _ _ _ _ p (fo_R1 _ F) (tp_lt i Hi) (et_lt b Hb') (mr_pos b Hb')); auto.
    apply (mr_dom b Hb').
  - cbn [ldm m_A0_scaled]. intros E i b Hi Hb. pose proof (mB_lt i b Hi Hb) as Hb'. unfold D0, spl0. cbn [ldm m_A0_splines]. rewrite E.
    apply dens_d; [apply (fo_A0s _ F E)|apply (tp_lt i Hi)|apply (et_lt b Hb')|apply (so_h0 _ S E)|apply (mr_pos b Hb')|].
    apply (mr_dom b Hb'). exact E.
  - cbn [ldm m_A1_scaled]. intros E i b Hi Hb. pose proof (mB_lt i b Hi Hb) as Hb'. unfold D1, spl1. cbn [ldm m_A1_splines]. rewrite E.
    apply dens_d; [apply (fo_A1s _ F E)|apply (tp_lt i Hi)|apply (et_lt b Hb')|apply (so_h1 _ S E)|apply (mr_pos b Hb')|].
    apply (mr_dom b Hb'). exact E.
  - cbn [ldm m_has_zbl]. intros E i b Hi Hb. pose proof (mB_lt i b Hi Hb) as Hb'.
    apply zbl_d; [exact E|apply (tp_lt i Hi)|apply (et_lt b Hb')|apply (mr_pos b Hb')].
  - intros i b lm Hi Hb Hlm. apply mY_d; auto. apply (mB_lt i b Hi Hb).
  - exact sc0_nz.
  - exact sc1_nz.
  - intros q Hq. destruct (ldp0_live srt Hsrt f F q Hq) as [(_ & H1 & H2 & _) _]. auto.
  - intros q Hq. destruct (ldp1_live srt Hsrt f F q Hq) as [(_ & H1 & H2 & _) _]. auto.
  - exact fe_d.
Qed.

(** ** the flat array of forces against the rates of change of the edge vectors *)
Lemma wsum_blocks {A} (g : A -> nat -> R) (k : A -> nat) (w : nat -> R) L s : map k L = seq s (length L) ->
  wsum (3 * s) (flat_map (fun p => tab 3 (g p)) L) w = rl L (fun p => rsum 3 (fun a => g p a * w (3 * k p + a)%nat)).
Proof.
  revert s. induction L as [|p L IH]; intros s H; [reflexivity|]. cbn [map length seq] in H. injection H as Hk H.
  cbn [flat_map]. rewrite wsum_app, wsum_tab, rl_cons, length_tab. replace (3 * s + 3)%nat with (3 * Datatypes.S s)%nat by lia.
  rewrite IH by exact H. rewrite Hk. reflexivity.
Qed.
Lemma dot_wsum : forall a b : list R, length a = length b -> dot a b = wsum 0 a (fun j => nth j b 0).
Proof.
  unfold dot, wsum. induction a as [|p a IH]; intros [|q b] H; try discriminate; [reflexivity|]. injection H as H.
  cbn [length]. rewrite rsum_shift. cbn [combine map total fold_right fst snd nth Nat.add]. apply f_equal. apply (IH b H).
Qed.

Lemma mB_all k : (k <= i_num_nodes x)%nat -> flat_map mB (seq 0 k) = seq 0 (list_sum (firstn k nns)).
Proof.
  induction k as [|k IH]; intros Hk; [reflexivity|]. rewrite seq_S, flat_map_app', IH by lia. cbn [flat_map Nat.add]. rewrite app_nil_r.
  rewrite sum_firstn_S by (rewrite len_nns; lia). unfold mB. rewrite <- seq_app. reflexivity.
Qed.

Lemma forces_dot : dot (eb (mst t0) 3 (resF sph srt f (mst t0))) X' =
  rsum (i_num_nodes x) (fun i => rl (mB i) (fun b => rsum 3 (fun a => resF sph srt f (mst t0) i (med t0 b) a * mv b a))).
Proof.
  set (L := flat_map (fun i => map (pair i) (mB i)) (seq 0 (i_num_nodes x))).
  assert (EL : map snd L = seq 0 nE).
  { unfold L. rewrite flat_map_concat_map, concat_map, map_map, <- flat_map_concat_map.
    transitivity (flat_map mB (seq 0 (i_num_nodes x))).
    - apply flat_map_ext. intros i. rewrite map_map. apply map_id.
    - rewrite mB_all by lia. rewrite <- len_nns, firstn_all. reflexivity. }
  assert (LL : length L = nE) by (rewrite <- (map_length snd L), EL; apply seq_length).
  assert (EB : eb (mst t0) 3 (resF sph srt f (mst t0)) = flat_map (fun p => tab 3 (resF sph srt f (mst t0) (fst p) (med t0 (snd p)))) L).
  { unfold eb, epairs, L. rewrite mst_len. rewrite !flat_map_concat_map.
    rewrite !concat_map, !map_map. f_equal. f_equal. apply map_ext_in. intros i Hi. apply in_seq in Hi.
    rewrite (proj1 (mst_es t0 i ltac:(lia))). rewrite !map_map. reflexivity. }
  rewrite EB, dot_wsum.
  2:{ rewrite (length_flat_map_const _ _ 3), LL, Hlen'; [lia|]. intros p _. apply length_tab. }
  pose proof (wsum_blocks (fun p => resF sph srt f (mst t0) (fst p) (med t0 (snd p))) snd (fun j => nth j X' 0) L 0) as W.
  rewrite EL, LL in W. specialize (W eq_refl). change (3 * 0)%nat with 0%nat in W.
  etransitivity; [exact W|]. unfold L. rewrite rl_flat_map, rl_seq. apply rsum_ext. intros i _. rewrite rl_map. reflexivity.
Qed.

Lemma local_ok : exists del, 0 < del /\ forall t, Rabs (t - t0) < del -> input_ok f (xt t).
Proof.
  destruct (list_open (fun b t => in_domain f (sqrt (norm2 (X t) b))) (seq 0 nE) t0) as (del & Hd & H).
  - intros b Hb. apply in_seq in Hb. assert (Hb' : (b < nE)%nat) by lia.
    destruct (domain_open f _ S (mr_pos b Hb') (mr_dom b Hb')) as (eps & He & Ho).
    assert (C : continuity_pt (fun t => sqrt (norm2 (X t) b)) t0).
    { apply derivable_continuous_pt. exists (vr med t0 mv b). apply mr_d. exact Hb'. }
    destruct (C eps He) as (al & Ha & Hc). exists al. split; [exact Ha|]. intros t Ht. apply Ho.
    destruct (Req_dec t t0) as [->|Hne]; [rewrite Rminus_diag_eq, Rabs_R0 by reflexivity; exact He|].
    apply (Hc t). split; [split; [exact I|auto]|exact Ht].
  - exists del. split; [exact Hd|]. intros t Ht. pose proof II as [A1 A2 A3 A4 A5 A6 A7 A8 A9 A10].
    cbn [with_xyz i_num_nodes i_node_types i_num_neigh i_neigh_indices i_neigh_types i_xyz i_r] in *.
    constructor; cbn [with_xyz i_num_nodes i_node_types i_num_neigh i_neigh_indices i_neigh_types i_xyz i_r]; auto.
    + rewrite map_length, seq_length. reflexivity.
    + intros r Hr. apply in_map_iff in Hr. destruct Hr as (b & <- & Hb). apply (H t Ht b Hb).
Qed.

Lemma total_tab n g : total (tab n g) = rsum n g.
Proof. transitivity (lsumR (tab n g)); [reflexivity|apply lsumR_tab]. Qed.

Lemma motion_lemma hist : Forall (input_ok f) hist ->
  exists m b0 bh b1 del E, load_from_json srt f = Some (m, b0) /\ calls sph m b0 hist = Some bh /\
    call sph m bh (xt t0) = Some b1 /\ 0 < del /\
    (forall t, Rabs (t - t0) < del -> exists b, call sph m bh (xt t) = Some b /\ E t = total (b_node_energies b)) /\
    derivable_pt_lim E t0 (- dot (b_node_forces b1) X').
Proof.
  intros Hh. destruct (load_ok srt Hsrt f F) as (b0 & E0 & L0).
  destruct (calls_ok sph Hsph srt f F b0 hist L0 Hh) as (bh & Eh & Lh).
  destruct (call_ok sph Hsph srt f F bh (xt t0) Lh II) as (b1 & E1 & _ & _ & F1).
  destruct local_ok as (del & Hd & Ho).
  exists (ldm f), b0, bh, b1, del, (fun t => rsum (i_num_nodes x) (fun i => resE sph srt f (mst t) i)).
  split; [exact E0|]. split; [exact Eh|]. split; [exact E1|]. split; [exact Hd|]. split.
  - intros t Ht. destruct (call_ok sph Hsph srt f F bh (xt t) Lh (Ho t Ht)) as (b & E & _ & A & _).
    exists b. split; [exact E|]. rewrite A. symmetry. apply total_tab.
  - rewrite F1. fold (mst t0). rewrite forces_dot. apply moving_energy.
Qed.
End Moving.

Lemma dot_unit : forall (a : list R) p, (p < length a)%nat -> dot a (tab (length a) (fun j => if (p =? j)%nat then 1 else 0)) = nth p a 0.
Proof.
  intros a p Hp. rewrite dot_wsum by (rewrite length_tab; reflexivity). unfold wsum.
  rewrite (rsum_single _ p); auto.
  - cbn [Nat.add]. rewrite nth_tab by auto. rewrite Nat.eqb_refl. ring.
  - intros i Hi Hne. cbn [Nat.add]. rewrite nth_tab by auto. destruct (Nat.eqb_spec p i); [congruence|ring].
Qed.

Lemma forces_lemma sph : sph_ok (N:=RNum) sph -> sph_gradient sph -> forall srt, (forall l, Permutation l (srt l)) ->
  forall f, file_ok f -> smooth_ok f -> forall hist x xs, Forall (input_ok f) hist -> smooth_at f x xs ->
  exists m b0 bh b1, load_from_json srt f = Some (m, b0) /\ calls sph m b0 hist = Some bh /\
    call sph m bh (with_xyz x xs) = Some b1 /\
    forall p, (p < length xs)%nat -> exists F E del, rd (b_node_forces b1) p = Some F /\ 0 < del /\
      (forall u, Rabs (u - nth p xs 0) < del ->
         exists b, call sph m bh (with_xyz x (upd xs p u)) = Some b /\ E u = total (b_node_energies b)) /\
      derivable_pt_lim E (nth p xs 0) (- F).
Proof.
  intros Hsph Hgr srt Hsrt f F S hist x xs Hh SA.
  destruct (load_ok srt Hsrt f F) as (b0 & E0 & L0).
  destruct (calls_ok sph Hsph srt f F b0 hist L0 Hh) as (bh & Eh & Lh).
  destruct (call_ok sph Hsph srt f F bh (with_xyz x xs) Lh (sa_ok _ _ _ SA)) as (b1 & E1 & _ & _ & F1).
  exists (ldm f), b0, bh, b1. split; [exact E0|]. split; [exact Eh|]. split; [exact E1|].
  assert (Lx : length xs = (3 * list_sum (i_num_neigh x))%nat) by (apply (io_xyz _ _ (sa_ok _ _ _ SA))).
  intros p Hp.
  assert (L1 : length (b_node_forces b1) = length xs).
  { destruct (lemma_C05 sph Hsph srt Hsrt f F hist (with_xyz x xs) Hh (sa_ok _ _ _ SA)) as (m' & b0' & bh' & b1' & G1 & G2 & G3 & _ & G4).
    rewrite E0 in G1. injection G1 as <- <-. rewrite Eh in G2. injection G2 as <-. rewrite E1 in G3. injection G3 as <-. exact G4. }
  destruct (motion_lemma sph Hsph Hgr srt Hsrt f F S x (upd xs p) (tab (length xs) (fun j => if (p =? j)%nat then 1 else 0)) (nth p xs 0))
    with (hist := hist) as (m' & b0' & bh' & b1' & del & E & G1 & G2 & G3 & G4 & G5 & G6); auto.
  - intros t. rewrite length_upd. exact Lx.
  - rewrite length_tab. exact Lx.
  - intros j Hj. rewrite nth_tab by lia. apply nth_upd_curve. exact Hp.
  - rewrite upd_same. exact SA.
  - rewrite E0 in G1. injection G1 as <- <-. rewrite Eh in G2. injection G2 as <-. rewrite upd_same, E1 in G3. injection G3 as <-.
    exists (nth p (b_node_forces b1) 0), E, del. split; [apply rd_some; rewrite L1; exact Hp|]. split; [exact G4|]. split; [exact G5|].
    
    apply (dlim_eq _ _ (- dot (b_node_forces b1) (tab (length xs) (fun j => if (p =? j)%nat then 1 else 0)))); [|exact G6].
    apply f_equal. rewrite <- L1. apply (dot_unit (b_node_forces b1)). exact (eq_ind_r (fun k => (p < k)%nat) Hp L1).
Qed.
