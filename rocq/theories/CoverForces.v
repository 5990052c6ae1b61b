(** Forces of covering inputs: sums over the edges above an edge, renumbered inputs, supercells. *)
From Coq Require Import List Arith ZArith Lia Bool Permutation Reals Lra.
From Verif Require Import Base BaseLemmas Instances RSums RList MpSpec MaceModel MaceSpec MaceSpec2 MaceGradSpec MaceThms MaceForces GradSums MlpR ExportPolySpec EnergySpec EnergyProofs ExportSubset ExportForces SymSpec SymProofs SymForces CoverSpec Cover.
From Coquelicot Require Import Coquelicot.
Import ListNotations.
Local Open Scope R_scope.

Lemma covers_with sg ep x' x a b : covers sg ep x' x -> covers sg ep (with_xyz x' a) (with_xyz x b).
Proof. intros [A B C D E F G H I J]. constructor; assumption. Qed.
Lemma r_with sg ep x' x xs : covers sg ep x' x -> length (i_num_neigh x) = i_num_nodes x ->
  i_r (with_xyz x' (lift3 ep (list_sum (i_num_neigh x')) xs)) = lift1 ep (list_sum (i_num_neigh x')) (i_r (with_xyz x xs)).
Proof.
  intros CV L. cbn [with_xyz i_r i_num_neigh]. unfold lift1. apply map_ext_in. intros p Hp. apply in_seq in Hp. rewrite norm2_lift by lia.
  symmetry. apply (nth_tab (list_sum (i_num_neigh x)) (fun q => sqrt (norm2 xs q))). apply (ep_lt sg ep x' x CV L). lia.
Qed.

Lemma rsum_edges (g : nat -> R) : forall nns, rsum (list_sum nns) g = rsum (length nns) (fun i => rl (seq (list_sum (firstn i nns)) (nth i nns 0%nat)) g).
Proof.
  intros nns. revert g. induction nns as [|n nns IH]; intros g; [reflexivity|]. cbn [length]. rewrite rsum_shift. change (list_sum (n :: nns)) with (n + list_sum nns)%nat. rewrite rsum_add.
  cbn [firstn nth list_sum fold_right]. rewrite rl_seq. f_equal. rewrite IH. apply rsum_ext. intros i Hi.
  change (fold_right Nat.add 0%nat (firstn i nns)) with (list_sum (firstn i nns)).
  assert (S : forall m a, seq (n + a) m = map (fun j => (n + j)%nat) (seq a m)).
  { induction m as [|m IHm]; intros a; [reflexivity|]. cbn [seq map]. f_equal. rewrite <- IHm. f_equal. lia. }
  rewrite S, rl_map. reflexivity.
Qed.
Lemma rl_count n (g : nat -> R) : forall l, (forall a, In a l -> (a < n)%nat) -> rl l g = rsum n (fun j => INR (count_occ Nat.eq_dec l j) * g j).
Proof.
  induction l as [|a l IH]; intros H.
  - cbn [count_occ]. rewrite rsum_0; [reflexivity|]. intros j _. cbn [INR]. ring.
  - rewrite rl_cons, IH by (intros b Hb; apply H; right; exact Hb).
    rewrite <- (rl_select n a g) by (apply H; left; reflexivity). rewrite <- rsum_plus. apply rsum_ext. intros j _. cbn [count_occ].
    destruct (Nat.eq_dec a j) as [->|Ne].
    + rewrite Nat.eqb_refl, S_INR. ring.
    + rewrite (proj2 (Nat.eqb_neq a j)) by exact Ne. ring.
Qed.

Lemma rsum_le n g h : (forall i, (i < n)%nat -> g i <= h i) -> rsum n g <= rsum n h.
Proof. intros H. assert (0 <= rsum n (fun i => h i - g i)) by (apply rsum_nonneg; intros i Hi; specialize (H i Hi); lra). rewrite rsum_minus in H0. lra. Qed.

Section Fold.
Variables sg ep : nat -> nat.
Variables x' x : input RNum.
Hypothesis CV : covers sg ep x' x.
Hypothesis L : length (i_num_neigh x) = i_num_nodes x.
Variable k : nat.
Hypothesis Fk : fold_of sg (i_num_nodes x') (i_num_nodes x) k.
Notation n := (i_num_nodes x).
Notation n' := (i_num_nodes x').
Notation nE := (list_sum (i_num_neigh x)).
Notation nE' := (list_sum (i_num_neigh x')).

Lemma sum_nodes (g : nat -> R) : rsum n' (fun i => g (sg i)) = INR k * rsum n g.
Proof.
  rewrite <- rl_seq, <- (rl_map (seq 0 n') sg g), (rl_count n).
  - rewrite <- rsum_scal_l. apply rsum_ext. intros j Hj. rewrite (Fk j Hj). reflexivity.
  - intros a Ha. apply in_map_iff in Ha. destruct Ha as (i & <- & Hi). apply in_seq in Hi. apply (cv_node _ _ _ _ CV). lia.
Qed.
Lemma sum_edges (w : nat -> R) : rsum nE' (fun q => w (ep q)) = INR k * rsum nE w.
Proof.
  rewrite !rsum_edges. rewrite (cv_nn _ _ _ _ CV), L. rewrite <- sum_nodes. apply rsum_ext. intros i Hi.
  rewrite <- (rl_map _ ep w). apply rl_perm. apply (cv_edges _ _ _ _ CV). exact Hi.
Qed.
Lemma fibre p : (p < nE)%nat -> rsum nE' (fun q => if (ep q =? p)%nat then 1 else 0) = INR k.
Proof.
  intros Hp. rewrite (sum_edges (fun j => if (j =? p)%nat then 1 else 0)). rewrite (rsum_single _ p); [rewrite Nat.eqb_refl; ring|exact Hp|].
  intros j _ Hj. rewrite (proj2 (Nat.eqb_neq j p)) by exact Hj. reflexivity.
Qed.
End Fold.

Lemma density_cover h V D sg ep (x' x : input RNum) f i : covers sg ep x' x -> input_ok f x -> i_r x' = lift1 ep (list_sum (i_num_neigh x')) (i_r x) -> (i < i_num_nodes x')%nat ->
  density_sum (N:=RNum) h V D x' i = density_sum (N:=RNum) h V D x (sg i).
Proof.
  intros CV HX Er Hi. pose proof (cv_node _ _ _ _ CV i Hi) as Hs. pose proof (io_nn _ _ HX) as L. unfold density_sum.
  rewrite (rd_some (i_node_types x') i 0%nat) by (rewrite (cv_types _ _ _ _ CV); exact Hi). rewrite (rd_some (i_node_types x) (sg i) 0%nat) by (rewrite (io_types _ _ HX); exact Hs).
  rewrite (rd_some (i_num_neigh x') i 0%nat) by (rewrite (cv_nn _ _ _ _ CV); exact Hi). rewrite (rd_some (i_num_neigh x) (sg i) 0%nat) by (rewrite L; exact Hs).
  cbn [bind]. rewrite (cv_type _ _ _ _ CV i Hi). set (t := nth (sg i) (i_node_types x) 0%nat). unfold edge_pos. rewrite !Nat.add_0_r.
  set (st := fun (y : input RNum) acc q => a <- acc ;; u <- rd (i_neigh_types y) q ;; r <- rd (i_r y) q ;; d <- dens h V D t u r ;; Some (nadd (n:=RNum) a d)).
  assert (P : forall l l', Permutation l l' -> forall a, fold_left (st x) l a = fold_left (st x) l' a).
  { intros l l' P. induction P as [|q l l' P IH|q r l|l l' l'' P IH Q IH']; intros a; cbn [fold_left]; auto.
    - f_equal. unfold st. destruct a as [a|]; [|reflexivity]. cbn [bind].
      destruct (rd (i_neigh_types x) q) as [u|]; destruct (rd (i_neigh_types x) r) as [u'|]; cbn [bind]; try reflexivity;
      destruct (rd (i_r x) q) as [s|]; destruct (rd (i_r x) r) as [s'|]; cbn [bind]; try reflexivity;
      repeat (match goal with |- context [dens h V D t ?u ?s] => destruct (dens h V D t u s); cbn [bind]; try reflexivity end).
      f_equal. cbn [nadd RNum carrier]. ring.
    - rewrite IH. apply IH'. }
  change (fold_left (st x') (edges_of x' i) (Some none) = fold_left (st x) (edges_of x (sg i)) (Some none)).
  rewrite <- (P _ _ (cv_edges _ _ _ _ CV i Hi)).
  assert (Q : forall l, (forall q, In q l -> (q < list_sum (i_num_neigh x'))%nat) -> forall a, fold_left (st x') l a = fold_left (st x) (map ep l) a).
  { induction l as [|q l IH]; intros H a; [reflexivity|]. cbn [map fold_left]. rewrite IH by (intros; apply H; right; assumption). f_equal. unfold st. destruct a as [a|]; [|reflexivity]. cbn [bind].
    assert (Hq : (q < list_sum (i_num_neigh x'))%nat) by (apply H; left; reflexivity). pose proof (ep_lt sg ep x' x CV L q Hq) as He.
    rewrite (rd_some (i_neigh_types x') q 0%nat) by (rewrite (cv_nt _ _ _ _ CV); exact Hq). rewrite (rd_some (i_neigh_types x) (ep q) 0%nat) by (rewrite (io_nt _ _ HX); exact He).
    rewrite (cv_ntype _ _ _ _ CV q Hq). cbn [bind].
    assert (E : rd (i_r x') q = rd (i_r x) (ep q)).
    { rewrite Er. pose proof (io_r _ _ HX) as Lr. rewrite (rd_some (i_r x) (ep q) 0) by (change (carrier RNum) with R in *; lia).
      etransitivity; [apply (rd_some (A:=R) (lift1 ep (list_sum (i_num_neigh x')) (i_r x)) q 0); unfold lift1; rewrite map_length, seq_length; exact Hq|]. apply (f_equal (@Some R)). unfold lift1.
      apply (nth_tab (list_sum (i_num_neigh x')) (fun p => nth (ep p) (i_r x) 0)). exact Hq. }
    rewrite E. reflexivity. }
  apply Q. intros q Hq. apply (edges_lt x' i); [apply (cv_nn _ _ _ _ CV)|exact Hi|exact Hq].
Qed.
Lemma smooth_cover f sg ep x' x xs : covers sg ep x' x -> smooth_at f x xs -> smooth_at f x' (lift3 ep (list_sum (i_num_neigh x')) xs).
Proof.
  intros CV [A B C D]. pose proof (covers_with sg ep x' x (lift3 ep (list_sum (i_num_neigh x')) xs) xs CV) as CW. pose proof (io_nn _ _ A) as L. cbn [with_xyz i_num_neigh i_num_nodes] in L.
  pose proof (r_with sg ep x' x xs CV L) as Er. constructor.
  - apply (cover_ok sg ep _ _ CW f A); [reflexivity|exact Er].
  - intros q Hq. rewrite norm2_lift by exact Hq. apply B. apply (ep_lt sg ep x' x CV L q Hq).
  - intros S. destruct (C S) as (V & Dd & H1 & H2). exists V, Dd. split; [exact H1|]. intros i Hi. rewrite (density_cover _ _ _ _ _ _ _ f i CW A Er Hi). apply H2. apply (cv_node _ _ _ _ CV). exact Hi.
  - intros S. destruct (D S) as (V & Dd & H1 & H2). exists V, Dd. split; [exact H1|]. intros i Hi. rewrite (density_cover _ _ _ _ _ _ _ f i CW A Er Hi). apply H2. apply (cv_node _ _ _ _ CV). exact Hi.
Qed.

Section Forces.
Variable sph : nat -> R -> R -> R -> list R * list R.
Hypothesis Hs : sph_ok (N:=RNum) sph.
Hypothesis Hg : sph_gradient sph.
Variable srt : list (list (list nat)) -> list (list (list nat)).
Hypothesis Hp : forall l, Permutation l (srt l).
Variable f : mace_file RNum.
Hypothesis F : file_ok f.
Hypothesis S : smooth_ok f.
Hypothesis Mo : monomials_once f.

Lemma lemma_C86_sum hist x x' xs sg ep k : List.Forall (input_ok f) hist -> covers sg ep x' x -> fold_of sg (i_num_nodes x') (i_num_nodes x) k -> smooth_at f x xs ->
  exists m b0 bh b b', load_from_json srt f = Some (m, b0) /\ calls sph m b0 hist = Some bh /\
    call sph m bh (with_xyz x xs) = Some b /\ call sph m bh (with_xyz x' (lift3 ep (list_sum (i_num_neigh x')) xs)) = Some b' /\
    total (b_node_energies b') = INR k * total (b_node_energies b) /\
    length (b_node_forces b) = (3 * list_sum (i_num_neigh x))%nat /\ length (b_node_forces b') = (3 * list_sum (i_num_neigh x'))%nat /\
    forall p c, (p < list_sum (i_num_neigh x))%nat -> (c < 3)%nat ->
      sum (list_sum (i_num_neigh x')) (fun q => if (ep q =? p)%nat then nth (3 * q + c) (b_node_forces b') 0 else 0) = INR k * nth (3 * p + c) (b_node_forces b) 0.
Proof.
  intros Hh CV Fk SA.
  pose proof (so_h _ S) as h0. assert (h0' : f_radial_spline_h f <> 0) by lra.
  assert (h1 : f_A0_scaled f = true -> f_A0_spline_h f <> 0) by (intros E; pose proof (so_h0 _ S E); lra).
  assert (h2 : f_A1_scaled f = true -> f_A1_spline_h f <> 0) by (intros E; pose proof (so_h1 _ S E); lra).
  pose proof (smooth_cover f sg ep x' x xs CV SA) as SA'.
  assert (Lx : length xs = (3 * list_sum (i_num_neigh x))%nat) by (apply (io_xyz _ _ (sa_ok _ _ _ SA))).
  assert (Ln : length (i_num_neigh x) = i_num_nodes x) by (apply (io_nn _ _ (sa_ok _ _ _ SA))).
  set (nE := list_sum (i_num_neigh x)) in *. set (nE' := list_sum (i_num_neigh x')) in *.
  assert (EN : forall y, input_ok f (with_xyz x y) -> exists m b0 bh b b', load_from_json srt f = Some (m, b0) /\ calls sph m b0 hist = Some bh /\
    call sph m bh (with_xyz x y) = Some b /\ call sph m bh (with_xyz x' (lift3 ep nE' y)) = Some b' /\ total (b_node_energies b') = INR k * total (b_node_energies b)).
  { intros y HX. destruct (lemma_C85 sph Hs srt Hp f F Mo h0' h1 h2 hist (with_xyz x y) (with_xyz x' (lift3 ep nE' y)) sg ep Hh HX) as (m & b0 & bh & b & b' & E1 & E2 & E3 & E4 & E5).
    - apply covers_with. exact CV.
    - reflexivity.
    - apply (r_with sg ep x' x y CV Ln).
    - exists m, b0, bh, b, b'. do 4 (split; [assumption|]). rewrite E5.
      destruct (lemma_C05 sph Hs srt Hp f F hist (with_xyz x y) Hh HX) as (m' & b0' & bh' & b1' & G1 & G2 & G3 & G4 & _).
      rewrite E1 in G1. injection G1 as <- <-. rewrite E2 in G2. injection G2 as <-. rewrite E3 in G3. injection G3 as <-. cbn [with_xyz i_num_nodes] in *.
      change (rl (seq 0 (i_num_nodes x')) (fun i => nth (sg i) (b_node_energies b) 0) = INR k * total (b_node_energies b)).
      rewrite rl_seq, (sum_nodes sg ep x' x CV Ln k Fk (fun j => nth j (b_node_energies b) 0)). f_equal. rewrite <- G4. symmetry. apply lsumR_rsum. }
  destruct (EN xs (sa_ok _ _ _ SA)) as (m & b0 & bh & b & b' & E1 & E2 & E3 & E4 & E5).
  exists m, b0, bh, b, b'. do 5 (split; [assumption|]).
  assert (FL : forall z y by_, input_ok f (with_xyz z y) -> call sph m bh (with_xyz z y) = Some by_ -> length (b_node_forces by_) = (3 * list_sum (i_num_neigh z))%nat).
  { intros z y by_ I Ec. destruct (lemma_C05 sph Hs srt Hp f F hist (with_xyz z y) Hh I) as (m' & b0' & bh' & b1' & G1 & G2 & G3 & _ & G4).
    rewrite E1 in G1. injection G1 as <- <-. rewrite E2 in G2. injection G2 as <-. rewrite Ec in G3. injection G3 as <-. rewrite G4. apply (io_xyz _ _ I). }
  pose proof (FL _ _ _ (sa_ok _ _ _ SA) E3) as Lb. pose proof (FL _ _ _ (sa_ok _ _ _ SA') E4) as Lb'. fold nE in Lb. fold nE' in Lb'.
  split; [exact Lb|]. split; [exact Lb'|]. intros p c Hpp Hc.
  set (h := fun j => if (3 * p + c =? j)%nat then 1 else 0).
  assert (KEY : dot (b_node_forces b') (lift3 ep nE' (tab (3 * nE) h)) = INR k * dot (b_node_forces b) (tab (3 * nE) h)).
  { set (X := fun t => tab (3 * nE) (fun j => nth j xs 0 + t * h j)).
    assert (X0 : X 0 = xs). { unfold X. apply (nth_ext _ _ 0 0); [rewrite length_tab; lia|]. intros j Hj. rewrite length_tab in Hj. rewrite nth_tab by exact Hj. ring. }
    assert (XL : forall t, length (X t) = (3 * nE)%nat) by (intros t; apply length_tab).
    assert (XD : forall p, (p < 3 * nE)%nat -> derivable_pt_lim (fun t => nth p (X t) 0) 0 (nth p (tab (3 * nE) h) 0)).
    { intros p' Hpp'. rewrite nth_tab by exact Hpp'. apply (dlim_ext (fun t => nth p' xs 0 + t * h p')).
      - intros t. unfold X. rewrite nth_tab by exact Hpp'. reflexivity.
      - apply is_derive_Reals. auto_derive; [exact I|ring]. }
    destruct (motion_lemma sph Hs Hg srt Hp f F S x X (tab (3 * nE) h) 0 XL (length_tab _ _) XD) with (hist := hist)
      as (m1 & b01 & bh1 & b1 & del & E & G1 & G2 & G3 & G4 & G5 & G6); [rewrite X0; exact SA|exact Hh|].
    destruct (motion_lemma sph Hs Hg srt Hp f F S x' (fun t => lift3 ep nE' (X t)) (lift3 ep nE' (tab (3 * nE) h)) 0) with (hist := hist)
      as (m2 & b02 & bh2 & b2 & del' & E' & K1 & K2 & K3 & K4 & K5 & K6); auto.
    - intros t. apply length_lift3.
    - apply length_lift3.
    - intros j Hj. destruct (split3 j) as (q & c' & -> & Hc'). fold nE' in Hj. rewrite nth_lift3 by lia.
      apply (dlim_ext (fun t => nth (3 * ep q + c') (X t) 0)).
      + intros t. rewrite nth_lift3 by lia. reflexivity.
      + apply XD. assert (Hq : (q < nE')%nat) by lia. pose proof (ep_lt sg ep x' x CV Ln q Hq) as He. fold nE in He. lia.
    - rewrite X0. exact SA'.
    - rewrite E1 in G1, K1. injection G1 as <- <-. injection K1 as <- <-. rewrite E2 in G2, K2. injection G2 as <-. injection K2 as <-.
      rewrite X0 in G3, K3. rewrite E3 in G3. injection G3 as <-. rewrite E4 in K3. injection K3 as <-.
      assert (Q : derivable_pt_lim E' 0 (INR k * - dot (b_node_forces b) (tab (3 * nE) h))).
      { destruct (local_ok f S x X (tab (3 * nE) h) 0 XL (length_tab _ _) XD) as (d1 & Hd1 & O1); [rewrite X0; exact SA|].
        assert (P1 : 0 < Rmin (Rmin del del') d1) by (repeat apply Rmin_pos; assumption).
        apply (dlim_local (fun t => INR k * E t) E' 0 _ _ (dlim_scal _ _ _ _ G6) P1). intros t Ht.
        assert (T1 : Rabs (t - 0) < del) by (eapply Rlt_le_trans; [exact Ht|]; eapply Rle_trans; [apply Rmin_l|apply Rmin_l]).
        assert (T2 : Rabs (t - 0) < del') by (eapply Rlt_le_trans; [exact Ht|]; eapply Rle_trans; [apply Rmin_l|apply Rmin_r]).
        assert (T3 : Rabs (t - 0) < d1) by (eapply Rlt_le_trans; [exact Ht|]; apply Rmin_r).
        destruct (G5 t T1) as (c1 & C1 & ->). destruct (K5 t T2) as (c2 & C2 & ->).
        destruct (EN (X t) (O1 t T3)) as (m3 & b03 & bh3 & a3 & a3' & J1 & J2 & J3 & J4 & J5).
        rewrite E1 in J1. injection J1 as <- <-. rewrite E2 in J2. injection J2 as <-. rewrite C1 in J3. injection J3 as <-. rewrite C2 in J4. injection J4 as <-. symmetry. exact J5. }
      pose proof (uniqueness_limite _ _ _ _ K6 Q). lra. }
  assert (Lh : (3 * p + c < length (b_node_forces b))%nat) by (change (carrier RNum) with R in *; lia).
  assert (EF : lift3 ep nE' (tab (3 * nE) h) = tab (3 * nE') (fun j => h (3 * ep (j / 3) + j mod 3)%nat)).
  { apply (nth_ext _ _ 0 0); [rewrite length_lift3, length_tab; reflexivity|]. intros j Hj. rewrite length_lift3 in Hj. destruct (split3 j) as (q & c' & -> & Hc').
    assert (Hq : (q < nE')%nat) by lia. pose proof (ep_lt sg ep x' x CV Ln q Hq) as He. fold nE in He.
    rewrite nth_lift3 by lia. rewrite (nth_tab (3 * nE)) by lia. rewrite nth_tab by lia. destruct (div3 q c' Hc') as (-> & ->). reflexivity. }
  assert (Lb2 : length (b_node_forces b) = (3 * nE)%nat) by exact Lb.
  rewrite EF, dot_tab in KEY by exact Lb'. rewrite <- Lb2 in KEY. change (tab (length (b_node_forces b)) h) with (tab (length (b_node_forces b)) (fun j => if (3 * p + c =? j)%nat then 1 else 0)) in KEY.
  rewrite dot_unit in KEY by exact Lh. etransitivity; [|exact KEY]. rewrite !sum_rsum, rsum_prod3. apply rsum_ext. intros q Hq. unfold h.
  destruct (d3 q) as (A0 & A1 & A2 & B0 & B1 & B2). rewrite A0, A1, A2, B0, B1, B2, Nat.add_0_r.
  destruct (Nat.eqb_spec (ep q) p) as [Ee|Ne].
  - rewrite Ee. destruct c as [|[|[|c]]]; [| | |lia]; rewrite ?Nat.add_0_r;
    repeat match goal with |- context [(?a =? ?b)%nat] => destruct (Nat.eqb_spec a b); [|] end; try lia; change (carrier RNum) with R; ring.
  - repeat match goal with |- context [(?a =? ?b)%nat] => destruct (Nat.eqb_spec a b); [|] end; try lia; change (carrier RNum) with R; ring.
Qed.

Lemma two_le n (g : nat -> R) a b : (a < n)%nat -> (b < n)%nat -> a <> b -> (forall i, (i < n)%nat -> 0 <= g i) -> g a + g b <= rsum n g.
Proof.
  intros Ha Hb Ne H. rewrite <- (rl_select n a g Ha), <- (rl_select n b g Hb), <- rsum_plus.
  assert (0 <= rsum n (fun i => g i - ((if (a =? i)%nat then g i else 0) + (if (b =? i)%nat then g i else 0)))).
  { apply rsum_nonneg. intros i Hi. specialize (H i Hi). destruct (Nat.eqb_spec a i), (Nat.eqb_spec b i); try lra. lia. }
  rewrite rsum_minus in H0. lra.
Qed.

Lemma energies_cover hist x x' xs sg ep m b0 bh b b' : List.Forall (input_ok f) hist -> covers sg ep x' x -> smooth_at f x xs ->
  load_from_json srt f = Some (m, b0) -> calls sph m b0 hist = Some bh -> call sph m bh (with_xyz x xs) = Some b -> call sph m bh (with_xyz x' (lift3 ep (list_sum (i_num_neigh x')) xs)) = Some b' ->
  b_node_energies b' = map (fun i => nth (sg i) (b_node_energies b) 0) (seq 0 (i_num_nodes x')).
Proof.
  intros Hh CV SA E1 E2 E3 E4.
  pose proof (so_h _ S) as h0. assert (h0' : f_radial_spline_h f <> 0) by lra.
  assert (h1 : f_A0_scaled f = true -> f_A0_spline_h f <> 0) by (intros E; pose proof (so_h0 _ S E); lra).
  assert (h2 : f_A1_scaled f = true -> f_A1_spline_h f <> 0) by (intros E; pose proof (so_h1 _ S E); lra).
  destruct (lemma_C85 sph Hs srt Hp f F Mo h0' h1 h2 hist (with_xyz x xs) (with_xyz x' (lift3 ep (list_sum (i_num_neigh x')) xs)) sg ep Hh (sa_ok _ _ _ SA)) as (m1 & b01 & bh1 & b1 & b1' & G1 & G2 & G3 & G4 & G5).
  - apply covers_with. exact CV.
  - reflexivity.
  - apply (r_with sg ep x' x xs CV (io_nn _ _ (sa_ok _ _ _ SA))).
  - rewrite E1 in G1. injection G1 as <- <-. rewrite E2 in G2. injection G2 as <-. rewrite E3 in G3. injection G3 as <-. rewrite E4 in G4. injection G4 as <-. exact G5.
Qed.

Lemma lemma_C86_renumber hist x x' xs sg ep : List.Forall (input_ok f) hist -> covers sg ep x' x -> fold_of sg (i_num_nodes x') (i_num_nodes x) 1 -> smooth_at f x xs ->
  exists m b0 bh b b', load_from_json srt f = Some (m, b0) /\ calls sph m b0 hist = Some bh /\
    call sph m bh (with_xyz x xs) = Some b /\ call sph m bh (with_xyz x' (lift3 ep (list_sum (i_num_neigh x')) xs)) = Some b' /\
    b_node_energies b' = map (fun i => nth (sg i) (b_node_energies b) 0) (seq 0 (i_num_nodes x')) /\ b_node_forces b' = lift3 ep (list_sum (i_num_neigh x')) (b_node_forces b).
Proof.
  intros Hh CV Fk SA. destruct (lemma_C86_sum hist x x' xs sg ep 1 Hh CV Fk SA) as (m & b0 & bh & b & b' & E1 & E2 & E3 & E4 & _ & Lb & Lb' & Q).
  pose proof (io_nn _ _ (sa_ok _ _ _ SA)) as Ln. cbn [with_xyz i_num_neigh i_num_nodes] in Ln.
  exists m, b0, bh, b, b'. do 4 (split; [assumption|]). split; [apply (energies_cover hist x x' xs sg ep m b0 bh b b'); assumption|].
  apply (nth_ext _ _ 0 0); [rewrite length_lift3; exact Lb'|]. intros j Hj. pose proof (Nat.lt_le_trans _ _ _ Hj (Nat.eq_le_incl _ _ Lb')) as Hj'. clear Hj.
  destruct (split3 j) as (q & c & -> & Hc). assert (Hq : (q < list_sum (i_num_neigh x'))%nat) by lia. rewrite nth_lift3 by assumption.
  pose proof (ep_lt sg ep x' x CV Ln q Hq) as He. specialize (Q (ep q) c He Hc). rewrite sum_rsum in Q. rewrite (rsum_single _ q) in Q.
  - rewrite Nat.eqb_refl in Q. cbn [INR] in Q. rewrite Rmult_1_l in Q. exact Q.
  - exact Hq.
  - intros q1 Hq1 Ne. destruct (Nat.eqb_spec (ep q1) (ep q)) as [Ee|]; [|reflexivity]. exfalso.
    pose proof (fibre sg ep x' x CV Ln 1 Fk (ep q) He) as Fb. cbn [INR] in Fb.
    pose proof (two_le _ (fun j => if (ep j =? ep q)%nat then 1 else 0) q1 q Hq1 Hq Ne) as T. cbv beta in T. rewrite Ee, Nat.eqb_refl in T.
    rewrite Fb in T. assert (1 + 1 <= 1); [apply T|lra]. intros i _. destruct (_ =? _)%nat; lra.
Qed.

Lemma lift_lift ep te n n' xs : (forall j, (j < n)%nat -> (te j < n')%nat) -> lift3 te n (lift3 ep n' xs) = lift3 (fun j => ep (te j)) n xs.
Proof.
  intros H. apply (nth_ext _ _ 0 0); [rewrite !length_lift3; reflexivity|]. intros j Hj. rewrite length_lift3 in Hj. destruct (split3 j) as (q & c & -> & Hc).
  rewrite !nth_lift3 by (try apply H; lia). reflexivity.
Qed.
Lemma lift_ext ep ep' n xs : (forall j, (j < n)%nat -> ep j = ep' j) -> lift3 ep n xs = lift3 ep' n xs.
Proof.
  intros H. apply (nth_ext _ _ 0 0); [rewrite !length_lift3; reflexivity|]. intros j Hj. rewrite length_lift3 in Hj. destruct (split3 j) as (q & c & -> & Hc).
  rewrite !nth_lift3 by lia. rewrite H by lia. reflexivity.
Qed.

Lemma lemma_C86_supercell hist x x' xs sg ep k : List.Forall (input_ok f) hist -> covers sg ep x' x -> fold_of sg (i_num_nodes x') (i_num_nodes x) k -> translations ep x' -> smooth_at f x xs ->
  exists m b0 bh b b', load_from_json srt f = Some (m, b0) /\ calls sph m b0 hist = Some bh /\
    call sph m bh (with_xyz x xs) = Some b /\ call sph m bh (with_xyz x' (lift3 ep (list_sum (i_num_neigh x')) xs)) = Some b' /\
    total (b_node_energies b') = INR k * total (b_node_energies b) /\ b_node_forces b' = lift3 ep (list_sum (i_num_neigh x')) (b_node_forces b).
Proof.
  intros Hh CV Fk TR SA. destruct (lemma_C86_sum hist x x' xs sg ep k Hh CV Fk SA) as (m & b0 & bh & b & b' & E1 & E2 & E3 & E4 & E5 & Lb & Lb' & Q).
  pose proof (io_nn _ _ (sa_ok _ _ _ SA)) as Ln. cbn [with_xyz i_num_neigh i_num_nodes] in Ln.
  pose proof (smooth_cover f sg ep x' x xs CV SA) as SA'.
  exists m, b0, bh, b, b'. do 5 (split; [assumption|]).
  set (nE' := list_sum (i_num_neigh x')) in *.
  assert (EQ : forall q q1 c, (q < nE')%nat -> (q1 < nE')%nat -> (c < 3)%nat -> ep q = ep q1 -> nth (3 * q + c) (b_node_forces b') 0 = nth (3 * q1 + c) (b_node_forces b') 0).
  { intros q q1 c Hq Hq1 Hc Ee. destruct (TR q q1 Hq Hq1 Ee) as (tau & te & CT & FT & Et & Eq).
    destruct (lemma_C86_renumber hist x' x' (lift3 ep nE' xs) tau te Hh CT FT SA') as (m1 & b01 & bh1 & b1 & b1' & G1 & G2 & G3 & G4 & _ & G6).
    rewrite E1 in G1. injection G1 as <- <-. rewrite E2 in G2. injection G2 as <-. rewrite E4 in G3. injection G3 as <-.
    fold nE' in G4. rewrite lift_lift in G4 by (intros j Hj; apply (ep_lt tau te x' x' CT (cv_nn _ _ _ _ CV)); exact Hj).
    rewrite (lift_ext _ ep nE' xs) in G4 by exact Et. rewrite E4 in G4. injection G4 as <-. fold nE' in G6. rewrite G6 at 1. rewrite nth_lift3 by assumption. rewrite Eq. reflexivity. }
  apply (nth_ext _ _ 0 0); [rewrite length_lift3; exact Lb'|]. intros j Hj. pose proof (Nat.lt_le_trans _ _ _ Hj (Nat.eq_le_incl _ _ Lb')) as Hj'. clear Hj.
  destruct (split3 j) as (q & c & -> & Hc). assert (Hq : (q < nE')%nat) by lia. rewrite nth_lift3 by assumption.
  pose proof (ep_lt sg ep x' x CV Ln q Hq) as He. specialize (Q (ep q) c He Hc). rewrite sum_rsum in Q.
  rewrite (rsum_ext _ _ (fun q1 => (if (ep q1 =? ep q)%nat then 1 else 0) * nth (3 * q + c) (b_node_forces b') 0)) in Q.
  - pose proof (fibre sg ep x' x CV Ln k Fk (ep q) He) as Fb. fold nE' in Fb. rewrite rsum_scal_r, Fb in Q.
    assert (K1 : 1 <= INR k). { rewrite <- Fb. eapply Rle_trans; [apply Req_le; symmetry; exact (rl_select nE' q (fun _ => 1) Hq)|]. apply rsum_le. intros i Hi. destruct (Nat.eqb_spec q i) as [->|Ni]; [rewrite Nat.eqb_refl; apply Rle_refl|]. destruct (ep i =? ep q)%nat; cbv beta iota; lra. }
    apply Rmult_eq_reg_l in Q; [exact Q|lra].
  - intros q1 Hq1. destruct (Nat.eqb_spec (ep q1) (ep q)) as [Ee|]; [|ring]. rewrite Rmult_1_l. apply EQ; assumption.
Qed.
End Forces.
