(** Energies and forces of covering inputs. *)
From Coq Require Import List Arith ZArith Lia Bool Permutation Reals Lra.
From Verif Require Import Base BaseLemmas Instances RSums RList MpSpec MaceModel MaceSpec MaceSpec2 MaceGradSpec MaceThms MaceForces GradSums MlpR ExportPolySpec EnergySpec EnergyProofs ExportSubset ExportForces SymSpec SymProofs SymForces CoverSpec.
From Coquelicot Require Import Coquelicot.
Import ListNotations.
Local Open Scope R_scope.

Lemma suml_perm {A} (l l' : list A) g : Permutation l l' -> suml l g = suml l' g.
Proof. intros P. unfold suml. induction P; cbn [map fold_right]; lra. Qed.
Lemma length_lift3 ep n xs : length (lift3 ep n xs) = (3 * n)%nat.
Proof.
  unfold lift3. rewrite <- (seq_length n 0) at 2. induction (seq 0 n) as [|p l IH]; [reflexivity|]. cbn [flat_map app length]. rewrite IH. lia.
Qed.
Lemma nth_lift3 ep n xs p c : (p < n)%nat -> (c < 3)%nat -> nth (3 * p + c) (lift3 ep n xs) 0 = nth (3 * ep p + c) xs 0.
Proof.
  intros Hp Hc. unfold lift3. assert (G : forall l p, (p < length l)%nat -> nth (3 * p + c) (flat_map (fun p => [nth (3 * ep p) xs 0; nth (3 * ep p + 1) xs 0; nth (3 * ep p + 2) xs 0]) l) 0 = nth (3 * ep (nth p l 0%nat) + c) xs 0).
  { clear p Hp. induction l as [|q l IH]; intros p Hp; [cbn in Hp; lia|]. cbn [flat_map]. destruct p as [|p].
    - rewrite app_nth1 by (cbn; lia). destruct c as [|[|[|c]]]; [| | |lia]; cbn [Nat.mul Nat.add nth]; rewrite ?Nat.add_0_r; reflexivity.
    - rewrite app_nth2 by (cbn [length]; lia). cbn [length nth]. cbn [length] in Hp. rewrite <- IH by lia. f_equal. lia. }
  rewrite G by (rewrite seq_length; exact Hp). rewrite seq_nth by exact Hp. reflexivity.
Qed.
Lemma norm2_lift ep n xs p : (p < n)%nat -> norm2 (lift3 ep n xs) p = norm2 xs (ep p).
Proof.
  intros H. unfold norm2. pose proof (nth_lift3 ep n xs p 0 H ltac:(lia)) as E. rewrite !Nat.add_0_r in E. rewrite E. rewrite !nth_lift3 by lia. reflexivity.
Qed.
Lemma edge_owner nns p : (p < list_sum nns)%nat -> exists i, (i < length nns)%nat /\ In p (seq (list_sum (firstn i nns)) (nth i nns 0%nat)).
Proof.
  revert p. induction nns as [|n nns IH]; intros p H; [cbn in H; lia|]. cbn [list_sum fold_right] in H. fold (list_sum nns) in H.
  destruct (Nat.lt_ge_cases p n) as [L|L].
  - exists 0%nat. split; [cbn; lia|]. cbn [firstn list_sum fold_right nth]. apply in_seq. lia.
  - destruct (IH (p - n)%nat ltac:(lia)) as (i & Hi & Q). exists (S i). split; [cbn; lia|]. cbn [firstn nth]. change (list_sum (n :: firstn i nns)) with (n + list_sum (firstn i nns))%nat. apply in_seq in Q. apply in_seq. lia.
Qed.

Section Cover.
Variable sg ep : nat -> nat.
Variable x' x : input RNum.
Hypothesis CV : covers sg ep x' x.
Notation nE := (list_sum (i_num_neigh x)).
Notation nE' := (list_sum (i_num_neigh x')).

Lemma edges_lt (y : input RNum) i p : length (i_num_neigh y) = i_num_nodes y -> (i < i_num_nodes y)%nat -> In p (edges_of y i) -> (p < list_sum (i_num_neigh y))%nat.
Proof. intros L Hi Hp. unfold edges_of in Hp. apply in_seq in Hp. pose proof (seg_le (i_num_neigh y) i ltac:(lia)). lia. Qed.
Lemma ep_lt (L : length (i_num_neigh x) = i_num_nodes x) p : (p < nE')%nat -> (ep p < nE)%nat.
Proof.
  intros Hp. destruct (edge_owner _ _ Hp) as (i & Hi & Q). rewrite (cv_nn _ _ _ _ CV) in Hi.
  apply (edges_lt x (sg i)); [exact L|apply (cv_node _ _ _ _ CV); exact Hi|]. eapply Permutation_in; [apply (cv_edges _ _ _ _ CV); exact Hi|]. apply in_map. exact Q.
Qed.

Section Energies.
Variable sph : nat -> R -> R -> R -> list R * list R.
Variable f : mace_file RNum.
Hypothesis HX : input_ok f x.
Hypothesis Exyz : i_xyz x' = lift3 ep nE' (i_xyz x).
Hypothesis Er : i_r x' = lift1 ep nE' (i_r x).
Notation K := (f_num_channels f).

Lemma cover_ok : input_ok f x'.
Proof.
  pose proof (io_nn _ _ HX) as L. constructor.
  - apply (cv_types _ _ _ _ CV).
  - apply (cv_nn _ _ _ _ CV).
  - apply (cv_nidx _ _ _ _ CV).
  - apply (cv_nt _ _ _ _ CV).
  - rewrite Er. unfold lift1. rewrite map_length, seq_length. reflexivity.
  - rewrite Exyz. apply length_lift3.
  - intros t Ht. apply (In_nth _ _ 0%nat) in Ht. destruct Ht as (i & Hi & <-). rewrite (cv_types _ _ _ _ CV) in Hi. rewrite (cv_type _ _ _ _ CV) by exact Hi.
    apply (io_ty _ _ HX), nth_In. rewrite (io_types _ _ HX). apply (cv_node _ _ _ _ CV). exact Hi.
  - intros t Ht. apply (In_nth _ _ 0%nat) in Ht. destruct Ht as (p & Hp & <-). rewrite (cv_nt _ _ _ _ CV) in Hp. rewrite (cv_ntype _ _ _ _ CV) by exact Hp.
    apply (io_nty _ _ HX), nth_In. rewrite (io_nt _ _ HX). apply ep_lt; assumption.
  - apply (cv_ix _ _ _ _ CV).
  - intros r Hr. rewrite Er in Hr. unfold lift1 in Hr. apply in_map_iff in Hr. destruct Hr as (p & <- & Hp). apply in_seq in Hp. apply (io_dom _ _ HX). apply nth_In.
    eapply Nat.lt_le_trans; [apply ep_lt; [exact L|apply Hp]|]. apply Nat.eq_le_incl. symmetry. apply (io_r _ _ HX).
Qed.

Definition below (e : nbr) : nbr := mkNbr (nb_type e) (sg (nb_index e)) (nb_x e) (nb_y e) (nb_z e) (nb_r e).
Lemma nbrs_cover i : (i < i_num_nodes x')%nat -> Permutation (map below (neighbours x' i)) (neighbours x (sg i)).
Proof.
  intros Hi. pose proof (Permutation_map (fun p => mkNbr (nth p (i_neigh_types x) 0%nat) (nth p (i_neigh_indices x) 0%nat)
                  (nth (3 * p) (i_xyz x) 0) (nth (3 * p + 1) (i_xyz x) 0) (nth (3 * p + 2) (i_xyz x) 0) (nth p (i_r x) 0)) (cv_edges _ _ _ _ CV i Hi)) as P.
  rewrite map_map in P. unfold neighbours, edges_of in *. rewrite map_map. erewrite map_ext_in; [exact P|]. intros p Hp. unfold below. cbn [nb_type nb_index nb_x nb_y nb_z nb_r].
  assert (Hp' : (p < nE')%nat) by (apply (edges_lt x' i); [apply (cv_nn _ _ _ _ CV)|exact Hi|exact Hp]).
  rewrite (cv_ntype _ _ _ _ CV), (cv_far _ _ _ _ CV) by exact Hp'. rewrite Exyz, Er.
  pose proof (nth_lift3 ep nE' (i_xyz x) p 0 Hp' ltac:(lia)) as E0. rewrite !Nat.add_0_r in E0. change (carrier RNum) with R. rewrite E0, !nth_lift3 by lia. unfold lift1.
  f_equal. etransitivity; [apply (nth_tab nE' (fun p => nth (ep p) (i_r x) 0)); exact Hp'|reflexivity].
Qed.
Lemma suml_cover i (g : nbr -> R) h : (i < i_num_nodes x')%nat -> (forall e, In e (neighbours x' i) -> h e = g (below e)) -> suml (neighbours x' i) h = suml (neighbours x (sg i)) g.
Proof. intros Hi H. rewrite <- (suml_perm _ _ g (nbrs_cover i Hi)), suml_map. apply suml_ext. exact H. Qed.
Lemma tp_cover i : (i < i_num_nodes x')%nat -> tp x' i = tp x (sg i).
Proof. intros Hi. apply (cv_type _ _ _ _ CV). exact Hi. Qed.
Lemma far_lt i e : (i < i_num_nodes x')%nat -> In e (neighbours x' i) -> (nb_index e < i_num_nodes x')%nat.
Proof.
  intros Hi He. unfold neighbours in He. apply in_map_iff in He. destruct He as (p & <- & Hp). cbn [nb_index]. apply (cv_ix _ _ _ _ CV), nth_In. rewrite (cv_nidx _ _ _ _ CV).
  apply (edges_lt x' i); [apply (cv_nn _ _ _ _ CV)|exact Hi|exact Hp].
Qed.
Lemma Phi0_cover i l m k : (i < i_num_nodes x')%nat -> Phi0 sph f x' i l m k = Phi0 sph f x (sg i) l m k.
Proof. intros Hi. unfold Phi0. rewrite (tp_cover i Hi). apply suml_cover; [exact Hi|]. reflexivity. Qed.
Lemma A0_cover i l m k : (i < i_num_nodes x')%nat -> A0 sph f x' i l m k = A0 sph f x (sg i) l m k.
Proof.
  intros Hi. unfold A0. rewrite (tp_cover i Hi). f_equal; [apply sum_eq; intros q _; rewrite Phi0_cover by exact Hi; reflexivity|].
  destruct (f_A0_scaled f); [|reflexivity]. apply f_equal. apply suml_cover; [exact Hi|reflexivity].
Qed.
Lemma H1_cover i L M k : (i < i_num_nodes x')%nat -> H1 sph f x' i L M k = H1 sph f x (sg i) L M k.
Proof.
  intros Hi. unfold H1. apply sum_eq. intros q _. f_equal. unfold M0. rewrite (tp_cover i Hi). f_equal. apply all_eq. intros l m _ _. apply A0_cover. exact Hi.
Qed.
Lemma A1_cover i l m k : (i < i_num_nodes x')%nat -> A1 sph f x' i l m k = A1 sph f x (sg i) l m k.
Proof.
  intros Hi. unfold A1. f_equal.
  - apply sum_eq. intros e _. apply sum_eq. intros q _. f_equal. unfold Phi1. apply sum_eq. intros p _. destruct (_ =? _)%nat; [|reflexivity]. f_equal.
    unfold message. destruct (nth _ (columns f) _) as [[le m1] m2]. rewrite (tp_cover i Hi). apply suml_cover; [exact Hi|]. intros e' He. cbn [below nb_type nb_index nb_r].
    rewrite H1_cover by (apply (far_lt i); assumption). reflexivity.
  - destruct (f_A1_scaled f); [|reflexivity]. rewrite (tp_cover i Hi). apply f_equal. apply suml_cover; [exact Hi|reflexivity].
Qed.
Lemma energy_cover i : (i < i_num_nodes x')%nat -> node_energy sph f x' i = node_energy sph f x (sg i).
Proof.
  intros Hi. unfold node_energy. rewrite (tp_cover i Hi). f_equal; [f_equal; [f_equal|]|].
  - unfold repulsion. destruct (f_has_zbl f); [|reflexivity]. rewrite (tp_cover i Hi). apply suml_cover; [exact Hi|reflexivity].
  - apply sum_eq. intros k _. rewrite H1_cover by exact Hi. reflexivity.
  - apply sum_eq. intros j _. do 2 f_equal. apply sum_eq. intros k Hk. f_equal. unfold H2. rewrite (tp_cover i Hi). f_equal; apply sum_eq; intros q Hq.
    + rewrite H1_cover by exact Hi. reflexivity.
    + f_equal. unfold M1. rewrite (tp_cover i Hi). f_equal. apply all_eq. intros l m _ _. apply A1_cover. exact Hi.
Qed.
End Energies.
End Cover.

Lemma lemma_C85 : forall sph, sph_ok (N:=RNum) sph -> forall srt, (forall l, Permutation l (srt l)) ->
  forall f : mace_file RNum, file_ok f -> monomials_once f ->
  f_radial_spline_h f <> 0 -> (f_A0_scaled f = true -> f_A0_spline_h f <> 0) -> (f_A1_scaled f = true -> f_A1_spline_h f <> 0) ->
  forall hist x x' sg ep, List.Forall (input_ok f) hist -> input_ok f x -> covers sg ep x' x ->
  i_xyz x' = lift3 ep (list_sum (i_num_neigh x')) (i_xyz x) -> i_r x' = lift1 ep (list_sum (i_num_neigh x')) (i_r x) ->
  exists m b0 bh b b', load_from_json srt f = Some (m, b0) /\ calls sph m b0 hist = Some bh /\ call sph m bh x = Some b /\ call sph m bh x' = Some b' /\
    b_node_energies b' = map (fun i => nth (sg i) (b_node_energies b) 0) (seq 0 (i_num_nodes x')).
Proof.
  intros sph Hs srt Hp f F Mo h0 h1 h2 hist x x' sg ep Hh HX CV Ex Er.
  destruct (lemma_C65 sph Hs srt Hp f F Mo h0 h1 h2 hist x Hh HX) as (m & b0 & bh & b & E1 & E2 & E3 & E4).
  destruct (lemma_C65 sph Hs srt Hp f F Mo h0 h1 h2 hist x' Hh (cover_ok sg ep x' x CV f HX Ex Er)) as (m' & b0' & bh' & b' & G1 & G2 & G3 & G4).
  rewrite E1 in G1. injection G1 as <- <-. rewrite E2 in G2. injection G2 as <-.
  exists m, b0, bh, b, b'. repeat split; auto. rewrite E4, G4. apply map_ext_in. intros i Hi. apply in_seq in Hi.
  etransitivity; [|symmetry; apply (nth_tab (i_num_nodes x) (node_energy sph f x)); apply (cv_node _ _ _ _ CV); lia].
  apply (energy_cover sg ep x' x CV sph f Ex Er). lia.
Qed.
