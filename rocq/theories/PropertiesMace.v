(** Property theorems for [MACE::compute_node_energies_forces] on a loaded model: C04, C05, C06, C07, C08, C09, C10.
    Model: MaceModel.v.  Well-formed files and calls: MaceSpec.v, MaceSpec2.v.
    [sph] is the spherical-harmonics library (any function filling arrays of the documented sizes), [srt] is
    std::sort up to ties. *)
From Coq Require Import List Arith ZArith QArith Reals Permutation Lia Lra.
From Verif Require Import Base Instances SplineModel SplineR ZblModel ZblThms MaceModel MaceSpec MaceSpec2 ExportSpec MaceThms MaceThms2 MaceThms3 MaceThms4
  MaceIso MaceExamples.
Import ListNotations.
Local Open Scope nat_scope.

(** ** C04: results depend only on the file and on the arguments, whatever was evaluated before *)
Theorem C04_history : forall (N : Num) sph, sph_ok sph -> forall srt, (forall l, Permutation l (srt l)) ->
  forall f : mace_file N, file_ok f -> forall hist x, Forall (input_ok f) hist -> input_ok f x ->
  exists m b0 b1 b2 b3, load_from_json srt f = Some (m, b0) /\
    calls sph m b0 hist = Some b1 /\ call sph m b1 x = Some b2 /\ call sph m b0 x = Some b3 /\
    b_node_energies b2 = b_node_energies b3 /\ b_node_forces b2 = b_node_forces b3.
Proof. exact @lemma_C04. Qed.
Print Assumptions C04_history.

(** arbitrary content and length of every work vector *)
Theorem C04_buffers : forall (N : Num) sph, sph_ok sph -> forall srt, (forall l, Permutation l (srt l)) ->
  forall f : mace_file N, file_ok f -> forall m b0 b x, load_from_json srt f = Some (m, b0) -> input_ok f x ->
  b_P0 b = b_P0 b0 -> b_P1 b = b_P1 b0 -> b_readout_2 b = b_readout_2 b0 ->
  exists b1 b2, call sph m b0 x = Some b1 /\ call sph m b x = Some b2 /\
    b_node_energies b2 = b_node_energies b1 /\ b_node_forces b2 = b_node_forces b1.
Proof. exact @lemma_C04_buffers. Qed.
Print Assumptions C04_buffers.

Lemma ex_in_half : ex_in (N:=QNum) (1#2)%Q.
Proof. vm_compute. split; congruence. Qed.
Lemma ex_in_32 : ex_in (N:=QNum) (3#2)%Q.
Proof. vm_compute. split; congruence. Qed.
Lemma perm_id : forall l : list (list (list nat)), Permutation l ((fun l => l) l).
Proof. intros; apply Permutation_refl. Qed.
Definition ex_empty {N : Num} : input N := mkInput 0 [] [] [] [] [] [].
Lemma ex_empty_ok {N : Num} (f : mace_file N) : input_ok f ex_empty.
Proof. constructor; cbn; auto; intros ? []. Qed.

(** a large system, an empty one and a small one before the call *)
Example C04_example : exists m b0 b1 b2 b3, load_from_json (N:=QNum) (fun l => l) ex_file = Some (m, b0) /\
  calls ex_sph m b0 [ex_x (1#2)%Q (3#2)%Q; ex_empty; ex_y (3#2)%Q] = Some b1 /\
  call ex_sph m b1 (ex_y (1#2)%Q) = Some b2 /\ call ex_sph m b0 (ex_y (1#2)%Q) = Some b3 /\
  b_node_energies b2 = b_node_energies b3 /\ b_node_forces b2 = b_node_forces b3.
Proof.
  apply (C04_history QNum ex_sph ex_sph_ok (fun l => l) perm_id ex_file ex_file_ok).
  - apply List.Forall_cons; [apply ex_x_ok; [exact ex_in_half|exact ex_in_32]|].
    apply List.Forall_cons; [apply ex_empty_ok|]. apply List.Forall_cons; [apply ex_y_ok; exact ex_in_32|apply List.Forall_nil].
  - apply ex_y_ok. exact ex_in_half.
Qed.

(** garbage of wrong lengths in the work vectors *)
Example C04_example_buffers : exists m b0 b1 b2, load_from_json (N:=QNum) (fun l => l) ex_file = Some (m, b0) /\
  call ex_sph m b0 (ex_y (1#2)%Q) = Some b1 /\
  call ex_sph m (let g := [(7#3)%Q; (-5)%Q] in mkBufs (N:=QNum) g g g g g g g g g g g g g g (b_P0 b0) g g g g g g g g g g g (b_P1 b0) g g
    (b_readout_2 b0)) (ex_y (1#2)%Q) = Some b2 /\
  b_node_energies b2 = b_node_energies b1 /\ b_node_forces b2 = b_node_forces b1.
Proof.
  destruct (C04_history QNum ex_sph ex_sph_ok (fun l => l) perm_id ex_file ex_file_ok [] ex_empty (List.Forall_nil _) (ex_empty_ok _))
    as (m & b0 & _ & _ & _ & E & _).
  destruct (C04_buffers QNum ex_sph ex_sph_ok (fun l => l) perm_id ex_file ex_file_ok m b0
    (let g := [(7#3)%Q; (-5)%Q] in mkBufs (N:=QNum) g g g g g g g g g g g g g g (b_P0 b0) g g g g g g g g g g g (b_P1 b0) g g (b_readout_2 b0))
    (ex_y (1#2)%Q) E (ex_y_ok _ ex_in_half) eq_refl eq_refl eq_refl) as (b1 & b2 & H).
  exists m, b0, b1, b2. split; [exact E|exact H].
Qed.

(** ** C05: a well-formed file loads, and every well-formed call after any history of well-formed calls
    returns normally ([Some]: no access outside a vector), with output arrays of the documented sizes *)
Theorem C05_no_out_of_bounds : forall (N : Num) sph, sph_ok sph -> forall srt, (forall l, Permutation l (srt l)) ->
  forall f : mace_file N, file_ok f -> forall hist x, Forall (input_ok f) hist -> input_ok f x ->
  exists m b0 b1 b2, load_from_json srt f = Some (m, b0) /\
    calls sph m b0 hist = Some b1 /\ call sph m b1 x = Some b2 /\
    length (b_node_energies b2) = i_num_nodes x /\ length (b_node_forces b2) = length (i_xyz x).
Proof. exact @lemma_C05. Qed.
Print Assumptions C05_no_out_of_bounds.

Example C05_example : exists m b0 b1 b2, load_from_json (N:=QNum) (fun l => l) ex_file = Some (m, b0) /\
  calls ex_sph m b0 [ex_empty] = Some b1 /\ call ex_sph m b1 (ex_x (1#2)%Q (3#2)%Q) = Some b2 /\
  length (b_node_energies b2) = 3 /\ length (b_node_forces b2) = 15.
Proof.
  apply (C05_no_out_of_bounds QNum ex_sph ex_sph_ok (fun l => l) perm_id ex_file ex_file_ok [ex_empty] (ex_x (1#2)%Q (3#2)%Q)).
  - constructor; [apply ex_empty_ok|constructor].
  - apply ex_x_ok; [exact ex_in_half|exact ex_in_32].
Qed.

(** a species that is not in the model is an access out of bounds in the model as well *)
Example C05_example_bad : ex_run (mkInput 1 [2] [0] [] [] [] []) = None.
Proof. vm_compute. reflexivity. Qed.

(** ** C06: two systems side by side *)
Theorem C06_disconnected : forall (N : Num) (f : mace_file N) sph, sph_ok sph -> forall srt, (forall l, Permutation l (srt l)) ->
  file_ok f -> forall x y, input_ok f x -> input_ok f y ->
  exists m b0 b1 b2 b3, load_from_json srt f = Some (m, b0) /\
    call sph m b0 x = Some b1 /\ call sph m b0 y = Some b2 /\ call sph m b0 (cat_input x y) = Some b3 /\
    b_node_energies b3 = b_node_energies b1 ++ b_node_energies b2 /\
    b_node_forces b3 = b_node_forces b1 ++ b_node_forces b2.
Proof. exact @lemma_C06. Qed.
Print Assumptions C06_disconnected.

Example C06_example : exists m b0 b1 b2 b3, load_from_json (N:=QNum) (fun l => l) ex_file = Some (m, b0) /\
  call ex_sph m b0 (ex_x (1#2)%Q (3#2)%Q) = Some b1 /\ call ex_sph m b0 (ex_y (3#2)%Q) = Some b2 /\
  call ex_sph m b0 (mkInput 6 [0; 1; 1; 0; 1; 1] [3; 1; 1; 1; 0; 1] [1; 2; 1; 0; 0; 5; 3] [1; 1; 1; 0; 0; 1; 0]
    (wts 1 15 ++ wts 2 6) [1#2; 3#2; 1#2; 1#2; 3#2; 3#2; 3#2]%Q) = Some b3 /\
  b_node_energies b3 = b_node_energies b1 ++ b_node_energies b2 /\
  b_node_forces b3 = b_node_forces b1 ++ b_node_forces b2.
Proof.
  apply (C06_disconnected QNum ex_file ex_sph ex_sph_ok (fun l => l) perm_id ex_file_ok (ex_x (1#2)%Q (3#2)%Q) (ex_y (3#2)%Q)).
  - apply ex_x_ok; [exact ex_in_half|exact ex_in_32].
  - apply ex_y_ok. exact ex_in_32.
Qed.

(** ** C09: an atom without neighbours; bit for bit the energy of that atom alone, and in exact arithmetic the
    tabulated atomic energy *)
Theorem C09_isolated : forall (N : Num) (f : mace_file N) sph, sph_ok sph -> forall srt, (forall l, Permutation l (srt l)) ->
  file_ok f -> forall x i t, input_ok f x -> rd (i_node_types x) i = Some t -> rd (i_num_neigh x) i = Some 0 ->
  exists m b0 b1 b2 v, load_from_json srt f = Some (m, b0) /\
    call sph m b0 x = Some b1 /\ call sph m b0 (single_input t) = Some b2 /\
    rd (b_node_energies b1) i = Some v /\ b_node_energies b2 = [v].
Proof. exact @lemma_C09. Qed.
Print Assumptions C09_isolated.

Theorem C09_isolated_value : forall sph, sph_ok (N:=RNum) sph -> forall srt, (forall l, Permutation l (srt l)) ->
  forall f : mace_file RNum, file_ok f -> forall x i t, input_ok f x ->
  rd (i_node_types x) i = Some t -> rd (i_num_neigh x) i = Some 0 ->
  exists m b0 b1, load_from_json srt f = Some (m, b0) /\ call sph m b0 x = Some b1 /\
    rd (b_node_energies b1) i = rd (f_atomic_energies f) t.
Proof. exact lemma_C09_value. Qed.
Print Assumptions C09_isolated_value.

Example C09_example : exists m b0 b1 b2 v, load_from_json (N:=QNum) (fun l => l) ex_file = Some (m, b0) /\
  call ex_sph m b0 (ex_y (1#2)%Q) = Some b1 /\ call ex_sph m b0 (single_input 1) = Some b2 /\
  rd (b_node_energies b1) 1 = Some v /\ b_node_energies b2 = [v].
Proof.
  apply (C09_isolated QNum ex_file ex_sph ex_sph_ok (fun l => l) perm_id ex_file_ok (ex_y (1#2)%Q) 1 1); try reflexivity.
  apply ex_y_ok. exact ex_in_half.
Qed.

(** the whole evaluation run on rationals: the atomic energy of species 1 is 5 *)
Example C09_example_run : match ex_run (ex_y (1#2)%Q) with Some (E, G) => rd E 1 = Some (5#1)%Q /\ length G = 6 | None => False end.
Proof. vm_compute. auto. Qed.

(** ** distances for the examples over the reals *)
Lemma exR_in (r : R) k : (INR k <= r < INR (k + 1))%R -> k < 3 -> ex_in (N:=RNum) r.
Proof.
  intros Hr Hk. unfold ex_in. change (0 <= Rtrunc (r / 1) < 3)%Z. rewrite (trunc_cell 1 r k); [lia|lra|lra].
Qed.
Lemma exR_in_half : ex_in (N:=RNum) (1/2)%R.
Proof. apply (exR_in _ 0); [simpl; lra|lia]. Qed.
Lemma exR_in_52 : ex_in (N:=RNum) (5/2)%R.
Proof. apply (exR_in _ 2); [simpl; lra|lia]. Qed.
Lemma exR_in_32 : ex_in (N:=RNum) (3/2)%R.
Proof. apply (exR_in _ 1); [simpl; lra|lia]. Qed.

Example C09_example_value : exists m b0 b1, load_from_json (N:=RNum) (fun l => l) ex_file = Some (m, b0) /\
  call ex_sph m b0 (ex_y (1/2)%R) = Some b1 /\ rd (b_node_energies b1) 1 = Some 5%R.
Proof.
  apply (C09_isolated_value ex_sph ex_sph_ok (fun l => l) perm_id ex_file ex_file_ok (ex_y (1/2)%R) 1 1); try reflexivity.
  apply ex_y_ok. exact exR_in_half.
Qed.

(** ** C07: reordering every node's neighbours ([sgs]: the new order, one permutation per node) *)
Theorem C07_neighbour_order : forall sph, sph_ok (N:=RNum) sph -> forall srt, (forall l, Permutation l (srt l)) ->
  forall f : mace_file RNum, file_ok f -> forall x sgs, input_ok f x ->
  Forall2 (fun sg n => Permutation sg (seq 0 n)) sgs (i_num_neigh x) ->
  exists m b0 b1 b2, load_from_json srt f = Some (m, b0) /\
    call sph m b0 x = Some b1 /\ call sph m b0 (reorder_input sgs x) = Some b2 /\
    b_node_energies b2 = b_node_energies b1 /\
    b_node_forces b2 = gather3 (b_node_forces b1) (positions 0 sgs (i_num_neigh x)).
Proof. exact lemma_C07. Qed.
Print Assumptions C07_neighbour_order.

(** atom 0 lists its neighbours as 2, 1, 0 instead of 0, 1, 2 *)
Example C07_example : exists m b0 b1 b2, load_from_json (N:=RNum) (fun l => l) ex_file = Some (m, b0) /\
  call ex_sph m b0 (ex_x (1/2)%R (3/2)%R) = Some b1 /\
  call ex_sph m b0 (mkInput (N:=RNum) 3 [0; 1; 1] [3; 1; 1] [1; 1; 2; 0; 0] [1; 1; 1; 0; 0]
    (let w := wts 1 15 in firstn 3 (skipn 6 w) ++ firstn 3 w ++ firstn 3 (skipn 3 w) ++ skipn 9 w) [1/2; 1/2; 3/2; 1/2; 3/2]%R) = Some b2 /\
  b_node_energies b2 = b_node_energies b1 /\
  b_node_forces b2 = gather3 (b_node_forces b1) [2; 0; 1; 3; 4].
Proof.
  apply (C07_neighbour_order ex_sph ex_sph_ok (fun l => l) perm_id ex_file ex_file_ok (ex_x (1/2)%R (3/2)%R) [[2; 0; 1]; [0]; [0]]).
  - apply ex_x_ok; [exact exR_in_half|exact exR_in_32].
  - repeat constructor. cbn [seq]. apply perm_trans with [0; 2; 1]; [apply perm_swap|apply perm_skip; apply perm_swap].
Qed.

(** ** C08: an edge on which every function of the distance vanishes *)
Theorem C08_inert_edge : forall sph, sph_ok (N:=RNum) sph -> forall srt, (forall l, Permutation l (srt l)) ->
  forall f : mace_file RNum, file_ok f -> forall x i j t u idx (vx vy vz r : R), input_ok f x ->
  rd (i_node_types x) i = Some t -> j <= nth i (i_num_neigh x) 0 ->
  u < length (f_atomic_numbers f) -> idx < i_num_nodes x -> in_domain f r -> inert_at f t u r ->
  exists m b0 b1 b2, load_from_json srt f = Some (m, b0) /\
    call sph m b0 x = Some b1 /\ call sph m b0 (insert_edge x i j u idx vx vy vz r) = Some b2 /\
    b_node_energies b2 = b_node_energies b1 /\
    b_node_forces b2 = insert_at (3 * edge_pos (i_num_neigh x) i j) [0%R; 0%R; 0%R] (b_node_forces b1).
Proof. exact lemma_C08. Qed.
Print Assumptions C08_inert_edge.

Lemma ex_zero a b c d : spline_zero (N:=RNum) none [a; b; nzero; nzero] [c; d; nzero; nzero] (5/2)%R.
Proof.
  eexists. split; [reflexivity|]. unfold cs_evaluate_deriv. cbn [cs_h cs_c length].
  change (ntrunc (n:=RNum) _) with (Rtrunc (5/2/1)). rewrite (trunc_cell 1 (5/2) 2) by (simpl; lra). 
  cbn. repeat match goal with |- context [Pos.to_nat ?p] => let n := eval vm_compute in (Pos.to_nat p) in change (Pos.to_nat p) with n end.
  cbn. match goal with |- Ret (?u, ?v) = Ret (?u', ?v') => replace u with u' by lra; replace v with v' by lra; reflexivity end.
Qed.

Lemma ex_inert : inert_at (N:=RNum) ex_file 1 0 (5/2)%R.
Proof.
  split.
  - intros q Hq. cbn in Hq. destruct q as [|[|[|q]]]; cbn in Hq; try discriminate; [|destruct q; discriminate]. clear Hq.
    split; [|split; [|split]].
    + intros p Hp. cbn in Hp. destruct p as [|[|[|[|p]]]]; [| | | |lia]; apply ex_zero.
    + intros p Hp. cbn in Hp. do 10 (destruct p as [|p]; [apply ex_zero|]). lia.
    + intros _. apply ex_zero.
    + intros _. apply ex_zero.
  - intros _ Zt Zu Ht Hu. cbn in Ht, Hu. injection Ht as <-. injection Hu as <-.
    apply (lemma_C26_support _ 2 1 (1/2)%R (1/3)%R (@nofZ RNum 1) (@nofZ RNum 0) (@nofZ RNum 1) (@nofZ RNum (-1))); try reflexivity; try lra. simpl; lia.
Qed.

(** atom 1 gets a second neighbour (atom 0) at distance 5/2, listed first *)
Example C08_example : exists m b0 b1 b2, load_from_json (N:=RNum) (fun l => l) ex_file = Some (m, b0) /\
  call ex_sph m b0 (ex_x (1/2)%R (3/2)%R) = Some b1 /\
  call ex_sph m b0 (mkInput (N:=RNum) 3 [0; 1; 1] [3; 2; 1] [1; 2; 1; 0; 0; 0] [1; 1; 1; 0; 0; 0]
    (firstn 9 (wts 1 15) ++ [2; 0; 3/2]%R ++ skipn 9 (wts 1 15)) [1/2; 3/2; 1/2; 5/2; 1/2; 3/2]%R) = Some b2 /\
  b_node_energies b2 = b_node_energies b1 /\
  b_node_forces b2 = insert_at 9 [0; 0; 0]%R (b_node_forces b1).
Proof.
  apply (C08_inert_edge ex_sph ex_sph_ok (fun l => l) perm_id ex_file ex_file_ok (ex_x (1/2)%R (3/2)%R) 1 0 1 0 0 2 0 (3/2) (5/2));
    try reflexivity; try (cbn; lia).
  - apply ex_x_ok; [exact exR_in_half|exact exR_in_32].
  - apply ex_domain. exact exR_in_52.
  - exact ex_inert.
Qed.

(** ** C10: with the tables listed by unordered species pair (the exporter's order, C10_exporter_order in
    PropertiesExport.v), an edge between species t and u uses the table of the pair {t, u}: first and second radial
    functions with their derivatives, and both density normalisations *)
Theorem C10_first_radial : forall (N : Num) srt, (forall l, Permutation l (srt l)) -> forall f : mace_file N, file_ok f ->
  forall (V D : nat -> nat -> list (list N)) x q i t u r old oldd,
  f_radial_spline_values_0 f = map (fun p => V (fst p) (snd p)) (upairs (length (f_atomic_numbers f))) ->
  f_radial_spline_derivs_0 f = map (fun p => D (fst p) (snd p)) (upairs (length (f_atomic_numbers f))) ->
  input_ok f x -> nth_error (owners (i_num_neigh x)) q = Some i ->
  rd (i_node_types x) i = Some t -> rd (i_neigh_types x) q = Some u -> rd (i_r x) q = Some r ->
  let c := (f_l_max f + 1) * f_num_channels f in
  exists m b0 R0 R0d S Vq Dq, load_from_json srt f = Some (m, b0) /\
    compute_R0 m (i_num_nodes x) (i_node_types x) (i_num_neigh x) (i_neigh_types x) (i_r x) old oldd = Some (R0, R0d) /\
    make_spline_set (f_radial_spline_h f) (V (Nat.min t u) (Nat.max t u)) (D (Nat.min t u) (Nat.max t u)) = Some S /\
    css_evaluate_derivs S r (repeat nzero c) 0 (repeat nzero c) 0 = Some (Vq, Dq) /\
    forall p, p < c -> exists v d, rd R0 (q * c + p) = Some v /\ rd Vq p = Some v /\ rd R0d (q * c + p) = Some d /\ rd Dq p = Some d.
Proof. exact @lemma_C10_R0. Qed.
Print Assumptions C10_first_radial.

Theorem C10_second_radial : forall (N : Num) srt, (forall l, Permutation l (srt l)) -> forall f : mace_file N, file_ok f ->
  forall (V D : nat -> nat -> list (list N)) x q i t u r old oldd,
  f_radial_spline_values_1 f = map (fun p => V (fst p) (snd p)) (upairs (length (f_atomic_numbers f))) ->
  f_radial_spline_derivs_1 f = map (fun p => D (fst p) (snd p)) (upairs (length (f_atomic_numbers f))) ->
  input_ok f x -> nth_error (owners (i_num_neigh x)) q = Some i ->
  rd (i_node_types x) i = Some t -> rd (i_neigh_types x) q = Some u -> rd (i_r x) q = Some r ->
  let c := length (f_Phi1_l f) * f_num_channels f in
  exists m b0 R1 R1d S Vq Dq, load_from_json srt f = Some (m, b0) /\
    compute_R1 m (i_num_nodes x) (i_node_types x) (i_num_neigh x) (i_neigh_types x) (i_r x) old oldd = Some (R1, R1d) /\
    make_spline_set (f_radial_spline_h f) (V (Nat.min t u) (Nat.max t u)) (D (Nat.min t u) (Nat.max t u)) = Some S /\
    css_evaluate_derivs S r (repeat nzero c) 0 (repeat nzero c) 0 = Some (Vq, Dq) /\
    forall p, p < c -> exists v d, rd R1 (q * c + p) = Some v /\ rd Vq p = Some v /\ rd R1d (q * c + p) = Some d /\ rd Dq p = Some d.
Proof. exact @lemma_C10_R1. Qed.
Print Assumptions C10_second_radial.

Theorem C10_first_density : forall (N : Num) srt, (forall l, Permutation l (srt l)) -> forall f : mace_file N, file_ok f ->
  forall (V D : nat -> nat -> list N) x A i p, f_A0_scaled f = true ->
  f_A0_spline_values f = map (fun p => V (fst p) (snd p)) (upairs (length (f_atomic_numbers f))) ->
  f_A0_spline_derivs f = map (fun p => D (fst p) (snd p)) (upairs (length (f_atomic_numbers f))) ->
  input_ok f x ->
  let c := (f_l_max f + 1) * (f_l_max f + 1) * f_num_channels f in
  length A = i_num_nodes x * c -> i < i_num_nodes x -> p < c ->
  exists m b0 B a rho, load_from_json srt f = Some (m, b0) /\
    compute_A0_scaled m (i_num_nodes x) (i_node_types x) (i_num_neigh x) (i_neigh_types x) (i_r x) A = Some B /\
    density_sum (f_A0_spline_h f) V D x i = Some rho /\
    rd A (i * c + p) = Some a /\ rd B (i * c + p) = Some (ndiv a rho).
Proof. exact @lemma_C10_A0. Qed.
Print Assumptions C10_first_density.

Theorem C10_second_density : forall (N : Num) srt, (forall l, Permutation l (srt l)) -> forall f : mace_file N, file_ok f ->
  forall (V D : nat -> nat -> list N) x A i p, f_A1_scaled f = true ->
  f_A1_spline_values f = map (fun p => V (fst p) (snd p)) (upairs (length (f_atomic_numbers f))) ->
  f_A1_spline_derivs f = map (fun p => D (fst p) (snd p)) (upairs (length (f_atomic_numbers f))) ->
  input_ok f x ->
  let c := (f_l_max f + 1) * (f_l_max f + 1) * f_num_channels f in
  length A = i_num_nodes x * c -> i < i_num_nodes x -> p < c ->
  exists m b0 B a rho, load_from_json srt f = Some (m, b0) /\
    compute_A1_scaled m (i_num_nodes x) (i_node_types x) (i_num_neigh x) (i_neigh_types x) (i_r x) A = Some B /\
    density_sum (f_A1_spline_h f) V D x i = Some rho /\
    rd A (i * c + p) = Some a /\ rd B (i * c + p) = Some (ndiv a rho).
Proof. exact @lemma_C10_A1. Qed.
Print Assumptions C10_second_density.

(** edge 3 of [ex_x] goes from species 1 to species 0: table of the pair (0, 1) *)
Example C10_example : exists m b0 R0 R0d S Vq Dq, load_from_json (N:=QNum) (fun l => l) ex_file = Some (m, b0) /\
  compute_R0 m 3 [0; 1; 1] [3; 1; 1] [1; 1; 1; 0; 0] [1#2; 3#2; 1#2; 1#2; 3#2]%Q [] [] = Some (R0, R0d) /\
  make_spline_set (N:=QNum) (1#1)%Q (ex_V 0 0 1) (ex_V 1 0 1) = Some S /\
  css_evaluate_derivs S (1#2)%Q (repeat nzero 4) 0 (repeat nzero 4) 0 = Some (Vq, Dq) /\
  forall p, p < 4 -> exists v d, rd R0 (3 * 4 + p) = Some v /\ rd Vq p = Some v /\ rd R0d (3 * 4 + p) = Some d /\ rd Dq p = Some d.
Proof.
  apply (C10_first_radial QNum (fun l => l) perm_id ex_file ex_file_ok (ex_V 0) (ex_V 1) (ex_x (1#2)%Q (3#2)%Q) 3 1 1 0 (1#2)%Q [] []);
    try reflexivity. apply ex_x_ok; [exact ex_in_half|exact ex_in_32].
Qed.
Example C10_example_second : exists m b0 R1 R1d S Vq Dq, load_from_json (N:=QNum) (fun l => l) ex_file = Some (m, b0) /\
  compute_R1 m 3 [0; 1; 1] [3; 1; 1] [1; 1; 1; 0; 0] [1#2; 3#2; 1#2; 1#2; 3#2]%Q [] [] = Some (R1, R1d) /\
  make_spline_set (N:=QNum) (1#1)%Q (ex_V1 2 0 1) (ex_V1 3 0 1) = Some S /\
  css_evaluate_derivs S (1#2)%Q (repeat nzero 10) 0 (repeat nzero 10) 0 = Some (Vq, Dq) /\
  forall p, p < 10 -> exists v d, rd R1 (3 * 10 + p) = Some v /\ rd Vq p = Some v /\ rd R1d (3 * 10 + p) = Some d /\ rd Dq p = Some d.
Proof.
  apply (C10_second_radial QNum (fun l => l) perm_id ex_file ex_file_ok (ex_V1 2) (ex_V1 3) (ex_x (1#2)%Q (3#2)%Q) 3 1 1 0 (1#2)%Q [] []);
    try reflexivity. apply ex_x_ok; [exact ex_in_half|exact ex_in_32].
Qed.
Example C10_example_density : exists m b0 B a rho, load_from_json (N:=QNum) (fun l => l) ex_file = Some (m, b0) /\
  compute_A0_scaled m 3 [0; 1; 1] [3; 1; 1] [1; 1; 1; 0; 0] [1#2; 3#2; 1#2; 1#2; 3#2]%Q (wts 1 24) = Some B /\
  density_sum (N:=QNum) (1#1)%Q (ex_D 0) (ex_D 1) (ex_x (1#2)%Q (3#2)%Q) 0 = Some rho /\
  rd (wts 1 24) 5 = Some a /\ rd B 5 = Some (ndiv (n:=QNum) a rho).
Proof.
  apply (C10_first_density QNum (fun l => l) perm_id ex_file ex_file_ok (ex_D 0) (ex_D 1) (ex_x (1#2)%Q (3#2)%Q) (wts 1 24) 0 5);
    try reflexivity; try (cbn; lia). apply ex_x_ok; [exact ex_in_half|exact ex_in_32].
Qed.
Example C10_example_density_second : exists m b0 B a rho, load_from_json (N:=QNum) (fun l => l) ex_file = Some (m, b0) /\
  compute_A1_scaled m 3 [0; 1; 1] [3; 1; 1] [1; 1; 1; 0; 0] [1#2; 3#2; 1#2; 1#2; 3#2]%Q (wts 1 24) = Some B /\
  density_sum (N:=QNum) (1#1)%Q (ex_D 2) (ex_D 3) (ex_x (1#2)%Q (3#2)%Q) 1 = Some rho /\
  rd (wts 1 24) 9 = Some a /\ rd B 9 = Some (ndiv (n:=QNum) a rho).
Proof.
  apply (C10_second_density QNum (fun l => l) perm_id ex_file ex_file_ok (ex_D 2) (ex_D 3) (ex_x (1#2)%Q (3#2)%Q) (wts 1 24) 1 1);
    try reflexivity; try (cbn; lia). apply ex_x_ok; [exact ex_in_half|exact ex_in_32].
Qed.
(** the density of atom 0: 1 + 3 edges *)
Example C10_example_density_value :
  density_sum (N:=QNum) (1#1)%Q (ex_D 0) (ex_D 1) (ex_x (1#2)%Q (3#2)%Q) 0 = Some (23#8)%Q.
Proof. vm_compute. reflexivity. Qed.
