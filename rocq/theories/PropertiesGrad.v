(** Property theorems about derivatives of the whole evaluation: C01 (edge forces are minus the gradient of the
    energy) and C35 (axis convention of the angular features).
    Real arithmetic.  Model: MaceModel.v.  Vocabulary: MaceSpec.v, MaceGradSpec.v.  [sph] is the spherical-harmonics
    library: any function filling arrays of the documented sizes and returning the derivatives of its own values.
    [srt] is std::sort up to ties. *)
From Coq Require Import List Arith ZArith Reals Permutation Lia Lra.
From Verif Require Import Base BaseLemmas Instances MaceModel MaceSpec MaceSpec2 MaceGradSpec MaceForces MaceYThms MaceExamples GradExamples.
Import ListNotations.
Local Open Scope R_scope.

(** ** C01: after any history of calls, component [p] of the returned forces is minus the partial derivative of the
    sum of the returned node energies with respect to component [p] of the edge vectors; all calls involved succeed *)
Theorem C01_forces_are_gradient : forall sph, sph_ok (N:=RNum) sph -> sph_gradient sph -> forall srt, (forall l, Permutation l (srt l)) ->
  forall f, file_ok f -> smooth_ok f -> forall hist x xs, Forall (input_ok f) hist -> smooth_at f x xs ->
  exists m b0 bh b1, load_from_json srt f = Some (m, b0) /\ calls sph m b0 hist = Some bh /\
    call sph m bh (with_xyz x xs) = Some b1 /\
    forall p, (p < length xs)%nat -> exists F E del, rd (b_node_forces b1) p = Some F /\ 0 < del /\
      (forall u, Rabs (u - nth p xs 0) < del ->
         exists b, call sph m bh (with_xyz x (upd xs p u)) = Some b /\ E u = total (b_node_energies b)) /\
      derivable_pt_lim E (nth p xs 0) (- F).
Proof. exact forces_lemma. Qed.
Print Assumptions C01_forces_are_gradient.

(** along every differentiable motion of all edge vectors at once, the energy changes at the rate minus
    forces times velocities *)
Theorem C01_motion : forall sph, sph_ok (N:=RNum) sph -> sph_gradient sph -> forall srt, (forall l, Permutation l (srt l)) ->
  forall f, file_ok f -> smooth_ok f -> forall (x : input RNum) (X : R -> list R) (X' : list R) t0,
  (forall t, length (X t) = (3 * list_sum (i_num_neigh x))%nat) -> length X' = (3 * list_sum (i_num_neigh x))%nat ->
  (forall p, (p < 3 * list_sum (i_num_neigh x))%nat -> derivable_pt_lim (fun t => nth p (X t) 0) t0 (nth p X' 0)) ->
  smooth_at f x (X t0) -> forall hist, Forall (input_ok f) hist ->
  exists m b0 bh b1 del E, load_from_json srt f = Some (m, b0) /\ calls sph m b0 hist = Some bh /\
    call sph m bh (with_xyz x (X t0)) = Some b1 /\ 0 < del /\
    (forall t, Rabs (t - t0) < del -> exists b, call sph m bh (with_xyz x (X t)) = Some b /\ E t = total (b_node_energies b)) /\
    derivable_pt_lim E t0 (- dot (b_node_forces b1) X').
Proof. exact motion_lemma. Qed.
Print Assumptions C01_motion.

(** five edges of lengths 1 (a knot of the tables), 3/2, 1, 1/2, 3/2; ZBL and both density normalisations are on *)
Example C01_example : exists m b0 bh b1, load_from_json (fun l => l) ex_file = Some (m, b0) /\
  calls ex_sph m b0 [with_xyz ex_xi ex_xs] = Some bh /\ call ex_sph m bh (with_xyz ex_xi ex_xs) = Some b1 /\
    forall p, (p < 15)%nat -> exists F E del, rd (b_node_forces b1) p = Some F /\ 0 < del /\
      (forall u, Rabs (u - nth p ex_xs 0) < del ->
         exists b, call ex_sph m bh (with_xyz ex_xi (upd ex_xs p u)) = Some b /\ E u = total (b_node_energies b)) /\
      derivable_pt_lim E (nth p ex_xs 0) (- F).
Proof.
  apply (C01_forces_are_gradient ex_sph ex_sph_ok ex_sph_gradient (fun l => l) (fun l => Permutation_refl l) ex_file ex_file_ok ex_smooth).
  - apply Forall_cons; [exact ex_with_ok|apply Forall_nil].
  - exact ex_smooth_at.
Qed.
(** all five vectors stretched at unit rate *)
Example C01_example_motion : exists m b0 bh b1 del E, load_from_json (fun l => l) ex_file = Some (m, b0) /\
  calls ex_sph m b0 [] = Some bh /\ call ex_sph m bh (with_xyz ex_xi (map (Rmult 1) ex_xs)) = Some b1 /\ 0 < del /\
    (forall t, Rabs (t - 1) < del -> exists b, call ex_sph m bh (with_xyz ex_xi (map (Rmult t) ex_xs)) = Some b /\ E t = total (b_node_energies b)) /\
    derivable_pt_lim E 1 (- dot (b_node_forces b1) ex_xs).
Proof.
  apply (C01_motion ex_sph ex_sph_ok ex_sph_gradient (fun l => l) (fun l => Permutation_refl l) ex_file ex_file_ok ex_smooth
    ex_xi (fun t => map (Rmult t) ex_xs) ex_xs 1).
  - intros t. rewrite map_length. reflexivity.
  - reflexivity.
  - intros p _. assert (E : forall t, nth p (map (Rmult t) ex_xs) 0 = t * nth p ex_xs 0).
    { intros t. replace 0 with (t * 0) at 1 by ring. apply map_nth. }
    apply (RSums.dlim_ext (fun t => t * nth p ex_xs 0)); [intros; symmetry; apply E|].
    eapply RSums.dlim_eq; [|apply (RSums.dlim_mult (fun t => t) (fun _ => nth p ex_xs 0)); [apply RSums.dlim_id|apply RSums.dlim_const]]. ring.
  - replace (map (Rmult 1) ex_xs) with ex_xs; [exact ex_smooth_at|].
    transitivity (map (fun r => r) ex_xs); [symmetry; apply map_id|apply map_ext; intros; ring].
  - apply Forall_nil.
Qed.

(** ** C35: values are 2 sqrt(pi) times the harmonics of (z,x,y); the gradient blocks come in the order x, y, z *)
Theorem C35_values : forall (N : Num) sph, sph_ok sph -> forall (m : mace_model N) n xyz Y0 Yg0 xs0, length xyz = (3 * n)%nat ->
  exists Y Yg xs, compute_Y sph m xyz Y0 Yg0 xs0 = Some (Y, Yg, xs) /\
  let L := ((m_l_max m + 1) * (m_l_max m + 1))%nat in
  forall q, (q < n)%nat -> exists x y z, rd xyz (3 * q) = Some x /\ rd xyz (3 * q + 1) = Some y /\ rd xyz (3 * q + 2) = Some z /\
  forall lm, (lm < L)%nat ->
    rd Y (q * L + lm) = Some (nmul (nth lm (fst (sph (m_l_max m) z x y)) nzero) (nmul (nofZ 2) (nsqrt npi))) /\
    forall a, (a < 3)%nat -> rd Yg (3 * q * L + a * L + lm) =
      Some (nmul (nth (nth a [1; 2; 0]%nat 0%nat * L + lm)%nat (snd (sph (m_l_max m) z x y)) nzero) (nmul (nofZ 2) (nsqrt npi))).
Proof. exact @Y_lemma. Qed.
Print Assumptions C35_values.

(** entry (q, a, lm) of Y_grad is the derivative of entry (q, lm) of Y with respect to component [a] of vector [q] *)
Theorem C35_gradient : forall sph, sph_ok (N:=RNum) sph -> sph_gradient sph -> forall (m : mace_model RNum) n (xyz : list R) Y0 Yg0 xs0,
  length xyz = (3 * n)%nat -> exists Y Yg xs, compute_Y sph m xyz Y0 Yg0 xs0 = Some (Y, Yg, xs) /\
  forall q a lm, (q < n)%nat -> (a < 3)%nat -> (lm < (m_l_max m + 1) * (m_l_max m + 1))%nat -> norm2 xyz q <> 0 ->
  exists G E, rd Yg (3 * q * ((m_l_max m + 1) * (m_l_max m + 1)) + a * ((m_l_max m + 1) * (m_l_max m + 1)) + lm) = Some G /\
    (forall u, exists Y' Yg' xs', compute_Y sph m (upd xyz (3 * q + a) u) Y0 Yg0 xs0 = Some (Y', Yg', xs') /\
       rd Y' (q * ((m_l_max m + 1) * (m_l_max m + 1)) + lm) = Some (E u)) /\
    derivable_pt_lim E (nth (3 * q + a) xyz 0) G.
Proof. exact Y_grad_lemma. Qed.
Print Assumptions C35_gradient.

Example C35_example : exists m b0 Y Yg xs G E, load_from_json (N:=RNum) (fun l => l) ex_file = Some (m, b0) /\
  compute_Y ex_sph m ex_xs [] [7] [] = Some (Y, Yg, xs) /\ rd Yg (3 * 1 * 4 + 2 * 4 + 3) = Some G /\
  (forall u, exists Y' Yg' xs', compute_Y ex_sph m (upd ex_xs (3 * 1 + 2) u) [] [7] [] = Some (Y', Yg', xs') /\ rd Y' (1 * 4 + 3) = Some (E u)) /\
  derivable_pt_lim E (nth (3 * 1 + 2) ex_xs 0) G.
Proof.
  destruct (C01_forces_are_gradient ex_sph ex_sph_ok ex_sph_gradient (fun l => l) (fun l => Permutation_refl l) ex_file ex_file_ok ex_smooth
    [] ex_xi ex_xs (Forall_nil _) ex_smooth_at) as (m & b0 & _ & _ & El & _).
  assert (Lm : m_l_max m = 1%nat).
  { clear -El. unfold load_from_json in El. repeat (match type of El with (_ <- ?e ;; _) = _ => destruct e; [cbn [bind] in El|discriminate El] end).
    all: repeat match type of El with context [let '(_, _) := ?p in _] => destruct p end. injection El as <- _. reflexivity. }
  destruct (C35_gradient ex_sph ex_sph_ok ex_sph_gradient m 5 ex_xs [] [7] [] eq_refl) as (Y & Yg & xs & EY & H).
  destruct (H 1%nat 2%nat 3%nat ltac:(lia) ltac:(lia) ltac:(rewrite Lm; lia) (sa_pos _ _ _ ex_smooth_at 1%nat ltac:(cbn; lia))) as (G & E & H1 & H2 & H3).
  rewrite Lm in H1, H2. exists m, b0, Y, Yg, xs, G, E. split; [exact El|]. split; [exact EY|]. split; [exact H1|]. split; [exact H2|exact H3].
Qed.
