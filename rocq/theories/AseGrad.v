(** Real-number lemmas for the ASE calculator: forces are minus the gradient with respect to positions, momentum
    conservation, stress as strain derivative. *)
From Coq Require Import List Arith ZArith Reals Lia Lra Sorted Permutation.
From Verif Require Import Base BaseLemmas Instances RSums GradSums MlpR MaceModel MacePure MaceSpec MaceSpec2 MacePipe MaceLoad MaceThms
  MaceGradSpec MaceForces AseModel AseSpec AseThms.
Import ListNotations.
Local Open Scope R_scope.

(** ** sums over pairs *)
Definition ind (a b : nat) : R := if (a =? b)%nat then 1 else 0.

Lemma fold_nadd (l : list R) : forall s : R, @eq R (fold_left (nadd (n:=RNum)) l s) (s + total l).
Proof.
  induction l as [|a l IH]; intros s; [symmetry; apply Rplus_0_r|]. cbn [fold_left]. change (@eq R (fold_left (nadd (n:=RNum)) l (s + a)) (s + (a + total l))). rewrite IH. ring.
Qed.

Lemma pick_R l (w : nat -> R) q a : @eq R (pick (N:=RNum) l w q a) (rsum q (fun p => w p * ind (nth p l 0%nat) a)).
Proof.
  unfold pick. induction q as [|q IH]; [apply RNum_zero|]. rewrite seq_S, fold_left_app, IH. cbn [fold_left Nat.add rsum].
  unfold ind. destruct (nth q l 0%nat =? a)%nat; [change (rsum q (fun p => w p * (if (nth p l 0 =? a)%nat then 1 else 0)) + w q =
     rsum q (fun p => w p * (if (nth p l 0 =? a)%nat then 1 else 0)) + w q * 1)|]; ring.
Qed.

Lemma ind_sum n k : (k < n)%nat -> rsum n (fun a => ind k a) = 1.
Proof.
  intros H. rewrite (rsum_single n k); auto; unfold ind; [rewrite Nat.eqb_refl; reflexivity|].
  intros i _ Hi. destruct (Nat.eqb_spec k i); [congruence|reflexivity].
Qed.
Lemma pick_total l (w : nat -> R) n : (forall a, In a l -> (a < n)%nat) ->
  rsum n (fun a => pick (N:=RNum) l w (length l) a) = rsum (length l) w.
Proof.
  intros H. rewrite (rsum_ext n _ (fun a => rsum (length l) (fun p => w p * ind (nth p l 0%nat) a))) by (intros; apply pick_R).
  rewrite rsum_swap. apply rsum_ext. intros p Hp. rewrite rsum_scal_l, ind_sum by (apply H; apply nth_In; auto). ring.
Qed.

(** dot product with the derivative of [pos_j - pos_i] with respect to coordinate [c] of atom [a] *)
Lemma dot_scatter (G : list R) n (I J : nat -> nat) a c : length G = (3 * n)%nat -> (c < 3)%nat ->
  dot G (tab (3 * n) (fun k => ind (3 * J (k / 3)%nat + k mod 3) (3 * a + c) - ind (3 * I (k / 3)%nat + k mod 3) (3 * a + c)))
  = rsum n (fun q => nth (3 * q + c) G 0 * (ind (J q) a - ind (I q) a)).
Proof.
  intros HG Hc. rewrite dot_wsum by (rewrite length_tab; exact HG). unfold wsum. rewrite HG.
  replace (3 * n)%nat with (n * 3)%nat by lia. rewrite rsum_prod. apply rsum_ext. intros q Hq.
  assert (E : forall b, (b < 3)%nat -> nth (0 + (q * 3 + b)) (tab (n * 3) (fun k => ind (3 * J (k / 3)%nat + k mod 3) (3 * a + c) - ind (3 * I (k / 3)%nat + k mod 3) (3 * a + c))) 0
    = ind b c * (ind (J q) a - ind (I q) a)).
  { intros b Hb. cbn [Nat.add]. rewrite nth_tab by nia. replace ((q * 3 + b) / 3)%nat with q by (rewrite Nat.add_comm, Nat.div_add, Nat.div_small by lia; lia).
    replace ((q * 3 + b) mod 3)%nat with b by (rewrite Nat.add_comm, Nat.mod_add, Nat.mod_small by lia; lia).
    assert (D : forall k, ind (3 * k + b) (3 * a + c) = ind b c * ind k a).
    { intros k. unfold ind. destruct (Nat.eqb_spec (3 * k + b) (3 * a + c)), (Nat.eqb_spec b c), (Nat.eqb_spec k a); try ring; exfalso; lia. }
    rewrite !D. ring. }
  rewrite (rsum_single 3 c); [|exact Hc|].
  - rewrite E by exact Hc. unfold ind at 1. rewrite Nat.eqb_refl. replace (q * 3 + c)%nat with (3 * q + c)%nat by lia. ring.
  - intros b Hb Hbc. rewrite E by exact Hb. unfold ind at 1. destruct (Nat.eqb_spec b c); [congruence|]. ring.
Qed.

(** dot product with a strained configuration *)
Lemma dot_strain (G xs : list R) n (e : nat -> nat -> R) : length G = (3 * n)%nat ->
  dot G (tab (3 * n) (fun k => rsum 3 (fun c => e (k mod 3)%nat c * nth (3 * (k / 3) + c) xs 0)))
  = rsum 3 (fun a => rsum 3 (fun c => e a c * rsum n (fun q => nth (3 * q + a) G 0 * nth (3 * q + c) xs 0))).
Proof.
  intros HG. rewrite dot_wsum by (rewrite length_tab; exact HG). unfold wsum. rewrite HG.
  replace (3 * n)%nat with (n * 3)%nat by lia. rewrite rsum_prod.
  rewrite (rsum_ext n _ (fun q => rsum 3 (fun a => rsum 3 (fun c => e a c * (nth (3 * q + a) G 0 * nth (3 * q + c) xs 0))))).
  - rewrite rsum_swap. apply rsum_ext. intros a _. rewrite rsum_swap. apply rsum_ext. intros c _. apply rsum_scal_l.
  - intros q Hq. apply rsum_ext. intros b Hb. cbn [Nat.add]. rewrite nth_tab by nia.
    replace ((q * 3 + b) / 3)%nat with q by (rewrite Nat.add_comm, Nat.div_add, Nat.div_small by lia; lia).
    replace ((q * 3 + b) mod 3)%nat with b by (rewrite Nat.add_comm, Nat.mod_add, Nat.mod_small by lia; lia).
    replace (q * 3 + b)%nat with (3 * q + b)%nat by lia. rewrite <- rsum_scal_l. apply rsum_ext. intros c _. ring.
Qed.

(** ** edge vectors *)
Lemma length_vectors il jl pos sh : length (nl_vectors il jl pos sh) = (3 * length il)%nat.
Proof. unfold nl_vectors. rewrite length_flat_map_const with (c := 3%nat) by reflexivity. rewrite seq_length. lia. Qed.
Lemma nth_vectors il jl pos sh q c : (q < length il)%nat -> (c < 3)%nat ->
  nth (3 * q + c) (nl_vectors il jl pos sh) 0 = nth (3 * nth q jl 0%nat + c) pos 0 - nth (3 * nth q il 0%nat + c) pos 0 + nth (3 * q + c) sh 0.
Proof.
  intros Hq Hc. apply nth_error_nth. unfold nl_vectors. replace (3 * q + c)%nat with (q * 3 + c)%nat by lia.
  rewrite nth_error_flat_map_const with (x := q) (c := 3%nat); [|reflexivity| |exact Hc].
  - replace (q * 3 + c)%nat with (3 * q + c)%nat by lia. destruct c as [|[|[|c]]]; [reflexivity..|lia].
  - rewrite (nth_error_nth' _ 0%nat) by (rewrite seq_length; exact Hq). rewrite seq_nth by exact Hq. reflexivity.
Qed.

(** displacing one coordinate *)
Lemma vectors_d il jl pos sh p k : (k < 3 * length il)%nat -> (p < length pos)%nat ->
  derivable_pt_lim (fun u => nth k (nl_vectors il jl (upd pos p u) sh) 0) (nth p pos 0)
    (ind (3 * nth (k / 3) jl 0%nat + k mod 3) p - ind (3 * nth (k / 3) il 0%nat + k mod 3) p).
Proof.
  intros Hk Hp. assert (Hq : (k / 3 < length il)%nat) by (apply Nat.div_lt_upper_bound; lia). assert (Hc : (k mod 3 < 3)%nat) by (apply Nat.mod_upper_bound; lia).
  assert (Ek : k = (3 * (k / 3) + k mod 3)%nat) by (apply Nat.div_mod; lia).
  apply dlim_ext with (f := fun u => nth (3 * nth (k / 3) jl 0%nat + k mod 3) (upd pos p u) 0 - nth (3 * nth (k / 3) il 0%nat + k mod 3) (upd pos p u) 0
     + nth (3 * (k / 3) + k mod 3) sh 0).
  { intros u. rewrite <- nth_vectors by auto. f_equal. lia. }
  assert (D : forall r, derivable_pt_lim (fun u => nth r (upd pos p u) 0) (nth p pos 0) (ind r p)).
  { intros r. unfold ind. apply dlim_ext with (f := fun u => if (r =? p)%nat then u else nth r pos 0).
    - intros u. rewrite nth_upd by exact Hp. rewrite Nat.eqb_sym. reflexivity.
    - destruct (r =? p)%nat; [apply dlim_id|apply dlim_const]. }
  eapply dlim_eq; [|apply dlim_plus; [apply dlim_minus; apply D|apply dlim_const]]. ring.
Qed.

(** ** momentum: for every successful call of [calculate], whatever the model, the buffers and the neighbour list *)
Lemma np_sub_len (a b : list R) r : np_sub (N:=RNum) a b = Some r -> length a = length b /\ length r = length a /\
  forall i, nth i r 0 = nth i a 0 - nth i b 0.
Proof.
  unfold np_sub. change (carrier RNum) with R. destruct (Nat.eqb_spec (length a) (length b)) as [E|]; [|discriminate]. intros H. injection H as <-. split; [exact E|].
  split; [rewrite map_length, combine_length; lia|]. revert b E. induction a as [|p a IH]; intros [|q b] E i; try discriminate; destruct i; cbn; try reflexivity; try ring.
  apply IH. simpl in E. lia.
Qed.
Lemma scatter_total il jl (w f : list R) n : (s <- bincount_w (N:=RNum) jl w n ;; t <- bincount_w (N:=RNum) il w n ;; np_sub s t) = Some f ->
  length f = n -> rsum n (fun a => nth a f 0) = 0.
Proof.
  destruct (Nat.eq_dec (length jl) (length w)) as [Ej|Ej].
  2:{ unfold bincount_w at 1. change (carrier RNum) with R. destruct (Nat.eqb_spec (length jl) (length w)); [contradiction|discriminate]. }
  destruct (Nat.eq_dec (length il) (length w)) as [Ei|Ei].
  2:{ rewrite bincount_w_gen by exact Ej. cbn [bind]. unfold bincount_w at 1. change (carrier RNum) with R. destruct (Nat.eqb_spec (length il) (length w)); [contradiction|discriminate]. }
  rewrite !bincount_w_gen by assumption. cbn [bind]. intros H Hn. apply np_sub_len in H. rewrite !length_tab in H. destruct H as (E1 & E2 & H).
  assert (Hj : bc_len jl n = n) by (etransitivity; [symmetry; exact E2|exact Hn]). assert (Hi : bc_len il n = n) by congruence. clear E1 E2.
  rewrite (rsum_ext n _ (fun a => pick (N:=RNum) jl (fun p => nth p w 0) (length jl) a - pick (N:=RNum) il (fun p => nth p w 0) (length il) a)).
  - rewrite rsum_minus, !pick_total.
    + rewrite Ej, Ei. ring.
    + intros a Ha. pose proof (bc_len_in il n a Ha) as L. rewrite Hi in L. exact L.
    + intros a Ha. pose proof (bc_len_in jl n a Ha) as L. rewrite Hj in L. exact L.
  - intros a Ha. rewrite H, Hi, Hj. rewrite !RNum_zero. change (carrier RNum) with R. rewrite !nth_tab by exact Ha. reflexivity.
Qed.

Lemma nth_triples (f0 f1 f2 : list R) n a c : (a < n)%nat -> (c < 3)%nat ->
  nth (3 * a + c) (flat_map (fun i => [nth i f0 0; nth i f1 0; nth i f2 0]) (seq 0 n)) 0 = nth a (nth c [f0; f1; f2] []) 0.
Proof.
  intros Ha Hc. apply nth_error_nth. replace (3 * a + c)%nat with (a * 3 + c)%nat by lia.
  rewrite nth_error_flat_map_const with (x := a) (c := 3%nat); [|reflexivity| |exact Hc].
  - destruct c as [|[|[|c]]]; [reflexivity..|lia].
  - rewrite (nth_error_nth' _ 0%nat) by (rewrite seq_length; exact Ha). rewrite seq_nth by exact Ha. reflexivity.
Qed.

Lemma momentum sph (m : mace_model RNum) b numbers V il jl r xyz b' res : calculate sph m b numbers V il jl r xyz = Some (b', res) ->
  length (res_forces res) = (3 * length numbers)%nat /\
  forall c, (c < 3)%nat -> total (map (fun a => nth (3 * a + c) (res_forces res) 0) (seq 0 (length numbers))) = 0.
Proof.
  unfold calculate. intros H.
  destruct (np_max il) as [mx|]; [cbn [bind] in H|discriminate H].
  destruct (py_map _ (seq 0 (mx + 1))) as [nt|]; [cbn [bind] in H|discriminate H].
  destruct (py_map _ jl) as [jt|]; [cbn [bind] in H|discriminate H].
  destruct (compute_node_energies_forces _ _ _ _ _ _ _ _ _ _) as [b1|]; [cbn [bind] in H|discriminate H].
  destruct (negb _) in H; [discriminate H|]. set (P := firstn (3 * length il) (b_node_forces b1)) in *.
  match type of H with (f0 <- ?e ;; _) = _ => destruct e as [f0|] eqn:E0 end; [cbn [bind] in H|discriminate H].
  match type of H with (f0 <- ?e ;; _) = _ => destruct e as [f1|] eqn:E1 end; [cbn [bind] in H|discriminate H].
  match type of H with (f0 <- ?e ;; _) = _ => destruct e as [f2|] eqn:E2 end; [cbn [bind] in H|discriminate H].
  destruct (Nat.eqb_spec (length f0) (length numbers)) as [L0|]; [|discriminate H].
  destruct (Nat.eqb_spec (length f1) (length numbers)) as [L1|]; [|discriminate H].
  destruct (Nat.eqb_spec (length f2) (length numbers)) as [L2|]; [|discriminate H]. cbn [andb negb] in H.
  destruct (negb _) in H; [discriminate H|]. destruct V as [v|]; [cbn [bind] in H|discriminate H]. injection H as <- <-. cbn [res_forces]. split.
  - rewrite length_flat_map_const with (c := 3%nat) by reflexivity. rewrite seq_length. lia.
  - intros c Hc. etransitivity; [apply total_tab|].
    etransitivity; [apply rsum_ext; intros a Ha; apply (nth_triples f0 f1 f2 (length numbers) a c Ha Hc)|].
    destruct c as [|[|[|c]]]; [| | |lia]; cbn [nth]; eapply scatter_total; eassumption.
Qed.

Section Ase.
Variable sph : nat -> RNum -> RNum -> RNum -> list RNum * list RNum.
Hypothesis Hsph : sph_ok sph.
Hypothesis Hgr : sph_gradient sph.
Variable srt : list (list (list nat)) -> list (list (list nat)).
Hypothesis Hsrt : forall l, Permutation l (srt l).
Variable f : mace_file RNum.
Hypothesis F : file_ok f.
Hypothesis SF : smooth_ok f.
Variables numbers types il jl : list nat.
Hypothesis SM : species_map (f_atomic_numbers f) numbers types.
Hypothesis NL : nl_ok (length numbers) il jl.
Hypothesis Hne : il <> [].
Notation n := (S (list_max il)).
Notation x := (nl_input (N:=RNum) n types il jl [] []).

Lemma sum_nn : list_sum (map (count_occ Nat.eq_dec il) (seq 0 n)) = length il.
Proof.
  etransitivity; [|exact (f_equal (@length nat) (owners_il numbers il jl NL))]. unfold owners. rewrite map_length, seq_length.
  rewrite (flat_map_ext_in _ (fun i => repeat i (count_occ Nat.eq_dec il i))).
  2:{ intros i Hi. apply in_seq in Hi. f_equal. apply (nth_tab n (count_occ Nat.eq_dec il) i 0%nat). lia. }
  induction (seq 0 n) as [|a s IH]; [reflexivity|]. cbn [map flat_map]. rewrite app_length, repeat_length, <- IH. reflexivity.
Qed.
Lemma with_nl xs : length xs = (3 * length il)%nat -> with_xyz x xs = nl_input (N:=RNum) n types il jl (lengths3 xs) xs.
Proof.
  intros H. unfold with_xyz, nl_input. cbn [i_num_nodes i_node_types i_num_neigh i_neigh_indices i_neigh_types]. f_equal.
  rewrite sum_nn. unfold lengths3. rewrite H. replace (3 * length il / 3)%nat with (length il) by (rewrite Nat.mul_comm, Nat.div_mul; lia). reflexivity.
Qed.

Lemma ase_motion hist V (X : R -> list R) X' t0 : Forall (input_ok f) hist ->
  (forall t, length (X t) = (3 * length il)%nat) -> length X' = (3 * length il)%nat ->
  (forall p, (p < 3 * length il)%nat -> derivable_pt_lim (fun t => nth p (X t) 0) t0 (nth p X' 0)) ->
  smooth_at f x (X t0) ->
  exists b0 bh b1 del E, load_from_json srt f = Some (ldm f, b0) /\ calls sph (ldm f) b0 hist = Some bh /\ 0 < del /\
    length (b_node_forces b1) = (3 * length il)%nat /\
    (let G := b_node_forces b1 in
     calculate sph (ldm f) bh numbers (Some V) il jl (lengths3 (X t0)) (X t0) = Some (b1, mkRes
      (fold_left nadd (b_node_energies b1) nzero) (b_node_energies b1)
      (flat_map (fun a => [nsub (pair_sum il G jl a 0) (pair_sum il G il a 0); nsub (pair_sum il G jl a 1) (pair_sum il G il a 1);
                         nsub (pair_sum il G jl a 2) (pair_sum il G il a 2)]) (seq 0 (length numbers)))
      (let s := stress_sum il G (X t0) V in [s 0%nat 0%nat; s 1%nat 1%nat; s 2%nat 2%nat; ndiv (nadd (s 1%nat 2%nat) (s 2%nat 1%nat)) (nofZ 2); ndiv (nadd (s 0%nat 2%nat) (s 2%nat 0%nat)) (nofZ 2);
         ndiv (nadd (s 0%nat 1%nat) (s 1%nat 0%nat)) (nofZ 2)]))) /\
    (forall t, Rabs (t - t0) < del -> exists b r', calculate sph (ldm f) bh numbers (Some V) il jl (lengths3 (X t)) (X t) = Some (b, r') /\
       E t = res_energy r') /\
    derivable_pt_lim E t0 (- dot (b_node_forces b1) X').
Proof.
  intros Hh HL HL' HD SA. pose proof sum_nn as SN.
  assert (SN' : list_sum (i_num_neigh x) = length il) by exact SN.
  destruct (load_ok srt Hsrt f F) as (b0 & E0 & L0).
  destruct (calls_ok sph Hsph srt f F b0 hist L0 Hh) as (bh & Eh & Lh).
  destruct (motion_lemma sph Hsph Hgr srt Hsrt f F SF x X X' t0) with (hist := hist) as (m & b0' & bh' & b1 & del & E & G1 & G2 & G3 & G4 & G5 & G6); auto.
  { intros t. rewrite SN'. apply HL. } { rewrite SN'. exact HL'. } { rewrite SN'. exact HD. }
  rewrite E0 in G1. injection G1 as <- <-. rewrite Eh in G2. injection G2 as <-.
  destruct (local_ok f SF x X X' t0) as (del2 & Hd2 & Ho); auto.
  { intros t. rewrite SN'. apply HL. } { rewrite SN'. exact HL'. } { rewrite SN'. exact HD. }
  assert (C : forall t, Rabs (t - t0) < del2 -> input_ok f (nl_input (N:=RNum) n types il jl (lengths3 (X t)) (X t))).
  { intros t Ht. rewrite <- with_nl by apply HL. apply Ho. exact Ht. }
  assert (C0 : input_ok f (nl_input (N:=RNum) n types il jl (lengths3 (X t0)) (X t0))).
  { apply C. rewrite Rminus_diag_eq, Rabs_R0 by reflexivity. exact Hd2. }
  destruct (calc_ok sph Hsph srt f F numbers types il jl SM NL Hne bh V _ _ Lh C0) as (b & B1 & _ & _ & B2 & B3).
  rewrite <- with_nl in B1 by apply HL. rewrite G3 in B1. injection B1 as <-.
  exists b0, bh, b1, (Rmin del del2), E. split; [exact E0|]. split; [exact Eh|]. split; [apply Rmin_case; auto|]. split; [exact B2|]. split; [exact B3|]. split; [|exact G6].
  intros t Ht. assert (H1 : Rabs (t - t0) < del) by (eapply Rlt_le_trans; [exact Ht|apply Rmin_l]).
  assert (H2 : Rabs (t - t0) < del2) by (eapply Rlt_le_trans; [exact Ht|apply Rmin_r]).
  destruct (calc_ok sph Hsph srt f F numbers types il jl SM NL Hne bh V _ _ Lh (C t H2)) as (b & B4 & _ & _ & _ & B5).
  destruct (G5 t H1) as (b' & B6 & B7). rewrite with_nl, B4 in B6 by apply HL. injection B6 as <-.
  eexists b, _. split; [exact B5|]. cbn [res_energy]. rewrite B7. symmetry. etransitivity; [apply fold_nadd|]. rewrite RNum_zero. apply Rplus_0_l.
Qed.

Lemma ase_forces hist V pos sh : Forall (input_ok f) hist -> length pos = (3 * length numbers)%nat ->
  smooth_at f x (nl_vectors il jl pos sh) ->
  exists m b0 bh b1 res, load_from_json srt f = Some (m, b0) /\ calls sph m b0 hist = Some bh /\
    calculate sph m bh numbers (Some V) il jl (lengths3 (nl_vectors il jl pos sh)) (nl_vectors il jl pos sh) = Some (b1, res) /\
    forall p, (p < length pos)%nat -> exists Fp E del, rd (res_forces res) p = Some Fp /\ 0 < del /\
      (forall u, Rabs (u - nth p pos 0) < del -> let D := nl_vectors il jl (upd pos p u) sh in
         exists b res', calculate sph m bh numbers (Some V) il jl (lengths3 D) D = Some (b, res') /\ E u = res_energy res') /\
      derivable_pt_lim E (nth p pos 0) (- Fp).
Proof.
  intros Hh Hpos SA. set (D0 := nl_vectors il jl pos sh) in *.
  assert (L0 : length D0 = (3 * length il)%nat) by apply length_vectors.
  destruct (ase_motion hist V (fun _ => D0) (tab (3 * length il) (fun _ => 0)) 0 Hh) as (b0 & bh & b1 & _ & _ & A1 & A2 & _ & A4 & A5 & _).
  { intros; exact L0. } { apply length_tab. } { intros p Hp. rewrite nth_tab by exact Hp. apply dlim_const. } { exact SA. }
  cbv zeta in A5. eexists (ldm f), b0, bh, b1, _. split; [exact A1|]. split; [exact A2|]. split; [exact A5|].
  intros p Hp. rewrite Hpos in Hp. set (a := (p / 3)%nat). set (c := (p mod 3)%nat).
  assert (Ha : (a < length numbers)%nat) by (apply Nat.div_lt_upper_bound; lia). assert (Hc : (c < 3)%nat) by (apply Nat.mod_upper_bound; lia).
  assert (Ep : p = (3 * a + c)%nat) by (apply Nat.div_mod; lia).
  destruct (ase_motion hist V (fun u => nl_vectors il jl (upd pos p u) sh)
    (tab (3 * length il) (fun k => ind (3 * nth (k / 3) jl 0%nat + k mod 3) (3 * a + c) - ind (3 * nth (k / 3) il 0%nat + k mod 3) (3 * a + c))) (nth p pos 0) Hh)
    as (b0' & bh' & b1' & del & E & B1 & B2 & B3 & B4 & B5 & B6 & B7).
  { intros; apply length_vectors. } { apply length_tab. }
  { intros k Hk. rewrite nth_tab by exact Hk. rewrite <- Ep. apply vectors_d; [exact Hk|lia]. } { rewrite upd_same. exact SA. }
  rewrite A1 in B1. injection B1 as <-. rewrite A2 in B2. injection B2 as <-. rewrite upd_same in B5. cbv zeta in B5. fold D0 in B5.
  rewrite A5 in B5. injection B5 as <- _ _ _.
  exists (pair_sum (N:=RNum) il (b_node_forces b1) jl a c - pair_sum (N:=RNum) il (b_node_forces b1) il a c), E, del.
  split; [|split; [exact B3|split; [exact B6|]]].
  - cbn [res_forces]. unfold rd. rewrite Ep. replace (3 * a + c)%nat with (a * 3 + c)%nat by lia.
    rewrite nth_error_flat_map_const with (x := a) (c := 3%nat); [|reflexivity| |exact Hc].
    + destruct c as [|[|[|c]]]; [reflexivity..|lia].
    + rewrite (nth_error_nth' _ 0%nat) by (rewrite seq_length; exact Ha). rewrite seq_nth by exact Ha. reflexivity.
  - eapply dlim_eq; [|exact B7]. f_equal.
    rewrite (dot_scatter _ (length il) (fun q => nth q il 0%nat) (fun q => nth q jl 0%nat)) by auto.
    unfold pair_sum. rewrite !pick_R, RNum_zero, <- rsum_minus. apply rsum_ext. intros q _. apply Rmult_minus_distr_l.
Qed.

(** strained vectors: vector [v] becomes [v + t e v] *)
Lemma ase_strain hist V (e : nat -> nat -> R) D0 : Forall (input_ok f) hist -> V <> 0 -> (forall a c, e a c = e c a) ->
  length D0 = (3 * length il)%nat -> smooth_at f x D0 ->
  exists m b0 bh b1 res E del, load_from_json srt f = Some (m, b0) /\ calls sph m b0 hist = Some bh /\
    calculate sph m bh numbers (Some V) il jl (lengths3 D0) D0 = Some (b1, res) /\ 0 < del /\
    (forall t, Rabs t < del -> let D := strain e t D0 in
       exists b res', calculate sph m bh numbers (Some V) il jl (lengths3 D) D = Some (b, res') /\ E t = res_energy res') /\
    exists xx yy zz yz xz xy, res_stress res = [xx; yy; zz; yz; xz; xy] /\
    derivable_pt_lim E 0 (V * (xx * e 0%nat 0%nat + yy * e 1%nat 1%nat + zz * e 2%nat 2%nat
                               + 2 * (yz * e 1%nat 2%nat) + 2 * (xz * e 0%nat 2%nat) + 2 * (xy * e 0%nat 1%nat))).
Proof.
  intros Hh HV He L0 SA.
  assert (S0 : strain e 0 D0 = D0).
  { apply (list_eq_nth _ _ 0); [unfold strain; rewrite map_length, seq_length; reflexivity|]. intros k Hk.
    unfold strain in *. rewrite map_length, seq_length in Hk. etransitivity; [apply (nth_tab (length D0)); exact Hk|]. ring. }
  destruct (ase_motion hist V (fun t => strain e t D0) (tab (3 * length il) (fun k => rsum 3 (fun c => e (k mod 3)%nat c * nth (3 * (k / 3) + c) D0 0))) 0 Hh)
    as (b0' & bh' & b1' & del & E & B1 & B2 & B3 & B4 & B5 & B6 & B7).
  { intros t. unfold strain. rewrite map_length, seq_length. exact L0. } { apply length_tab. }
  { intros k Hk. rewrite nth_tab by exact Hk.
    apply dlim_ext with (f := fun t => nth k D0 0 + t * rsum 3 (fun c => e (k mod 3)%nat c * nth (3 * (k / 3) + c) D0 0)).
    - intros t. symmetry. unfold strain. etransitivity; [apply (nth_tab (length D0)); lia|]. cbn [rsum]. rewrite Nat.add_0_r. ring.
    - eapply dlim_eq; [|apply dlim_plus; [apply dlim_const|apply dlim_mult; [apply dlim_id|apply dlim_const]]]. cbv beta. ring. }
  { rewrite S0. exact SA. }
  rewrite S0 in B5. cbv zeta in B5. eexists (ldm f), b0', bh', b1', _, E, del. split; [exact B1|]. split; [exact B2|]. split; [exact B5|]. split; [exact B3|].
  split. { intros t Ht. apply B6. rewrite Rminus_0_r. exact Ht. }
  cbn [res_stress]. do 6 eexists. split; [reflexivity|]. eapply dlim_eq; [|exact B7].
  pose proof (dot_strain _ D0 (length il) e B4) as DS.
  set (Sg := fun a c => rsum (length il) (fun q => nth (3 * q + a) (b_node_forces b1') 0 * nth (3 * q + c) D0 0)).
  assert (SS : forall a c, @eq R (stress_sum (N:=RNum) il (b_node_forces b1') D0 V a c) (- Sg a c / V)).
  { intros a c. unfold stress_sum. change (ndiv (n:=RNum)) with Rdiv. f_equal. etransitivity; [apply fold_nadd|]. rewrite Rplus_0_l.
    etransitivity; [apply total_tab|]. unfold Sg. rewrite <- rsum_opp. apply rsum_ext. intros q _.
    change (- nth (3 * q + a) (b_node_forces b1') 0 * nth (3 * q + c) D0 0 = - (nth (3 * q + a) (b_node_forces b1') 0 * nth (3 * q + c) D0 0)). ring. }
  assert (DS' : dot (b_node_forces b1') (tab (3 * length il) (fun k => rsum 3 (fun c => e (k mod 3)%nat c * nth (3 * (k / 3) + c) D0 0))) =
    rsum 3 (fun a => rsum 3 (fun c => e a c * Sg a c))) by exact DS. clear DS.
  etransitivity; [apply f_equal; exact DS'|]. change (ndiv (n:=RNum)) with Rdiv. change (nadd (n:=RNum)) with Rplus. rewrite !SS.
  generalize Sg. clear - He HV. intros Sg. revert V HV. change (carrier RNum) with R. intros V HV. cbn [rsum].
  rewrite (He 1%nat 0%nat), (He 2%nat 0%nat), (He 2%nat 1%nat). rewrite (RNum_ofZ 2). field. exact HV.
Qed.
End Ase.
