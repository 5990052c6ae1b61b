(** Rotated structures in the ASE calculator. *)
From Coq Require Import List Arith ZArith Lia Bool Permutation Reals Lra.
From Verif Require Import Base BaseLemmas Instances RSums RList MpSpec MaceModel MaceSpec MaceSpec2 MaceGradSpec MaceTab MaceLoad MaceThms MaceForces ExportPolySpec EnergySpec EnergyProofs ExportSubset
  AseModel AseSpec AseThms AseGrad SymSpec SymProofs SymForces.
Import ListNotations.
Local Open Scope R_scope.

Lemma rotate_ext g xs ys n : length xs = (3 * n)%nat -> length ys = (3 * n)%nat ->
  (forall q c, (q < n)%nat -> (c < 3)%nat -> nth (3 * q + c) ys 0 = g c 0%nat * nth (3 * q + 0) xs 0 + g c 1%nat * nth (3 * q + 1) xs 0 + g c 2%nat * nth (3 * q + 2) xs 0) ->
  ys = rotate g xs.
Proof.
  intros Lx Ly H. apply (nth_ext _ _ 0 0); [rewrite length_rotate; lia|]. intros p Hp. destruct (split3 p) as (q & c & -> & Hc).
  rewrite nth_rotate by lia. rewrite H by lia. rewrite Nat.add_0_r. reflexivity.
Qed.
Lemma vectors_rot g il jl pos sh n : length pos = (3 * n)%nat -> length sh = (3 * length il)%nat -> length jl = length il ->
  (forall a, In a il -> (a < n)%nat) -> (forall a, In a jl -> (a < n)%nat) ->
  nl_vectors il jl (rotate g pos) (rotate g sh) = rotate g (nl_vectors il jl pos sh).
Proof.
  intros Lp Ls Lj Hi Hj. apply rotate_ext with (n := length il); [apply length_vectors|apply length_vectors|].
  intros q c Hq Hc. rewrite !nth_vectors by (auto; lia).
  assert (B1 : (nth q il 0 < n)%nat) by (apply Hi, nth_In; lia). assert (B2 : (nth q jl 0 < n)%nat) by (apply Hj, nth_In; lia).
  rewrite !nth_rotate by lia. rewrite !Nat.add_0_r. ring.
Qed.
Lemma lengths3_rot g (O : orthogonal g) xs n : length xs = (3 * n)%nat -> lengths3 (rotate g xs) = lengths3 xs.
Proof.
  intros L. unfold lengths3. rewrite length_rotate, L. replace (3 * n / 3)%nat with n by (rewrite Nat.mul_comm, Nat.div_mul; lia).
  apply map_ext_in. intros q Hq. apply in_seq in Hq. f_equal. apply (norm2_rot g O xs q). lia.
Qed.

Lemma nth_frc (h : nat -> nat -> R) n a c : (a < n)%nat -> (c < 3)%nat -> nth (3 * a + c) (flat_map (fun a => [h a 0%nat; h a 1%nat; h a 2%nat]) (seq 0 n)) 0 = h a c.
Proof.
  intros Ha Hc. replace (3 * a + c)%nat with (a * 3 + c)%nat by lia. apply nth_error_nth. rewrite nth_error_flat_map_const with (x := a) (c := 3%nat); [|reflexivity| |exact Hc].
  - destruct c as [|[|[|c]]]; [reflexivity..|lia].
  - rewrite (nth_error_nth' _ 0%nat) by (rewrite seq_length; exact Ha). rewrite seq_nth by exact Ha. reflexivity.
Qed.
Lemma length_frc (h : nat -> nat -> R) n : length (flat_map (fun a => [h a 0%nat; h a 1%nat; h a 2%nat]) (seq 0 n)) = (3 * n)%nat.
Proof.
  assert (H : forall s, length (flat_map (fun a => [h a 0%nat; h a 1%nat; h a 2%nat]) (seq s n)) = (3 * n)%nat); [|apply H].
  induction n as [|n IH]; intros s; [reflexivity|]. cbn [seq flat_map app length]. rewrite IH. lia.
Qed.

Lemma vg (s : nat -> nat -> R) a c : (a < 3)%nat -> (c < 3)%nat ->
  voigt [s 0%nat 0%nat; s 1%nat 1%nat; s 2%nat 2%nat; ndiv (n:=RNum) (nadd (n:=RNum) (s 1%nat 2%nat) (s 2%nat 1%nat)) (nofZ 2); ndiv (n:=RNum) (nadd (n:=RNum) (s 0%nat 2%nat) (s 2%nat 0%nat)) (nofZ 2); ndiv (n:=RNum) (nadd (n:=RNum) (s 0%nat 1%nat) (s 1%nat 0%nat)) (nofZ 2)] a c
  = (s a c + s c a) / 2.
Proof.
  rewrite (RNum_ofZ 2). cbn [ndiv nadd RNum carrier]. destruct a as [|[|[|a']]], c as [|[|[|c']]]; intros Ha Hc; try lia; unfold voigt; cbn [Nat.eqb Nat.sub nth]; field.
Qed.
Lemma rt_ext g s s' a c : (forall i j, (i < 3)%nat -> (j < 3)%nat -> s i j = s' i j) -> rotated_tensor g s a c = rotated_tensor g s' a c.
Proof. intros H. unfold rotated_tensor. apply sum_eq. intros i Hi. apply sum_eq. intros j Hj. rewrite H by assumption. reflexivity. Qed.
Lemma lemma_C77 : forall sph, sph_ok (N:=RNum) sph -> sph_gradient sph -> forall srt, (forall l, Permutation l (srt l)) ->
  forall f : mace_file RNum, file_ok f -> smooth_ok f -> monomials_once f -> forall g D, orthogonal g -> equivariant sph f g D ->
  forall numbers types il jl, species_map (f_atomic_numbers f) numbers types -> nl_ok (length numbers) il jl -> il <> [] ->
  forall hist V pos sh, List.Forall (input_ok f) hist -> length pos = (3 * length numbers)%nat -> length sh = (3 * length il)%nat ->
  smooth_at f (nl_input (N:=RNum) (S (list_max il)) types il jl [] []) (nl_vectors il jl pos sh) ->
  let evaluate m b pos sh := let D := nl_vectors il jl pos sh in calculate sph m b numbers (Some V) il jl (lengths3 D) D in
  exists m b0 bh b res b' res', load_from_json srt f = Some (m, b0) /\ calls sph m b0 hist = Some bh /\
    evaluate m bh pos sh = Some (b, res) /\ evaluate m bh (rotate g pos) (rotate g sh) = Some (b', res') /\
    res_energy res' = res_energy res /\ res_energies res' = res_energies res /\ res_forces res' = rotate g (res_forces res) /\
    forall a c, (a < 3)%nat -> (c < 3)%nat -> voigt (res_stress res') a c = rotated_tensor g (voigt (res_stress res)) a c.
Proof.
  intros sph Hs Hg srt Hp f F S Mo g D O EQ numbers types il jl SM NL Hne hist V pos sh Hh Lp Ls SA evaluate. unfold evaluate. cbv zeta. clear evaluate.
  assert (Hi : forall a, In a il -> (a < length numbers)%nat) by apply (nl_i _ _ _ NL).
  assert (Hj : forall a, In a jl -> (a < length numbers)%nat) by (intros a Ha; apply Hi; apply (jl_in numbers il jl NL); exact Ha).
  rewrite (vectors_rot g il jl pos sh (length numbers)) by (auto; apply (nl_len _ _ _ NL)).
  set (xs := nl_vectors il jl pos sh) in *. assert (Lx : length xs = (3 * length il)%nat) by apply length_vectors.
  set (x := nl_input (N:=RNum) (Datatypes.S (list_max il)) types il jl [] []) in *.
  destruct (lemma_C75 sph Hs Hg srt Hp f F S Mo g D O EQ hist x xs Hh SA) as (m & b0 & bh & b & b' & E1 & E2 & E3 & E4 & E5 & E6).
  destruct (load_ok srt Hp f F) as (c0 & F1 & L0). rewrite E1 in F1. injection F1 as -> <-. destruct (calls_ok sph Hs srt f F b0 hist L0 Hh) as (ch & F2 & Lh). rewrite E2 in F2. injection F2 as <-.
  pose proof (with_nl numbers types il jl NL xs Lx) as W. fold x in W.
  assert (Lx' : length (rotate g xs) = (3 * length il)%nat) by (rewrite length_rotate; exact Lx). pose proof (with_nl numbers types il jl NL _ Lx') as W'. fold x in W'.
  pose proof (sa_ok _ _ _ SA) as I1. pose proof (sa_ok _ _ _ (smooth_rot g O f x xs SA)) as I2. rewrite W in I1, E3. rewrite W' in I2, E4.
  destruct (calc_ok sph Hs srt f F numbers types il jl SM NL Hne bh V _ _ Lh I1) as (q & B1 & _ & _ & B2 & B3). rewrite E3 in B1. injection B1 as <-.
  destruct (calc_ok sph Hs srt f F numbers types il jl SM NL Hne bh V _ _ Lh I2) as (q' & C1 & _ & _ & C2 & C3). rewrite E4 in C1. injection C1 as <-.
  cbv zeta in B3, C3. eexists _, b0, bh, b, _, b', _. split; [exact E1|]. split; [exact E2|]. split; [exact B3|]. split; [exact C3|].
  cbn [res_energy res_energies res_forces res_stress]. rewrite E5. split; [reflexivity|]. split; [reflexivity|].
  rewrite E6. set (G := b_node_forces b) in *. set (G' := rotate g G).
  assert (NG : forall q c, (q < length il)%nat -> (c < 3)%nat -> nth (3 * q + c) G' 0 = g c 0%nat * nth (3 * q + 0) G 0 + g c 1%nat * nth (3 * q + 1) G 0 + g c 2%nat * nth (3 * q + 2) G 0).
  { intros q c Hq Hc. unfold G'. rewrite nth_rotate; [rewrite Nat.add_0_r; reflexivity|exact Hc|]. change (carrier RNum) with R in *. lia. }
  assert (NX : forall q c, (q < length il)%nat -> (c < 3)%nat -> nth (3 * q + c) (rotate g xs) 0 = g c 0%nat * nth (3 * q + 0) xs 0 + g c 1%nat * nth (3 * q + 1) xs 0 + g c 2%nat * nth (3 * q + 2) xs 0).
  { intros q c Hq Hc. rewrite nth_rotate by lia. rewrite Nat.add_0_r. reflexivity. }
  split.
  - apply rotate_ext with (n := length numbers).
    + exact (length_frc (fun a c => pair_sum (N:=RNum) il G jl a c - pair_sum (N:=RNum) il G il a c) (length numbers)).
    + exact (length_frc (fun a c => pair_sum (N:=RNum) il G' jl a c - pair_sum (N:=RNum) il G' il a c) (length numbers)).
    + intros a c Ha Hc.
      etransitivity; [exact (nth_frc (fun a c => pair_sum (N:=RNum) il G' jl a c - pair_sum (N:=RNum) il G' il a c) (length numbers) a c Ha Hc)|].
      assert (N3 : forall c, (c < 3)%nat -> nth (3 * a + c) (flat_map (fun a => [nsub (n:=RNum) (pair_sum (N:=RNum) il G jl a 0) (pair_sum (N:=RNum) il G il a 0); nsub (n:=RNum) (pair_sum (N:=RNum) il G jl a 1) (pair_sum (N:=RNum) il G il a 1);
                         nsub (n:=RNum) (pair_sum (N:=RNum) il G jl a 2) (pair_sum (N:=RNum) il G il a 2)]) (seq 0 (length numbers))) 0 = pair_sum (N:=RNum) il G jl a c - pair_sum (N:=RNum) il G il a c)
        by (intros c' Hc'; exact (nth_frc (fun a c => pair_sum (N:=RNum) il G jl a c - pair_sum (N:=RNum) il G il a c) (length numbers) a c' Ha Hc')).
      change (carrier RNum) with R in *. rewrite !N3 by lia.
      assert (PS : forall l, @eq R (pair_sum (N:=RNum) il G' l a c) (g c 0%nat * pair_sum (N:=RNum) il G l a 0 + g c 1%nat * pair_sum (N:=RNum) il G l a 1 + g c 2%nat * pair_sum (N:=RNum) il G l a 2)).
      { intros l. unfold pair_sum. rewrite !pick_R. rewrite <- !rsum_scal_l, <- !rsum_plus. apply rsum_ext. intros q Hq. rewrite RNum_zero. rewrite NG by assumption. change (carrier RNum) with R. ring. }
      rewrite !PS. ring.
  - set (sg := fun a c : nat => stress_sum (N:=RNum) il G xs V a c). set (sg' := fun a c : nat => stress_sum (N:=RNum) il G' (rotate g xs) V a c).
    assert (SR : forall G x a c, @eq R (stress_sum (N:=RNum) il G x V a c) (rsum (length il) (fun q => - nth (3 * q + a) G 0 * nth (3 * q + c) x 0) / V)).
    { intros G0 x0 a c. unfold stress_sum. rewrite RNum_zero. cbn [ndiv nmul nopp RNum carrier].
      assert (E : @eq R (fold_left (nadd (n:=RNum)) (map (fun q => - nth (3 * q + a) G0 0 * nth (3 * q + c) x0 0) (seq 0 (length il))) 0) (rsum (length il) (fun q => - nth (3 * q + a) G0 0 * nth (3 * q + c) x0 0))).
      { etransitivity; [apply fold_nadd|]. rewrite Rplus_0_l. apply total_tab. }
      exact (f_equal (fun v => v / V) E). }
    assert (SS : forall a c, (a < 3)%nat -> (c < 3)%nat -> @eq R (sg' a c) (rotated_tensor g sg a c)).
    { intros a c Ha Hc. unfold sg', rotated_tensor. rewrite SR. rewrite !sum3. unfold sg. rewrite !SR. unfold Rdiv.
      rewrite (rsum_ext _ _ (fun q => g a 0%nat * g c 0%nat * (- nth (3 * q + 0) G 0 * nth (3 * q + 0) xs 0) + g a 0%nat * g c 1%nat * (- nth (3 * q + 0) G 0 * nth (3 * q + 1) xs 0) + g a 0%nat * g c 2%nat * (- nth (3 * q + 0) G 0 * nth (3 * q + 2) xs 0)
         + (g a 1%nat * g c 0%nat * (- nth (3 * q + 1) G 0 * nth (3 * q + 0) xs 0) + g a 1%nat * g c 1%nat * (- nth (3 * q + 1) G 0 * nth (3 * q + 1) xs 0) + g a 1%nat * g c 2%nat * (- nth (3 * q + 1) G 0 * nth (3 * q + 2) xs 0))
         + (g a 2%nat * g c 0%nat * (- nth (3 * q + 2) G 0 * nth (3 * q + 0) xs 0) + g a 2%nat * g c 1%nat * (- nth (3 * q + 2) G 0 * nth (3 * q + 1) xs 0) + g a 2%nat * g c 2%nat * (- nth (3 * q + 2) G 0 * nth (3 * q + 2) xs 0)))).
      - rewrite !rsum_plus, !rsum_scal_l. change (carrier RNum) with R. repeat match goal with |- context [rsum ?n ?h] => generalize (rsum n h); intro end. ring.
      - intros q Hq. rewrite NG, NX by assumption. change (carrier RNum) with R. ring. }
    intros a c Ha Hc. etransitivity; [exact (vg sg' a c Ha Hc)|]. rewrite !SS by assumption.
    transitivity (rotated_tensor g (fun a c => (sg a c + sg c a) / 2) a c).
    + unfold rotated_tensor. rewrite !sum3. clearbody sg sg'. clear. field.
    + apply rt_ext. intros i j Hi' Hj'. symmetry. exact (vg sg i j Hi' Hj').
Qed.
