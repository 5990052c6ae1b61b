(** Renumbered structures and supercells in the ASE calculator. *)
From Coq Require Import List Arith ZArith Lia Bool Permutation Reals Lra.
From Verif Require Import Base BaseLemmas Instances RSums RList MpSpec MaceModel MaceSpec MaceSpec2 MaceGradSpec MaceTab MaceLoad MaceThms MaceForces ExportPolySpec EnergySpec EnergyProofs ExportSubset
  AseModel AseSpec AseThms AseGrad SymSpec SymProofs SymForces SymAse CoverSpec CoverAseSpec Cover CoverForces.
Import ListNotations.
Local Open Scope R_scope.

Lemma owner_nth : forall nns i p, (i < length nns)%nat -> In p (seq (list_sum (firstn i nns)) (nth i nns 0%nat)) -> nth p (owners nns) 0%nat = i.
Proof.
  intros nns i p Hi Hp. unfold owners.
  assert (G : forall l s k i p, (i < k)%nat -> length l = k -> In p (seq (list_sum (firstn i l)) (nth i l 0%nat)) ->
     nth p (flat_map (fun i => repeat i (nth (i - s) l 0%nat)) (seq s k)) 0%nat = (s + i)%nat).
  { clear. induction l as [|a l IH]; intros s k i p Hi Hk Hp; [cbn in Hk; lia|]. destruct k as [|k]; [discriminate|]. cbn [seq flat_map]. rewrite Nat.sub_diag. cbn [nth].
    assert (L0 : length (repeat s a) = a) by apply repeat_length. destruct i as [|i].
    - cbn [firstn list_sum fold_right nth] in Hp. apply in_seq in Hp. rewrite app_nth1 by lia. rewrite Nat.add_0_r. apply nth_error_nth. rewrite nth_error_repeat by lia. reflexivity.
    - cbn [firstn nth] in Hp. change (list_sum (a :: firstn i l)) with (a + list_sum (firstn i l))%nat in Hp. apply in_seq in Hp. rewrite app_nth2 by lia. rewrite L0.
      rewrite (flat_map_ext_in _ (fun i => repeat i (nth (i - S s) l 0%nat))).
      + rewrite (IH (S s) k i (p - a)%nat); [lia|lia|injection Hk; auto|]. apply in_seq. lia.
      + intros j Hj. apply in_seq in Hj. f_equal. replace (j - s)%nat with (S (j - S s)) by lia. reflexivity. }
  specialize (G nns 0%nat (length nns) i p Hi eq_refl Hp). cbn [Nat.add] in G. etransitivity; [|exact G]. f_equal. apply flat_map_ext_in. intros j _. rewrite Nat.sub_0_r. reflexivity.
Qed.

Lemma nodup_map {A B} (g : A -> B) (l : list A) : NoDup l -> (forall a b, In a l -> In b l -> g a = g b -> a = b) -> NoDup (map g l).
Proof.
  induction 1 as [|a l Ha Hl IH]; intros H; cbn [map]; constructor.
  - intros C. apply in_map_iff in C. destruct C as (b & E & Hb). apply Ha. rewrite (H a b); auto; [left; reflexivity|right; exact Hb].
  - apply IH. intros b c Hb Hc. apply H; right; assumption.
Qed.

Section Nl.
Variables numbers types il jl : list nat.
Hypothesis NL : nl_ok (length numbers) il jl.
Notation n := (S (list_max il)).
Notation x := (nl_input (N:=RNum) n types il jl [] []).
Lemma nl_edges i p : (i < n)%nat -> In p (edges_of x i) <-> (p < length il)%nat /\ nth p il 0%nat = i.
Proof.
  intros Hi. pose proof (sum_nn numbers il jl NL) as SN. pose proof (owners_il numbers il jl NL) as OW.
  assert (Ln : length (i_num_neigh x) = n) by (cbn [nl_input i_num_neigh]; rewrite map_length, seq_length; reflexivity).
  split.
  - intros Hp. split.
    + rewrite <- SN. apply (edges_lt x i); [exact Ln|exact Hi|exact Hp].
    + rewrite <- OW at 1. apply owner_nth; [exact (eq_ind_r (fun k => (i < k)%nat) Hi Ln)|exact Hp].
  - intros (Hp & E). rewrite <- SN in Hp. destruct (edge_owner _ _ Hp) as (i0 & Hi0 & Q). pose proof (owner_nth _ _ _ Hi0 Q) as E0. rewrite OW in E0. rewrite E in E0. subst i0. exact Q.
Qed.
End Nl.

Lemma species_unique nums Z t t' : species_of nums Z t -> species_of nums Z t' -> t = t'.
Proof.
  intros [A B] [A' B']. destruct (Nat.lt_trichotomy t t') as [L|[E|L]]; [|exact E|]; exfalso.
  - apply (B' t L A).
  - apply (B t' L A').
Qed.

Section Two.
Variables numbers types il jl : list nat.
Variables numbers' types' il' jl' : list nat.
Variables sg ep : nat -> nat.
Hypothesis NL : nl_ok (length numbers) il jl.
Hypothesis NL' : nl_ok (length numbers') il' jl'.
Hypothesis FU : S (list_max il) = length numbers.
Hypothesis FU' : S (list_max il') = length numbers'.
Hypothesis NC : nl_covers sg ep numbers' il' jl' numbers il jl.
Notation x := (nl_input (N:=RNum) (S (list_max il)) types il jl [] []).
Notation x' := (nl_input (N:=RNum) (S (list_max il')) types' il' jl' [] []).

Lemma jl_lt' a : In a jl' -> (a < length numbers')%nat.
Proof. intros H. apply (nl_i _ _ _ NL'). apply (jl_in numbers' il' jl' NL'). exact H. Qed.

Variable nums : list nat.
Hypothesis SM : species_map nums numbers types.
Hypothesis SM' : species_map nums numbers' types'.
Lemma type_cover i : (i < length numbers')%nat -> nth i types' 0%nat = nth (sg i) types 0%nat.
Proof.
  intros Hi. pose proof (nc_atom _ _ _ _ _ _ _ _ NC i Hi) as Hs. apply (species_unique nums (nth i numbers' 0%nat)).
  - apply (proj2 SM' i); [apply nth_error_nth'; exact Hi|apply nth_error_nth'; rewrite (proj1 SM'); exact Hi].
  - rewrite (nc_number _ _ _ _ _ _ _ _ NC i Hi). apply (proj2 SM (sg i)); [apply nth_error_nth'; exact Hs|apply nth_error_nth'; rewrite (proj1 SM); exact Hs].
Qed.
Lemma nth_first {A} (l : list A) k i d : (i < k)%nat -> nth i (firstn k l) d = nth i l d.
Proof.
  revert l i. induction k as [|k IH]; intros [|a l] [|i] H; cbn [firstn nth]; try lia; auto. apply IH. lia.
Qed.
Lemma nl_cover : covers sg ep x' x.
Proof.
  pose proof (sum_nn numbers' il' jl' NL') as SN'. pose proof (nl_len _ _ _ NL') as Lj. constructor; cbn [nl_input i_num_nodes i_node_types i_num_neigh i_neigh_indices i_neigh_types].
  - rewrite firstn_length, (proj1 SM'). lia.
  - rewrite map_length, seq_length. reflexivity.
  - rewrite SN'. exact Lj.
  - rewrite SN', map_length. exact Lj.
  - intros j Hj. rewrite FU'. apply jl_lt'. exact Hj.
  - intros i Hi. rewrite FU. apply (nc_atom _ _ _ _ _ _ _ _ NC). rewrite <- FU'. exact Hi.
  - intros i Hi. rewrite FU' in Hi. pose proof (nc_atom _ _ _ _ _ _ _ _ NC i Hi) as Hs. rewrite !nth_first by lia. apply type_cover. exact Hi.
  - intros i Hi. pose proof Hi as Hi2. rewrite FU' in Hi2. pose proof (nc_atom _ _ _ _ _ _ _ _ NC i Hi2) as Hs. rewrite <- FU in Hs.
    apply NoDup_Permutation.
    + apply nodup_map.
      * unfold edges_of. apply seq_NoDup.
      * intros p q Hp Hq E. apply (nl_edges numbers' types' il' jl' NL' i) in Hp; [|exact Hi]. apply (nl_edges numbers' types' il' jl' NL' i) in Hq; [|exact Hi].
        destruct Hp as (Hp & Ep). destruct Hq as (Hq & Eq).
        destruct (nc_out _ _ _ _ _ _ _ _ NC i Hi2 (ep p)) as (p0 & _ & U); [apply (nc_pair _ _ _ _ _ _ _ _ NC); exact Hp|rewrite (nc_first _ _ _ _ _ _ _ _ NC p Hp), Ep; reflexivity|].
        rewrite (U p), (U q); auto.
    + unfold edges_of. apply seq_NoDup.
    + intros q. rewrite (nl_edges numbers types il jl NL (sg i) q Hs). rewrite in_map_iff. split.
      * intros (p & <- & Hp). apply (nl_edges numbers' types' il' jl' NL' i) in Hp; [|exact Hi]. destruct Hp as (Hp & Ep).
        split; [apply (nc_pair _ _ _ _ _ _ _ _ NC); exact Hp|rewrite (nc_first _ _ _ _ _ _ _ _ NC p Hp), Ep; reflexivity].
      * intros (Hq & Eq). destruct (nc_out _ _ _ _ _ _ _ _ NC i Hi2 q Hq Eq) as (p & (Hp & Ep & E) & _). exists p. split; [exact E|]. apply (nl_edges numbers' types' il' jl' NL' i); auto.
  - intros p Hp. rewrite SN' in Hp.
    rewrite (nth_indep _ 0%nat (nth 0 types' 0%nat)) by (rewrite map_length; lia). rewrite (map_nth (fun j => nth j types' 0%nat)).
    pose proof (nc_pair _ _ _ _ _ _ _ _ NC p Hp) as Hq. pose proof (nl_len _ _ _ NL) as Lj2.
    rewrite (nth_indep (map _ jl) 0%nat (nth 0 types 0%nat)) by (rewrite map_length; lia). rewrite (map_nth (fun j => nth j types 0%nat)).
    rewrite (nc_second _ _ _ _ _ _ _ _ NC p Hp). apply type_cover. apply jl_lt'. apply nth_In. lia.
  - intros p Hp. rewrite SN' in Hp. symmetry. apply (nc_second _ _ _ _ _ _ _ _ NC p Hp).
Qed.

(** sums over the pairs at an atom *)
Lemma pick_cover (l' l : list nat) (w : nat -> R) i : length l' = length il' -> length l = length il -> (forall p, (p < length il')%nat -> nth (ep p) l 0%nat = sg (nth p l' 0%nat)) ->
  lifts sg ep l' l i -> rsum (length il') (fun p => w (ep p) * ind (nth p l' 0%nat) i) = rsum (length il) (fun q => w q * ind (nth q l 0%nat) (sg i)).
Proof.
  clear FU FU' NL NL'. intros L' L E U. unfold ind.
  assert (R1 : forall n (P : nat -> bool) g, rsum n (fun p => g p * (if P p then 1 else 0)) = rl (filter P (seq 0 n)) g).
  { intros n P g. rewrite rl_filter, rl_seq. apply rsum_ext. intros p _. destruct (P p); ring. }
  rewrite (R1 _ (fun p => nth p l' 0%nat =? i)%nat (fun p => w (ep p))), (R1 _ (fun q => nth q l 0%nat =? sg i)%nat w). rewrite <- (rl_map _ ep w). apply rl_perm.
  apply NoDup_Permutation.
  - apply nodup_map; [apply NoDup_filter, seq_NoDup|]. intros p q Hp Hq Eq. apply filter_In in Hp, Hq. destruct Hp as (Hp & Ep). destruct Hq as (Hq & Eq').
    apply in_seq in Hp, Hq. apply Nat.eqb_eq in Ep, Eq'. assert (Hp' : (p < length il')%nat) by lia.
    destruct (U (ep p)) as (p0 & _ & V).
    + rewrite L. apply (nc_pair _ _ _ _ _ _ _ _ NC). exact Hp'.
    + rewrite E by exact Hp'. rewrite Ep. reflexivity.
    + rewrite (V p), (V q); auto; split; [lia|auto|lia|auto].
  - apply NoDup_filter, seq_NoDup.
  - intros q. rewrite in_map_iff. split.
    + intros (p & <- & Hp). apply filter_In in Hp. destruct Hp as (Hp & Ep). apply in_seq in Hp. apply Nat.eqb_eq in Ep. assert (Hp' : (p < length il')%nat) by lia.
      apply filter_In. split; [apply in_seq; pose proof (nc_pair _ _ _ _ _ _ _ _ NC p Hp'); lia|]. rewrite E by exact Hp'. rewrite Ep. apply Nat.eqb_refl.
    + intros Hq. apply filter_In in Hq. destruct Hq as (Hq & Eq). apply in_seq in Hq. apply Nat.eqb_eq in Eq. destruct (U q ltac:(lia) Eq) as (p & (Hp & Ep & E2) & _).
      exists p. split; [exact E2|]. apply filter_In. split; [apply in_seq; lia|]. apply Nat.eqb_eq. exact Ep.
Qed.
End Two.

Section Main.
Variable sph : nat -> R -> R -> R -> list R * list R.
Hypothesis Hs : sph_ok (N:=RNum) sph.
Hypothesis Hg : sph_gradient sph.
Variable srt : list (list (list nat)) -> list (list (list nat)).
Hypothesis Hp : forall l, Permutation l (srt l).
Variable f : mace_file RNum.
Hypothesis F : file_ok f.
Hypothesis S : smooth_ok f.
Hypothesis Mo : monomials_once f.
Variables numbers types il jl : list nat.
Variables numbers' types' il' jl' : list nat.
Hypothesis SM : species_map (f_atomic_numbers f) numbers types.
Hypothesis SM' : species_map (f_atomic_numbers f) numbers' types'.
Hypothesis NL : nl_ok (length numbers) il jl.
Hypothesis NL' : nl_ok (length numbers') il' jl'.
Hypothesis Hne : il <> [].
Hypothesis Hne' : il' <> [].
Hypothesis FU : Datatypes.S (list_max il) = length numbers.
Hypothesis FU' : Datatypes.S (list_max il') = length numbers'.
Variables sg ep : nat -> nat.
Hypothesis NC : nl_covers sg ep numbers' il' jl' numbers il jl.
Variable k : nat.
Hypothesis Fk : fold_of sg (length numbers') (length numbers) k.
Notation x := (nl_input (N:=RNum) (Datatypes.S (list_max il)) types il jl [] []).
Notation x' := (nl_input (N:=RNum) (Datatypes.S (list_max il')) types' il' jl' [] []).

Lemma k_pos : 1 <= INR k.
Proof.
  assert (H : (0 < k)%nat); [|apply (le_INR 1) in H; exact H].
  destruct numbers' as [|z nn] eqn:En; [cbn [length] in FU'; lia|].
  assert (H0 : (0 < length (z :: nn))%nat) by (cbn [length]; lia). pose proof (nc_atom _ _ _ _ _ _ _ _ NC 0%nat H0) as Hs0. rewrite <- (Fk (sg 0%nat) Hs0).
  apply count_occ_In. apply in_map. apply in_seq. lia.
Qed.

Lemma ase_cover hist V D m b0 bh b b' : List.Forall (input_ok f) hist -> V <> 0 -> length D = (3 * length il)%nat -> smooth_at f x D ->
  load_from_json srt f = Some (m, b0) -> calls sph m b0 hist = Some bh ->
  call sph m bh (with_xyz x D) = Some b -> call sph m bh (with_xyz x' (lift3 ep (length il') D)) = Some b' ->
  b_node_forces b' = lift3 ep (length il') (b_node_forces b) ->
  let evaluate numbers V il jl D := calculate sph m bh numbers (Some V) il jl (lengths3 D) D in
  exists res res', evaluate numbers V il jl D = Some (b, res) /\ evaluate numbers' (INR k * V) il' jl' (lift3 ep (length il') D) = Some (b', res') /\
    res_energies res' = map (fun i => nth (sg i) (res_energies res) 0) (seq 0 (length numbers')) /\ res_energy res' = INR k * res_energy res /\
    res_forces res' = lift3 sg (length numbers') (res_forces res) /\ res_stress res' = res_stress res.
Proof.
  intros Hh HV LD SA E1 E2 E3 E4 E6 evaluate. unfold evaluate. clear evaluate.
  pose proof (nl_cover numbers types il jl numbers' types' il' jl' sg ep NL NL' FU FU' NC _ SM SM') as CV.
  pose proof (sum_nn numbers il jl NL) as SN. pose proof (sum_nn numbers' il' jl' NL') as SN'.
  assert (SA' : smooth_at f x' (lift3 ep (length il') D)). { pose proof (smooth_cover f sg ep x' x D CV SA) as Q. cbn [nl_input i_num_neigh] in Q. rewrite SN' in Q. exact Q. }
  assert (E5 : b_node_energies b' = map (fun i => nth (sg i) (b_node_energies b) 0) (seq 0 (length numbers'))).
  { pose proof (energies_cover sph Hs srt Hp f F S Mo hist x x' D sg ep m b0 bh b b' Hh CV SA E1 E2 E3) as Q. cbn [nl_input i_num_neigh i_num_nodes] in Q. rewrite SN', FU' in Q. apply Q. rewrite FU' in E4. exact E4. }
  destruct (load_ok srt Hp f F) as (c0 & F1 & L0). rewrite E1 in F1. injection F1 as -> <-. destruct (calls_ok sph Hs srt f F b0 hist L0 Hh) as (ch & F2 & Lh). rewrite E2 in F2. injection F2 as <-.
  pose proof (with_nl numbers types il jl NL D LD) as W. pose proof (with_nl numbers' types' il' jl' NL' (lift3 ep (length il') D) (length_lift3 _ _ _)) as W'.
  pose proof (sa_ok _ _ _ SA) as I1. pose proof (sa_ok _ _ _ SA') as I2. rewrite W in I1, E3. rewrite W' in I2, E4.
  destruct (calc_ok sph Hs srt f F numbers types il jl SM NL Hne bh V _ _ Lh I1) as (q & B1 & _ & LE & B2 & B3). rewrite E3 in B1. injection B1 as <-.
  destruct (calc_ok sph Hs srt f F numbers' types' il' jl' SM' NL' Hne' bh (INR k * V) _ _ Lh I2) as (q' & C1 & _ & _ & C2 & C3). rewrite E4 in C1. injection C1 as <-.
  cbv zeta in B3, C3. eexists _, _. split; [exact B3|]. split; [exact C3|]. cbn [res_energy res_energies res_forces res_stress].
  assert (Ln : length (i_num_neigh x) = i_num_nodes x) by (cbn [nl_input i_num_neigh i_num_nodes]; rewrite map_length, seq_length; reflexivity).
  assert (Fk' : fold_of sg (i_num_nodes x') (i_num_nodes x) k) by (cbn [nl_input i_num_nodes]; rewrite FU, FU'; exact Fk).
  set (G := b_node_forces b) in *. pose proof (nl_len _ _ _ NL) as Lj. pose proof (nl_len _ _ _ NL') as Lj'.
  split; [exact E5|]. split; [|split].
  - rewrite E5. etransitivity; [apply fold_nadd|]. rewrite RNum_zero, Rplus_0_l.
    assert (EB : @eq R (fold_left (nadd (n:=RNum)) (b_node_energies b) (nzero (N:=RNum))) (total (b_node_energies b))) by (etransitivity; [apply fold_nadd|]; rewrite RNum_zero; apply Rplus_0_l).
    etransitivity; [|apply f_equal; symmetry; exact EB].
    change (rl (seq 0 (length numbers')) (fun i => nth (sg i) (b_node_energies b) 0) = INR k * total (b_node_energies b)).
    rewrite rl_seq, <- FU'. etransitivity; [exact (sum_nodes sg ep x' x CV Ln k Fk' (fun j => nth j (b_node_energies b) 0))|]. apply f_equal. cbn [nl_input i_num_nodes]. rewrite <- LE. symmetry. apply lsumR_rsum.
  - rewrite E6. apply (nth_ext _ _ 0 0).
    + rewrite length_lift3. exact (length_frc (fun a c => pair_sum (N:=RNum) il' (lift3 ep (length il') G) jl' a c - pair_sum (N:=RNum) il' (lift3 ep (length il') G) il' a c) (length numbers')).
    + intros j Hj. assert (Hj' : (j < 3 * length numbers')%nat).
      { eapply Nat.lt_le_trans; [exact Hj|]. apply Nat.eq_le_incl. exact (length_frc (fun a c => pair_sum (N:=RNum) il' (lift3 ep (length il') G) jl' a c - pair_sum (N:=RNum) il' (lift3 ep (length il') G) il' a c) (length numbers')). }
      clear Hj. destruct (split3 j) as (a & c & -> & Hc). assert (Ha : (a < length numbers')%nat) by lia. pose proof (nc_atom _ _ _ _ _ _ _ _ NC a Ha) as Hsa. rewrite nth_lift3 by assumption.
      etransitivity; [exact (nth_frc (fun a c => pair_sum (N:=RNum) il' (lift3 ep (length il') G) jl' a c - pair_sum (N:=RNum) il' (lift3 ep (length il') G) il' a c) (length numbers') a c Ha Hc)|].
      symmetry. etransitivity; [exact (nth_frc (fun a c => pair_sum (N:=RNum) il G jl a c - pair_sum (N:=RNum) il G il a c) (length numbers) (sg a) c Hsa Hc)|]. symmetry.
      assert (PS : forall l' l, length l' = length il' -> length l = length il -> (forall p, (p < length il')%nat -> nth (ep p) l 0%nat = sg (nth p l' 0%nat)) -> lifts sg ep l' l a ->
         @eq R (pair_sum (N:=RNum) il' (lift3 ep (length il') G) l' a c) (pair_sum (N:=RNum) il G l (sg a) c)).
      { intros l' l L' L EE U. unfold pair_sum. rewrite !pick_R.
        etransitivity; [|exact (pick_cover numbers il jl numbers' il' jl' sg ep NC l' l (fun q => nth (3 * q + c) G 0) a L' L EE U)]. apply rsum_ext. intros p Hpp. rewrite RNum_zero. rewrite nth_lift3 by assumption. reflexivity. }
      rewrite (PS jl' jl Lj' Lj (nc_second _ _ _ _ _ _ _ _ NC) (nc_in _ _ _ _ _ _ _ _ NC a Ha)), (PS il' il eq_refl eq_refl (nc_first _ _ _ _ _ _ _ _ NC) (nc_out _ _ _ _ _ _ _ _ NC a Ha)). reflexivity.
  - rewrite E6.
    assert (SR : forall il G x V a c, @eq R (stress_sum (N:=RNum) il G x V a c) (rsum (length il) (fun q => - nth (3 * q + a) G 0 * nth (3 * q + c) x 0) / V)).
    { intros il0 G0 x0 V0 a c. unfold stress_sum. rewrite RNum_zero. cbn [ndiv nmul nopp RNum carrier].
      assert (E : @eq R (fold_left (nadd (n:=RNum)) (map (fun q => - nth (3 * q + a) G0 0 * nth (3 * q + c) x0 0) (seq 0 (length il0))) 0) (rsum (length il0) (fun q => - nth (3 * q + a) G0 0 * nth (3 * q + c) x0 0))).
      { etransitivity; [apply fold_nadd|]. rewrite Rplus_0_l. apply total_tab. }
      exact (f_equal (fun v => v / V0) E). }
    assert (SS : forall a c, (a < 3)%nat -> (c < 3)%nat -> @eq R (stress_sum (N:=RNum) il' (lift3 ep (length il') G) (lift3 ep (length il') D) (INR k * V) a c) (stress_sum (N:=RNum) il G D V a c)).
    { intros a c Ha Hc. rewrite !SR. rewrite (rsum_ext _ _ (fun q => (fun p => - nth (3 * p + a) G 0 * nth (3 * p + c) D 0) (ep q))) by (intros q Hq; rewrite !nth_lift3 by assumption; reflexivity).
      pose proof (sum_edges sg ep x' x CV Ln k Fk' (fun p => - nth (3 * p + a) G 0 * nth (3 * p + c) D 0)) as Q. cbn [nl_input i_num_neigh] in Q. rewrite SN, SN' in Q. 
      etransitivity; [apply (f_equal (fun v => v / (INR k * V))); exact Q|]. pose proof k_pos as K1. clear - K1 HV. change (carrier RNum) with R. match goal with |- context [rsum ?n ?h] => generalize (rsum n h); intro y end. field. split; [exact HV|lra]. }
    assert (H3 : (0 < 3 /\ 1 < 3 /\ 2 < 3)%nat) by lia. destruct H3 as (H0 & H1 & H2).
    rewrite !SS by assumption. reflexivity.
Qed.

Lemma lemma_C87_supercell : nl_translations ep numbers' il' jl' -> forall hist V D, List.Forall (input_ok f) hist -> V <> 0 -> length D = (3 * length il)%nat -> smooth_at f x D ->
  let evaluate m b numbers V il jl D := calculate sph m b numbers (Some V) il jl (lengths3 D) D in
  exists m b0 bh b res b' res', load_from_json srt f = Some (m, b0) /\ calls sph m b0 hist = Some bh /\
    evaluate m bh numbers V il jl D = Some (b, res) /\ evaluate m bh numbers' (INR k * V) il' jl' (lift3 ep (length il') D) = Some (b', res') /\
    res_energies res' = map (fun i => nth (sg i) (res_energies res) 0) (seq 0 (length numbers')) /\ res_energy res' = INR k * res_energy res /\
    res_forces res' = lift3 sg (length numbers') (res_forces res) /\ res_stress res' = res_stress res.
Proof.
  intros TR hist V D Hh HV LD SA evaluate. unfold evaluate. clear evaluate.
  pose proof (nl_cover numbers types il jl numbers' types' il' jl' sg ep NL NL' FU FU' NC _ SM SM') as CV.
  pose proof (sum_nn numbers' il' jl' NL') as SN'.
  assert (Fk' : fold_of sg (i_num_nodes x') (i_num_nodes x) k) by (cbn [nl_input i_num_nodes]; rewrite FU, FU'; exact Fk).
  assert (TR' : translations ep x').
  { intros q q1 Hq Hq1 E. cbn [nl_input i_num_neigh] in Hq, Hq1. rewrite SN' in Hq, Hq1. destruct (TR q q1 Hq Hq1 E) as (tau & te & A & B & C & Dq). exists tau, te.
    split; [exact (nl_cover numbers' types' il' jl' numbers' types' il' jl' tau te NL' NL' FU' FU' A _ SM' SM')|].
    split; [cbn [nl_input i_num_nodes]; rewrite FU'; exact B|]. split; [|exact Dq]. intros j Hj. cbn [nl_input i_num_neigh] in Hj. rewrite SN' in Hj. apply C. exact Hj. }
  destruct (lemma_C86_supercell sph Hs Hg srt Hp f F S Mo hist x x' D sg ep k Hh CV Fk' TR' SA) as (m & b0 & bh & b & b' & E1 & E2 & E3 & E4 & _ & E6).
  cbn [nl_input i_num_neigh] in E4, E6. rewrite SN' in E4, E6.
  destruct (ase_cover hist V D m b0 bh b b' Hh HV LD SA E1 E2 E3 E4 E6) as (res & res' & Q). exists m, b0, bh, b, res, b', res'. split; [exact E1|]. split; [exact E2|]. exact Q.
Qed.
End Main.

Lemma lemma_C87_renumber sph : sph_ok (N:=RNum) sph -> sph_gradient sph -> forall srt, (forall l, Permutation l (srt l)) ->
  forall f : mace_file RNum, file_ok f -> smooth_ok f -> monomials_once f ->
  forall numbers types il jl numbers' types' il' jl', species_map (f_atomic_numbers f) numbers types -> species_map (f_atomic_numbers f) numbers' types' ->
  nl_ok (length numbers) il jl -> nl_ok (length numbers') il' jl' -> il <> [] -> il' <> [] -> S (list_max il) = length numbers -> S (list_max il') = length numbers' ->
  forall sg ep, nl_covers sg ep numbers' il' jl' numbers il jl -> fold_of sg (length numbers') (length numbers) 1 ->
  forall hist V D, List.Forall (input_ok f) hist -> V <> 0 -> length D = (3 * length il)%nat -> smooth_at f (nl_input (N:=RNum) (S (list_max il)) types il jl [] []) D ->
  let evaluate m b numbers il jl D := calculate sph m b numbers (Some V) il jl (lengths3 D) D in
  exists m b0 bh b res b' res', load_from_json srt f = Some (m, b0) /\ calls sph m b0 hist = Some bh /\
    evaluate m bh numbers il jl D = Some (b, res) /\ evaluate m bh numbers' il' jl' (lift3 ep (length il') D) = Some (b', res') /\
    res_energies res' = map (fun i => nth (sg i) (res_energies res) 0) (seq 0 (length numbers')) /\ res_energy res' = res_energy res /\
    res_forces res' = lift3 sg (length numbers') (res_forces res) /\ res_stress res' = res_stress res.
Proof.
  intros Hs Hg srt Hp f F S Mo numbers types il jl numbers' types' il' jl' SM SM' NL NL' Hne Hne' FU FU' sg ep NC Fk hist V D Hh HV LD SA evaluate. unfold evaluate. clear evaluate.
  pose proof (nl_cover numbers types il jl numbers' types' il' jl' sg ep NL NL' FU FU' NC _ SM SM') as CV.
  pose proof (sum_nn numbers' il' jl' NL') as SN'.
  set (x := nl_input (N:=RNum) (Datatypes.S (list_max il)) types il jl [] []) in *. set (x' := nl_input (N:=RNum) (Datatypes.S (list_max il')) types' il' jl' [] []) in *.
  assert (Fk' : fold_of sg (i_num_nodes x') (i_num_nodes x) 1) by (unfold x, x'; cbn [nl_input i_num_nodes]; rewrite FU, FU'; exact Fk).
  destruct (lemma_C86_renumber sph Hs Hg srt Hp f F S Mo hist x x' D sg ep Hh CV Fk' SA) as (m & b0 & bh & b & b' & E1 & E2 & E3 & E4 & _ & E6).
  change (list_sum (i_num_neigh x')) with (list_sum (map (count_occ Nat.eq_dec il') (seq 0 (Datatypes.S (list_max il'))))) in E4, E6. rewrite SN' in E4, E6.
  destruct (ase_cover sph Hs srt Hp f F S Mo numbers types il jl numbers' types' il' jl' SM SM' NL NL' Hne Hne' FU FU' sg ep NC 1 Fk hist V D m b0 bh b b' Hh HV LD SA E1 E2 E3 E4 E6) as (res & res' & A1 & A2 & A3 & A4 & A5).
  cbn [INR] in A2, A4. rewrite Rmult_1_l in A2, A4. exists m, b0, bh, b, res, b', res'. split; [exact E1|]. split; [exact E2|]. split; [exact A1|]. split; [exact A2|]. split; [exact A3|]. split; [exact A4|]. exact A5.
Qed.
