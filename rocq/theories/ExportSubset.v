(** The energies of an exported model do not depend on which other species are exported with it. *)
From Coq Require Import List Arith ZArith Lia Bool Permutation Sorted Reals Lra.
From Verif Require Import Base BaseLemmas Instances MlpSpec MpSpec MaceModel MaceSpec MaceSpec2 ExportModel ExportProofs ExportPolyModel ExportPolySpec ExportPoly ExportPolyThms
  EnergySpec EnergyProofs ExportFullModel TorchSpec ExportFullPre ExportFullParts ExportFullCoupling ExportFullEnergy ExportFullThms.
Import ListNotations.
Local Open Scope R_scope.

Lemma sum_eq n f g : (forall i, (i < n)%nat -> f i = g i) -> sum n f = sum n g.
Proof. intros H. unfold sum. f_equal. apply map_ext_in. intros i Hi. apply in_seq in Hi. apply H. lia. Qed.
Lemma suml_rel {A B} (P : A -> B -> Prop) l l' g h : Forall2 P l l' -> (forall a b, P a b -> g a = h b) -> suml l g = suml l' h.
Proof. intros H E. unfold suml. induction H as [|a b l l' Hab _ IH]; [reflexivity|]. cbn. rewrite (E a b Hab). f_equal. exact IH. Qed.
Lemma linear_eq a c w v v' k : (forall q, (q < a)%nat -> v q = v' q) -> linear a c w v k = linear a c w v' k.
Proof. intros H. unfold linear. f_equal. apply sum_eq. intros q Hq. rewrite H by exact Hq. reflexivity. Qed.
Lemma with_element_eq a n c w v v' z k : (forall q, (q < a)%nat -> v q = v' q) -> with_element a n c w v z k = with_element a n c w v' z k.
Proof. intros H. unfold with_element. f_equal. apply sum_eq. intros q Hq. apply sum_eq. intros e _. rewrite H by exact Hq. reflexivity. Qed.

Section Subset.
Variable sph : nat -> R -> R -> R -> list R * list R.
Variable spl : list R -> list R -> list R * list R.
Variable points : nat.
Variable t : torch_model RNum.
Variables el el' : nat -> nat.
Variables x x' : input RNum.
Definition same_nbr (e e' : nbr) : Prop :=
  el (nb_type e) = el' (nb_type e') /\ nb_index e = nb_index e' /\ nb_x e = nb_x e' /\ nb_y e = nb_y e' /\ nb_z e = nb_z e' /\ nb_r e = nb_r e'.
Hypothesis Hz : forall i, (i < i_num_nodes x)%nat -> zi el x i = zi el' x' i.
Hypothesis HN : forall i, (i < i_num_nodes x)%nat -> Forall2 same_nbr (neighbours x i) (neighbours x' i).
Hypothesis Hix : forall i e, (i < i_num_nodes x)%nat -> In e (neighbours x i) -> (nb_index e < i_num_nodes x)%nat.
Notation TE F := (F sph spl points t el x).
Notation TE' F := (F sph spl points t el' x').

Lemma Y_eq e e' l m : same_nbr e e' -> Y sph t e l m = Y sph t e' l m.
Proof. intros (_ & _ & E1 & E2 & E3 & _). unfold Y. rewrite E1, E2, E3. reflexivity. Qed.
Lemma radial_eq g g' e e' : same_nbr e e' -> (forall r, g r = g' r) -> radial spl points t g e = radial spl points t g' e'.
Proof.
  intros (_ & _ & _ & _ & _ & E) H. unfold radial, interpolant. rewrite E. rewrite (map_ext g g' H). reflexivity.
Qed.
Lemma denominator_eq b avg dens i : (i < i_num_nodes x)%nat -> denominator spl points t el x b avg dens i = denominator spl points t el' x' b avg dens i.
Proof.
  intros Hi. unfold denominator. destruct (is_density b); [|reflexivity]. f_equal. eapply suml_rel; [apply HN; exact Hi|]. intros e e' S. apply radial_eq; [exact S|].
  intros r. rewrite (Hz i Hi), (proj1 S). reflexivity.
Qed.
Lemma conv0_same i l m k : (i < i_num_nodes x)%nat -> TE conv0 i l m k = TE' conv0 i l m k.
Proof.
  intros Hi. unfold conv0. eapply suml_rel; [apply HN; exact Hi|]. intros e e' S. rewrite (Y_eq e e' l m S), (proj1 S), (Hz i Hi). f_equal. f_equal. apply radial_eq; [exact S|]. reflexivity.
Qed.
Lemma message0_same b i l m k : (i < i_num_nodes x)%nat -> TE message0 b i l m k = TE' message0 b i l m k.
Proof.
  intros Hi. unfold message0. rewrite (Hz i Hi). apply with_element_eq. intros u _. rewrite denominator_eq by exact Hi. f_equal. apply linear_eq. intros q _. apply conv0_same. exact Hi.
Qed.
Lemma product0_same b i L M k : (i < i_num_nodes x)%nat -> TE product0 b i L M k = TE' product0 b i L M k.
Proof. intros Hi. unfold product0. rewrite (Hz i Hi). f_equal. apply by_degree_ext. intros l m _ _. apply message0_same. exact Hi. Qed.
Lemma feats0_same b i L M k : (i < i_num_nodes x)%nat -> TE feats0 b i L M k = TE' feats0 b i L M k.
Proof. intros Hi. unfold feats0. apply linear_eq. intros q _. apply product0_same. exact Hi. Qed.
Lemma up1_same b i L M k : (i < i_num_nodes x)%nat -> TE up1 b i L M k = TE' up1 b i L M k.
Proof. intros Hi. unfold up1. apply linear_eq. intros q _. apply feats0_same. exact Hi. Qed.
Lemma H_same b i : (i < i_num_nodes x)%nat -> TE H_layout b i = TE' H_layout b i.
Proof. intros Hi. unfold H_layout. apply flat_map_ext. intros L. apply flat_map_ext. intros k. apply map_ext. intros M. apply up1_same. exact Hi. Qed.
Lemma suml_rel_in {A B} (P : A -> B -> Prop) l l' g h : Forall2 P l l' -> (forall a b, In a l -> P a b -> g a = h b) -> suml l g = suml l' h.
Proof.
  intros H E. unfold suml. induction H as [|a b l l' Hab _ IH]; [reflexivity|]. cbn. rewrite (E a b (or_introl eq_refl) Hab). f_equal. apply IH. intros c d Hc. apply E. right. exact Hc.
Qed.
Lemma conv1_same b i p : (i < i_num_nodes x)%nat -> TE conv1 b i p = TE' conv1 b i p.
Proof.
  intros Hi. unfold conv1. eapply suml_rel_in; [apply HN; exact Hi|]. intros e e' He S. rewrite <- (proj1 (proj2 S)). rewrite (H_same b (nb_index e)) by (eapply Hix; eauto).
  rewrite (by_degree_ext (t_l_max t) (Y sph t e) (Y sph t e')) by (intros; apply Y_eq; exact S). f_equal. f_equal. apply map_ext. intros c. apply radial_eq; [exact S|].
  intros r. rewrite (proj1 S), (Hz i Hi). reflexivity.
Qed.
Lemma message1_same b b' i l m k : (i < i_num_nodes x)%nat -> TE message1 b b' i l m k = TE' message1 b b' i l m k.
Proof. intros Hi. unfold message1. rewrite denominator_eq by exact Hi. f_equal. apply linear_eq. intros q _. apply conv1_same. exact Hi. Qed.
Lemma product1_same b b' i k : (i < i_num_nodes x)%nat -> TE product1 b b' i k = TE' product1 b b' i k.
Proof. intros Hi. unfold product1. rewrite (Hz i Hi). f_equal. apply by_degree_ext. intros l m _ _. apply message1_same. exact Hi. Qed.
Lemma feats1_same b b' i k : (i < i_num_nodes x)%nat -> TE feats1 b b' i k = TE' feats1 b b' i k.
Proof.
  intros Hi. unfold feats1. rewrite (Hz i Hi). f_equal; [apply linear_eq; intros q _; apply product1_same; exact Hi|]. apply with_element_eq. intros q _. apply feats0_same. exact Hi.
Qed.
Lemma energy_same i : (i < i_num_nodes x)%nat -> TE torch_energy i = TE' torch_energy i.
Proof.
  intros Hi. unfold torch_energy. destruct (t_interactions t) as [|b [|b' [|]]]; try reflexivity. rewrite (Hz i Hi). f_equal. f_equal. f_equal; [f_equal|].
  - unfold pair_repulsion. destruct (t_zbl t) as [[zp|]|]; try reflexivity. eapply suml_rel; [apply HN; exact Hi|]. intros e e' S. rewrite (Hz i Hi), (proj1 S). destruct S as (_ & _ & _ & _ & _ & ->). reflexivity.
  - apply linear_eq. intros q _. apply feats0_same. exact Hi.
  - apply linear_eq. intros j _. f_equal. apply linear_eq. intros q _. apply feats1_same. exact Hi.
Qed.
End Subset.

Lemma nth_map_eq (an an' l l' : list nat) p : map (fun ty => nth ty an 0%nat) l = map (fun ty => nth ty an' 0%nat) l' -> (p < length l)%nat ->
  nth (nth p l 0%nat) an 0%nat = nth (nth p l' 0%nat) an' 0%nat.
Proof.
  intros E Hp. assert (L : length l = length l') by (apply (f_equal (@length nat)) in E; rewrite !map_length in E; exact E).
  rewrite <- (map_nth (fun ty => nth ty an 0%nat) l 0%nat p), <- (map_nth (fun ty => nth ty an' 0%nat) l' 0%nat p).
  rewrite (nth_indep _ _ 0%nat) by (rewrite map_length; exact Hp). rewrite (nth_indep (map _ l') _ 0%nat) by (rewrite map_length; lia). rewrite E. reflexivity.
Qed.
Lemma skipn_at {A} i (l : list A) d : (i < length l)%nat -> skipn i l = nth i l d :: skipn (S i) l.
Proof. revert l. induction i as [|i IH]; intros [|a l] H; cbn in H; try lia; [reflexivity|]. cbn [skipn nth]. rewrite IH by lia. reflexivity. Qed.
Lemma find_el (mn an : list nat) : incl an mn -> exists el, forall j, (j < length an)%nat -> (el j < length mn)%nat /\ nth (el j) mn 0%nat = nth j an 0%nat.
Proof.
  intros HI. exists (fun j => match py_index mn (nth j an 0%nat) with Some z => z | None => 0%nat end). intros j Hj.
  assert (H : In (nth j an 0%nat) mn) by (apply HI, nth_In, Hj). destruct (py_index_ok mn _ H) as (z & E & Hz & Ez). rewrite E. auto.
Qed.

Lemma lemma_C69 : forall rank inv spl t C, torch_ok t C -> spl_ok spl -> inv_ok rank inv -> (t_num_channels t <= rank (t_num_channels t) (fused t))%nat ->
  forall species species' points, NoDup species -> NoDup species' -> incl species (t_atomic_numbers t) -> incl species' (t_atomic_numbers t) -> (2 <= points)%nat -> 1 / 10 ^ 12 < t_r_cut t ->
  exists f f', extract_mace_data rank inv spl t species points = Some f /\ extract_mace_data rank inv spl t species' points = Some f' /\
    forall sph, sph_ok (N:=RNum) sph -> forall srt, (forall l, Permutation l (srt l)) ->
    forall hist hist' x x', List.Forall (input_ok f) hist -> List.Forall (input_ok f') hist' -> input_ok f x -> input_ok f' x' ->
    same_atoms (f_atomic_numbers f) (f_atomic_numbers f') x x' ->
    exists m c0 c1 c m' c0' c1' c', load_from_json srt f = Some (m, c0) /\ calls sph m c0 hist = Some c1 /\ call sph m c1 x = Some c /\
      load_from_json srt f' = Some (m', c0') /\ calls sph m' c0' hist' = Some c1' /\ call sph m' c1' x' = Some c' /\ b_node_energies c = b_node_energies c'.
Proof.
  intros rank inv spl t C HT Hspl Hinv Hrank species species' points ND ND' HI HI' Hp Hr.
  destruct (lemma_C67 rank inv spl t C HT Hspl Hinv Hrank species points ND HI Hp Hr) as (f & EF & FO & _ & _ & PF & KF).
  destruct (lemma_C67 rank inv spl t C HT Hspl Hinv Hrank species' points ND' HI' Hp Hr) as (f' & EF' & FO' & _ & _ & PF' & KF').
  exists f, f'. split; [exact EF|]. split; [exact EF'|]. intros sph Hs srt Hsrt hist hist' x x' HH HH' HX HX' (S1 & S2 & S3 & S4 & S5 & S6 & S7).
  assert (IA : forall s an, incl s (t_atomic_numbers t) -> Permutation an (match s with [] => t_atomic_numbers t | _ => s end) -> incl an (t_atomic_numbers t)).
  { intros s an Hi P a Ha. apply (Permutation_in a P) in Ha. destruct s; [exact Ha|apply Hi, Ha]. }
  destruct (find_el (t_atomic_numbers t) (f_atomic_numbers f) (IA _ _ HI PF)) as [el Hel].
  destruct (find_el (t_atomic_numbers t) (f_atomic_numbers f') (IA _ _ HI' PF')) as [el' Hel'].
  destruct (KF sph Hs srt Hsrt el Hel hist x HH HX) as (m & c0 & c1 & c & A1 & A2 & A3 & A4).
  destruct (KF' sph Hs srt Hsrt el' Hel' hist' x' HH' HX') as (m' & c0' & c1' & c' & B1 & B2 & B3 & B4).
  exists m, c0, c1, c, m', c0', c1', c'. repeat (split; [assumption|]). rewrite A4, B4, <- S1. apply map_ext_in. intros i Hi. apply in_seq in Hi.
  assert (INJ : forall ty ty', (ty < length (f_atomic_numbers f))%nat -> (ty' < length (f_atomic_numbers f'))%nat -> nth ty (f_atomic_numbers f) 0%nat = nth ty' (f_atomic_numbers f') 0%nat -> el ty = el' ty').
  { intros ty ty' H1 H2 E. destruct (Hel ty H1) as [P1 P2]. destruct (Hel' ty' H2) as [Q1 Q2]. apply (proj1 (NoDup_nth (t_atomic_numbers t) 0%nat) (to_mn t C HT)); [exact P1|exact Q1|]. rewrite P2, Q2. exact E. }
  assert (LS : forall i0, (i0 < i_num_nodes x)%nat -> (list_sum (firstn i0 (i_num_neigh x)) + nth i0 (i_num_neigh x) 0 <= list_sum (i_num_neigh x))%nat).
  { intros i0 H0. assert (Hl : (i0 < length (i_num_neigh x))%nat) by (rewrite (io_nn _ _ HX); exact H0).
    rewrite <- (firstn_skipn i0 (i_num_neigh x)) at 3. rewrite list_sum_app. rewrite (skipn_at i0 (i_num_neigh x) 0%nat Hl). cbn. lia. }
  apply energy_same with (el := el) (el' := el').
  - intros i0 H0. unfold zi. apply INJ.
    + apply (io_ty _ _ HX), nth_In. rewrite (io_types _ _ HX). exact H0.
    + apply (io_ty _ _ HX'), nth_In. rewrite (io_types _ _ HX'), <- S1. exact H0.
    + apply nth_map_eq; [exact S6|]. rewrite (io_types _ _ HX). exact H0.
  - intros i0 H0. specialize (LS i0 H0). unfold neighbours. rewrite <- S2, <- S3, <- S4, <- S5.
    assert (F : forall (g g' : nat -> nbr) l, (forall p, In p l -> same_nbr el el' (g p) (g' p)) -> Forall2 (same_nbr el el') (map g l) (map g' l)).
    { intros g g' l H. induction l as [|a l IHl]; [constructor|]. cbn. constructor; [apply H; left; reflexivity|]. apply IHl. intros p Hq. apply H. right. exact Hq. }
    apply F. intros p Hp'. apply in_seq in Hp'. unfold same_nbr. cbn [nb_type nb_index nb_x nb_y nb_z nb_r]. split; [|repeat split].
    assert (Lt : (p < length (i_neigh_types x))%nat) by (rewrite (io_nt _ _ HX); lia).
    apply INJ.
    + apply (io_nty _ _ HX), nth_In. exact Lt.
    + apply (io_nty _ _ HX'), nth_In. rewrite (io_nt _ _ HX'), <- S2, <- (io_nt _ _ HX). exact Lt.
    + apply nth_map_eq; [exact S7|exact Lt].
  - intros i0 e H0 He. specialize (LS i0 H0). unfold neighbours in He. apply in_map_iff in He. destruct He as (p & <- & Hp'). apply in_seq in Hp'. cbn [nb_index].
    apply (io_ix _ _ HX), nth_In. rewrite (io_idx _ _ HX). lia.
  - lia.
Qed.

(** ** repeated species *)
Lemma incr_suffix p l : incr (p ++ l) -> incr l.
Proof. induction p as [|a p IH]; intros H; [exact H|]. apply IH. exact (proj2 H). Qed.
Lemma pairs_suffix (W : list nat) : incr W -> forall l p, W = p ++ l ->
  (length l * (length l + 1) <= 2 * length (flat_map (fun a => flat_map (fun b => if (b <? a)%nat then [] else [(a, b)]) W) l))%nat.
Proof.
  intros HW l. induction l as [|a l IH]; intros p E; [cbn; lia|]. specialize (IH (p ++ [a])). rewrite <- app_assoc in IH. specialize (IH E). cbn [flat_map length]. rewrite app_length.
  assert (L : (S (length l) <= length (flat_map (fun b => if (b <? a)%nat then [] else [(a, b)]) W))%nat).
  { rewrite E in HW. apply incr_suffix in HW. rewrite E, flat_map_app, app_length.
    assert (Q : forall l0, (forall b, In b l0 -> (a <= b)%nat) -> length (flat_map (fun b => if (b <? a)%nat then [] else [(a, b)]) l0) = length l0).
    { clear. induction l0 as [|b l0 IH]; intros H; [reflexivity|]. cbn [flat_map]. rewrite app_length, IH by (intros; apply H; right; assumption).
      replace (b <? a)%nat with false by (symmetry; apply Nat.ltb_ge, H; left; reflexivity). reflexivity. }
    rewrite (Q (a :: l)); [cbn; lia|]. intros b [<-|Hb]; [lia|]. apply (proj1 HW). exact Hb. }
  nia.
Qed.
Lemma lemma_C70 : forall rank inv spl t C, torch_ok t C -> spl_ok spl -> (t_num_channels t <= rank (t_num_channels t) (fused t))%nat ->
  forall species points, species <> [] -> incl species (t_atomic_numbers t) -> (2 <= points)%nat ->
  exists f, extract_mace_data rank inv spl t species points = Some f /\ file_ok f /\ Permutation (f_atomic_numbers f) species.
Proof.
  intros rank inv spl t C HT Hspl Hrank species points HE HI Hp.
  assert (E : export_numbers t species = sorted species).
  { unfold export_numbers. destruct (sorted species) as [|b l] eqn:E; [|reflexivity]. pose proof (Permutation_length (perm_sorted species)) as L. rewrite E in L. destruct species; [contradiction|discriminate]. }
  assert (HI' : incl (export_numbers t species) (t_atomic_numbers t)) by (rewrite E; intros a Ha; apply HI; eapply Permutation_in; [apply Permutation_sym, perm_sorted|exact Ha]).
  destruct (export_file rank inv spl t C HT Hspl Hrank species points HI') as (b0 & b1 & f & EB & EF & IE). exists f. split; [exact EF|]. split.
  - apply (export_file_ok rank inv spl t C HT Hspl Hrank species points HI') with (b0 := b0) (b1 := b1); [| |lia|exact IE].
    + rewrite E. intros E0. apply HE. apply Permutation_nil. rewrite <- E0. apply Permutation_sym, perm_sorted.
    + rewrite E. apply Nat.div_le_upper_bound; [lia|]. unfold export_pairs. apply pairs_suffix with (p := []); [apply incr_sorted|reflexivity].
  - rewrite (ie_an _ _ _ _ _ _ _ _ _ IE), E. apply Permutation_sym, perm_sorted.
Qed.
