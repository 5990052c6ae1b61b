(** The ASE calculator with an exported file: energies, forces and stress are those of the PyTorch model. *)
From Coq Require Import List Arith ZArith Lia Bool Permutation Sorted Reals Lra.
From Verif Require Import Base BaseLemmas Instances RSums RList GradSums MlpR MlpSpec MpSpec MaceModel MaceSpec MaceSpec2 MaceLoad MaceThms MaceGradSpec MaceForces
  AseModel AseSpec AseThms AseGrad ExportModel ExportSpec ExportProofs ExportPolySpec EnergySpec EnergyProofs ExportFullModel TorchSpec TorchGradSpec ExportFullThms ExportSubset ExportForces.
Import ListNotations.
Local Open Scope R_scope.

Lemma species_of_in nums Z : In Z nums -> exists t, species_of nums Z t.
Proof.
  induction nums as [|a nums IH]; intros H; [destruct H|]. destruct (Nat.eq_dec a Z) as [->|Ha].
  - exists 0%nat. split; [reflexivity|]. intros t' Ht. lia.
  - destruct H as [H|H]; [contradiction|]. destruct (IH H) as (t & E & M). exists (S t). split; [exact E|]. intros [|t'] Ht; cbn; [congruence|]. apply M. lia.
Qed.
Lemma species_map_ex nums numbers : incl numbers nums -> exists types, species_map nums numbers types.
Proof.
  induction numbers as [|Z numbers IH]; intros H.
  - exists []. split; [reflexivity|]. intros [|a] Z t E; discriminate.
  - destruct IH as (types & L & M); [intros a Ha; apply H; right; exact Ha|]. destruct (species_of_in nums Z) as (t & Ht); [apply H; left; reflexivity|].
    exists (t :: types). split; [cbn; congruence|]. intros [|a] Z' t' E E'; cbn in E, E'; [injection E as <-; injection E' as <-; exact Ht|]. apply (M a); assumption.
Qed.

(** the same structure with types numbered differently *)
Section Relabel.
Variables (numbers ft tt il jl : list nat) (el : nat -> nat).
Hypothesis NL : nl_ok (length numbers) il jl.
Hypothesis Hne : il <> [].
Hypothesis Hlast : S (list_max il) = length numbers.
Hypothesis Lf : length ft = length numbers.
Hypothesis Lt : length tt = length numbers.
Hypothesis Hel : forall a, (a < length numbers)%nat -> el (nth a ft 0%nat) = nth a tt 0%nat.
Notation n := (length numbers).

Lemma nn_sum : list_sum (map (count_occ Nat.eq_dec il) (seq 0 n)) = length il.
Proof. rewrite <- Hlast. apply (sum_nn numbers il jl NL). Qed.
Lemma jl_n a : In a jl -> (a < n)%nat.
Proof. intros H. rewrite <- Hlast. exact (jl_lt numbers il jl NL a H). Qed.
Lemma nn_le i : (i < n)%nat -> (list_sum (firstn i (map (count_occ Nat.eq_dec il) (seq 0 n))) + nth i (map (count_occ Nat.eq_dec il) (seq 0 n)) 0 <= length jl)%nat.
Proof.
  intros Hi. rewrite (nl_len _ _ _ NL), <- nn_sum. apply (seg_le (map (count_occ Nat.eq_dec il) (seq 0 n)) i). rewrite map_length, seq_length. exact Hi.
Qed.
Variables (sph : nat -> R -> R -> R -> list R * list R) (spl : list R -> list R -> list R * list R) (points : nat) (t : torch_model RNum) (r xyz : list R).
Notation x := (nl_input (N:=RNum) n ft il jl r xyz).
Notation x' := (nl_input (N:=RNum) n tt il jl r xyz).
Notation id := (fun z : nat => z).
Lemma relabel_zi i : (i < i_num_nodes x)%nat -> zi el x i = zi id x' i.
Proof. cbn [nl_input i_num_nodes]. intros Hi. unfold zi. cbn [nl_input i_node_types]. rewrite !firstn_all2 by lia. apply Hel. exact Hi. Qed.
Lemma relabel_nbr i : (i < i_num_nodes x)%nat -> Forall2 (same_nbr el id) (neighbours x i) (neighbours x' i).
Proof.
  cbn [nl_input i_num_nodes]. intros Hi. pose proof (nn_le i Hi) as L. unfold neighbours. cbn [nl_input i_num_neigh i_neigh_types i_neigh_indices i_xyz i_r].
  assert (F : forall (g g' : nat -> nbr) l, (forall p, In p l -> same_nbr el id (g p) (g' p)) -> Forall2 (same_nbr el id) (map g l) (map g' l)).
  { intros g g' l H. induction l as [|a l IHl]; [constructor|]. cbn. constructor; [apply H; left; reflexivity|]. apply IHl. intros p Hq. apply H. right. exact Hq. }
  apply F. intros p Hp. apply in_seq in Hp. unfold same_nbr. cbn [nb_type nb_index nb_x nb_y nb_z nb_r]. split; [|repeat split].
  assert (Lp : (p < length jl)%nat) by lia.
  assert (E : forall l, nth p (map (fun j => nth j l 0%nat) jl) 0%nat = nth (nth p jl 0%nat) l 0%nat).
  { intros l. rewrite (nth_indep _ 0%nat (nth 0 l 0%nat)) by (rewrite map_length; exact Lp). apply (map_nth (fun j => nth j l 0%nat)). }
  rewrite !E. apply Hel. apply jl_n, nth_In, Lp.
Qed.
Lemma relabel_ix i e : (i < i_num_nodes x)%nat -> In e (neighbours x i) -> (nb_index e < i_num_nodes x)%nat.
Proof.
  cbn [nl_input i_num_nodes]. intros Hi He. pose proof (nn_le i Hi) as L. unfold neighbours in He. cbn [nl_input i_num_neigh i_neigh_types i_neigh_indices i_xyz i_r] in He.
  apply in_map_iff in He. destruct He as (p & <- & Hp). apply in_seq in Hp. cbn [nb_index]. apply jl_n, nth_In. lia.
Qed.
Lemma relabel_energy i : (i < n)%nat -> torch_energy sph spl points t el x i = torch_energy sph spl points t id x' i.
Proof. intros Hi. apply energy_same; [exact relabel_zi|exact relabel_nbr|exact relabel_ix|exact Hi]. Qed.
Lemma relabel_total : torch_total sph spl points t el x = torch_total sph spl points t id x'.
Proof. unfold torch_total. cbn [nl_input i_num_nodes]. apply sum_eq. intros i Hi. apply relabel_energy. exact Hi. Qed.
Lemma relabel_regular : regular spl points t id x' -> regular spl points t el x.
Proof.
  intros [H1 H2]. constructor; [exact H1|]. intros b b' i EB Hi. destruct (H2 b b' i EB Hi) as [A B].
  split; intros E; [apply A|apply B]; (etransitivity; [|exact E]); symmetry; apply denominator_eq; auto using relabel_zi, relabel_nbr.
Qed.
End Relabel.

Lemma strain_0 e D : strain e 0 D = D.
Proof.
  apply (list_eq_nth _ _ 0); [unfold strain; rewrite map_length, seq_length; reflexivity|]. intros k Hk.
  unfold strain in *. rewrite map_length, seq_length in Hk. etransitivity; [apply (nth_tab (length D)); exact Hk|]. ring.
Qed.
Lemma strain_d e D k : (k < length D)%nat ->
  derivable_pt_lim (fun t => nth k (strain e t D) 0) 0 (nth k (tab (length D) (fun k => rsum 3 (fun c => e (k mod 3)%nat c * nth (3 * (k / 3) + c) D 0))) 0).
Proof.
  intros Hk. rewrite nth_tab by exact Hk. apply dlim_ext with (f := fun t => nth k D 0 + t * rsum 3 (fun c => e (k mod 3)%nat c * nth (3 * (k / 3) + c) D 0)).
  - intros t. symmetry. unfold strain. etransitivity; [apply (nth_tab (length D)); exact Hk|]. cbn [rsum]. rewrite Nat.add_0_r. ring.
  - eapply dlim_eq; [|apply dlim_plus; [apply dlim_const|apply dlim_mult; [apply dlim_id|apply dlim_const]]]. cbv beta. ring.
Qed.

Lemma lemma_C72 : forall rank inv spl t C, torch_ok t C -> spl_ok spl -> inv_ok rank inv -> (t_num_channels t <= rank (t_num_channels t) (fused t))%nat -> repulsion_smooth t ->
  forall species points, NoDup species -> incl species (t_atomic_numbers t) -> (2 <= points)%nat -> 1 / 10 ^ 12 < t_r_cut t ->
  exists f, extract_mace_data rank inv spl t species points = Some f /\
    forall sph, sph_ok (N:=RNum) sph -> sph_gradient sph -> forall srt, (forall l, Permutation l (srt l)) ->
    forall numbers types il jl, incl numbers (match species with [] => t_atomic_numbers t | _ => species end) -> species_map (t_atomic_numbers t) numbers types ->
    nl_ok (length numbers) il jl -> il <> [] -> S (list_max il) = length numbers ->
    forall hist V pos sh, List.Forall (input_ok f) hist -> length pos = (3 * length numbers)%nat ->
    let at_vectors xs := nl_input (N:=RNum) (length numbers) types il jl (lengths3 xs) xs in
    let at_positions ps := at_vectors (nl_vectors il jl ps sh) in
    let energy := torch_total sph spl points t (fun z => z) in
    regular spl points t (fun z => z) (at_positions pos) ->
    exists m b0 bh b1 res, load_from_json srt f = Some (m, b0) /\ calls sph m b0 hist = Some bh /\
      calculate sph m bh numbers (Some V) il jl (lengths3 (nl_vectors il jl pos sh)) (nl_vectors il jl pos sh) = Some (b1, res) /\
      res_energies res = map (torch_energy sph spl points t (fun z => z) (at_positions pos)) (seq 0 (length numbers)) /\
      res_energy res = energy (at_positions pos) /\
      (length (res_forces res) = length pos /\
       forall p, (p < length pos)%nat -> derivable_pt_lim (fun u => energy (at_positions (upd pos p u))) (nth p pos 0) (- nth p (res_forces res) 0)) /\
      (V <> 0 -> forall e, (forall a c, e a c = e c a) -> exists xx yy zz yz xz xy, res_stress res = [xx; yy; zz; yz; xz; xy] /\
       derivable_pt_lim (fun s => energy (at_vectors (strain e s (nl_vectors il jl pos sh)))) 0
         (V * (xx * e 0%nat 0%nat + yy * e 1%nat 1%nat + zz * e 2%nat 2%nat + 2 * (yz * e 1%nat 2%nat) + 2 * (xz * e 0%nat 2%nat) + 2 * (xy * e 0%nat 1%nat)))).
Proof.
  intros rank inv spl t C HT Hspl Hinv Hrank HR species points HND HIS Hpts Hr.
  destruct (export_core rank inv spl t C HT Hspl Hinv Hrank species points HND HIS Hpts Hr) as (f & EF & FO & HD & _ & HP & HS & HE).
  exists f. split; [exact EF|]. specialize (HS HR). intros sph Hsph Hgr srt Hsrt numbers tt il jl Hnum SMt NL Hne Hlast hist V pos sh HH Hpos atv atp energy RG.
  assert (HIf : incl (f_atomic_numbers f) (t_atomic_numbers t)).
  { intros a Ha. apply (Permutation_in a HP) in Ha. destruct species; [exact Ha|apply HIS, Ha]. }
  destruct (find_el (t_atomic_numbers t) (f_atomic_numbers f) HIf) as [el Hel]. destruct (HE el Hel) as [HE1 HE2].
  destruct (species_map_ex (f_atomic_numbers f) numbers) as (ft & SMf).
  { intros a Ha. apply (Permutation_in a (Permutation_sym HP)), Hnum, Ha. }
  assert (Hft : forall a, (a < length numbers)%nat -> (nth a ft 0 < length (f_atomic_numbers f))%nat /\ el (nth a ft 0%nat) = nth a tt 0%nat).
  { intros a Ha. destruct SMf as [L1 M1]. destruct SMt as [L2 M2].
    assert (Ha1 : (a < length ft)%nat) by (rewrite L1; exact Ha). assert (Ha2 : (a < length tt)%nat) by (rewrite L2; exact Ha).
    specialize (M1 a (nth a numbers 0%nat) (nth a ft 0%nat) (nth_error_nth' _ _ Ha) (nth_error_nth' ft 0%nat Ha1)).
    specialize (M2 a (nth a numbers 0%nat) (nth a tt 0%nat) (nth_error_nth' _ _ Ha) (nth_error_nth' tt 0%nat Ha2)).
    destruct M1 as [M1 _]. destruct M2 as [M2 _].
    assert (Hl : (nth a ft 0 < length (f_atomic_numbers f))%nat) by (apply nth_error_Some; congruence). split; [exact Hl|].
    destruct (Hel _ Hl) as [E1 E2]. apply (proj1 (NoDup_nth (t_atomic_numbers t) 0%nat) (to_mn t C HT)); [exact E1|apply nth_error_Some; congruence|].
    rewrite E2, (nth_error_nth _ _ 0%nat M1), (nth_error_nth _ _ 0%nat M2). reflexivity. }
  assert (Lf : length ft = length numbers) by apply SMf. assert (Lt : length tt = length numbers) by apply SMt.
  assert (Het : forall a, (a < length numbers)%nat -> el (nth a ft 0%nat) = nth a tt 0%nat) by (intros a Ha; apply (proj2 (Hft a Ha))).
  assert (WX : forall xs, length xs = (3 * length il)%nat -> with_xyz (nl_input (N:=RNum) (S (list_max il)) ft il jl [] []) xs = nl_input (N:=RNum) (length numbers) ft il jl (lengths3 xs) xs).
  { intros xs Hxs. rewrite (with_nl numbers ft il jl NL xs Hxs), Hlast. reflexivity. }
  assert (SUM : list_sum (map (count_occ Nat.eq_dec il) (seq 0 (length numbers))) = length il) by (apply (nn_sum numbers il jl NL Hlast)).
  assert (IOK : input_ok f (nl_input (N:=RNum) (length numbers) ft il jl (lengths3 (nl_vectors il jl pos sh)) (nl_vectors il jl pos sh))).
  { constructor; cbn [nl_input i_num_nodes i_node_types i_num_neigh i_neigh_indices i_neigh_types i_xyz i_r].
    - rewrite firstn_all2 by lia. exact Lf.
    - rewrite map_length, seq_length. reflexivity.
    - rewrite SUM. apply (nl_len _ _ _ NL).
    - rewrite SUM, map_length. apply (nl_len _ _ _ NL).
    - rewrite SUM. unfold lengths3. rewrite map_length, seq_length, length_vectors, (Nat.mul_comm 3). apply Nat.div_mul. lia.
    - rewrite SUM. apply length_vectors.
    - intros ty Hty. rewrite firstn_all2 in Hty by lia. apply (In_nth _ _ 0%nat) in Hty. destruct Hty as (a & Ha & <-). apply Hft. lia.
    - intros ty Hty. apply in_map_iff in Hty. destruct Hty as (j & <- & Hj). apply Hft. apply (jl_n numbers il jl NL Hlast j Hj).
    - intros j Hj. apply (jl_n numbers il jl NL Hlast j Hj).
    - intros r Hr'. apply HD. pose proof (rg_r _ _ _ _ _ RG r Hr'). lra. }
  assert (L0 : length (nl_vectors il jl pos sh) = (3 * length il)%nat) by apply length_vectors.
  set (D0 := nl_vectors il jl pos sh) in *.
  assert (SA : smooth_at f (nl_input (N:=RNum) (S (list_max il)) ft il jl [] []) D0).
  { apply HE2; rewrite WX by exact L0; [exact IOK|]. apply relabel_regular with (tt := tt); auto. }
  (* energies of any configuration *)
  assert (EN : forall m b0 bh, load_from_json srt f = Some (m, b0) -> calls sph m b0 hist = Some bh -> forall xs, length xs = (3 * length il)%nat ->
    input_ok f (with_xyz (nl_input (N:=RNum) (S (list_max il)) ft il jl [] []) xs) -> forall b res, calculate sph m bh numbers (Some V) il jl (lengths3 xs) xs = Some (b, res) ->
    res_energies res = map (torch_energy sph spl points t (fun z => z) (atv xs)) (seq 0 (length numbers)) /\ res_energy res = energy (atv xs)).
  { intros m b0 bh G1 G2 xs Hxs HX b res G3. rewrite WX in HX by exact Hxs.
    assert (HX' : input_ok f (nl_input (N:=RNum) (S (list_max il)) ft il jl (lengths3 xs) xs)) by (rewrite Hlast; exact HX).
    destruct (ase_energies sph Hsph srt Hsrt f FO numbers ft il jl SMf NL Hne hist V _ _ HH HX') as (m' & b0' & bh' & b1' & b2' & res' & Q1 & Q2 & Q3 & Q4 & Q5 & _ & Q7).
    rewrite G1 in Q1. injection Q1 as <- <-. rewrite G2 in Q2. injection Q2 as <-. rewrite G3 in Q3. injection Q3 as <- <-.
    rewrite Hlast in Q4. destruct (HE1 sph Hsph srt Hsrt hist _ HH HX) as (m'' & c0 & c1 & c2 & P1 & P2 & P3 & P4).
    rewrite G1 in P1. injection P1 as <- <-. rewrite G2 in P2. injection P2 as <-. rewrite Q4 in P3. injection P3 as <-.
    assert (A : res_energies res = map (torch_energy sph spl points t (fun z => z) (atv xs)) (seq 0 (length numbers))).
    { rewrite Q5, P4. apply map_ext_in. intros i Hi. apply in_seq in Hi. apply relabel_energy; auto. lia. }
    split; [exact A|]. rewrite Q7, A. etransitivity; [apply fold_nadd|]. rewrite RNum_zero, Rplus_0_l. unfold energy, torch_total. rewrite sum_total. reflexivity. }
  destruct (ase_forces sph Hsph Hgr srt Hsrt f FO HS numbers ft il jl SMf NL Hne hist V pos sh HH Hpos SA) as (m & b0 & bh & b1 & res & A1 & A2 & A3 & A4). fold D0 in A3.
  exists m, b0, bh, b1, res. split; [exact A1|]. split; [exact A2|]. split; [exact A3|].
  destruct (EN m b0 bh A1 A2 D0 L0 (sa_ok _ _ _ SA) b1 res A3) as [B1 B2]. split; [exact B1|]. split; [exact B2|]. split.
  - split; [rewrite Hpos; apply (momentum sph _ _ _ _ _ _ _ _ _ _ A3)|].
    intros p Hp. destruct (A4 p Hp) as (Fp & E & del & C1 & C2 & C3 & C4). apply (nth_error_nth _ _ 0) in C1.
    destruct (local_ok f HS (nl_input (N:=RNum) (S (list_max il)) ft il jl [] []) (fun u => nl_vectors il jl (upd pos p u) sh)
      (tab (3 * length il) (fun k => ind (3 * nth (k / 3) jl 0%nat + k mod 3) p - ind (3 * nth (k / 3) il 0%nat + k mod 3) p)) (nth p pos 0)) as (del2 & Hd2 & Ho).
    { intros u. rewrite length_vectors. cbn [nl_input i_num_neigh]. rewrite Hlast, SUM. reflexivity. }
    { rewrite length_tab. cbn [nl_input i_num_neigh]. rewrite Hlast, SUM. reflexivity. }
    { cbn [nl_input i_num_neigh]. rewrite Hlast, SUM. intros k Hk. rewrite nth_tab by exact Hk. apply vectors_d; [exact Hk|exact Hp]. }
    { rewrite upd_same. exact SA. }
    apply (dlim_local E _ _ _ (Rmin del del2)); [|apply Rmin_case; assumption|].
    + eapply dlim_eq; [|exact C4]. f_equal. symmetry. exact C1.
    + intros u Hu. assert (H1 : Rabs (u - nth p pos 0) < del) by (eapply Rlt_le_trans; [exact Hu|apply Rmin_l]).
      assert (H2 : Rabs (u - nth p pos 0) < del2) by (eapply Rlt_le_trans; [exact Hu|apply Rmin_r]).
      destruct (C3 u H1) as (b & r' & C5 & ->). apply (EN m b0 bh A1 A2 _ (length_vectors _ _ _ _) (Ho u H2) b r' C5).
  - intros HV e He.
    destruct (ase_strain sph Hsph Hgr srt Hsrt f FO HS numbers ft il jl SMf NL Hne hist V e D0 HH HV He L0 SA) as (m' & b0' & bh' & b1' & res' & E & del & Q1 & Q2 & Q3 & Q4 & Q5 & Q6).
    rewrite A1 in Q1. injection Q1 as <- <-. rewrite A2 in Q2. injection Q2 as <-.
    assert (Q3' : Some (b1, res) = Some (b1', res')) by (etransitivity; [symmetry; exact A3|exact Q3]). injection Q3' as <- <-.
    destruct Q6 as (xx & yy & zz & yz & xz & xy & Q6 & Q7). exists xx, yy, zz, yz, xz, xy. split; [exact Q6|].
    assert (LD : forall s, length (strain e s D0) = (3 * length il)%nat) by (intros s; unfold strain; rewrite map_length, seq_length; exact L0).
    destruct (local_ok f HS (nl_input (N:=RNum) (S (list_max il)) ft il jl [] []) (fun s => strain e s D0)
      (tab (length D0) (fun k => rsum 3 (fun c => e (k mod 3)%nat c * nth (3 * (k / 3) + c) D0 0))) 0) as (del2 & Hd2 & Ho).
    { intros u. rewrite LD. cbn [nl_input i_num_neigh]. rewrite Hlast, SUM. reflexivity. }
    { rewrite length_tab. cbn [nl_input i_num_neigh]. rewrite Hlast, SUM. exact L0. }
    { cbn [nl_input i_num_neigh]. rewrite Hlast, SUM. intros k Hk. apply strain_d. rewrite L0. exact Hk. }
    { rewrite strain_0. exact SA. }
    apply (dlim_local E _ _ _ (Rmin del del2)); [exact Q7|apply Rmin_case; assumption|].
    intros u Hu. assert (H1 : Rabs u < del) by (eapply Rlt_le_trans; [rewrite Rminus_0_r in Hu; exact Hu|apply Rmin_l]).
    assert (H2 : Rabs (u - 0) < del2) by (eapply Rlt_le_trans; [exact Hu|apply Rmin_r]).
    destruct (Q5 u H1) as (b & r' & C5 & ->). apply (EN m b0 bh A1 A2 _ (LD u) (Ho u H2) b r' C5).
Qed.
