(** The evaluator computes the formula of EnergySpec. *)
From Coq Require Import List Arith ZArith Lia Bool Permutation Reals Lra.
From Verif Require Import Base BaseLemmas Segs Instances BlasLemmas RSums RList SplineModel SplineProofs SplineR MpModel MpSpec MpProofs MpR MlpModel MlpProofs MlpSpec MlpR
  ZblModel ZblR MaceModel Sys SysLoops MaceGrid MacePure MaceStages1 MaceStages4 MaceStages6 MacePipe MaceSpec MaceSpec2 MaceLoad MaceFlat MaceThms MaceTab
  ExportSpec ExportProofs ExportPolySpec ExportPoly EnergySpec.
Import ListNotations.
Local Open Scope R_scope.

Lemma suml_rl {A} (l : list A) g : suml l g = rl l g.
Proof. unfold suml, rl. induction l as [|a l IH]; [reflexivity|]. exact (f_equal (Rplus (g a)) IH). Qed.
Lemma Rdiv_1 (a : R) : a / 1 = a.
Proof. field. Qed.
Lemma Rmult_0_half a : a * (1 / 2 * 0) = 0.
Proof. ring. Qed.
Lemma sum_rsum n g : sum n g = rsum n g.
Proof. rewrite sum_rl. apply rl_seq. Qed.

Lemma dot_rsum u v : length u = length v -> dotR u v = rsum (length u) (fun k => nth k u 0 * nth k v 0).
Proof.
  revert v. induction u as [|a u IH]; intros [|b v] H; try discriminate; [reflexivity|]. cbn [length]. rewrite rsum_shift. cbn [nth].
  rewrite <- IH by (cbn in H; lia). reflexivity.
Qed.
Lemma nth_firstn_lt {A} (l : list A) k j d : (j < k)%nat -> nth j (firstn k l) d = nth j l d.
Proof. revert k j. induction l as [|a l IH]; intros [|k] [|j] H; cbn; auto; try lia. apply IH. lia. Qed.
Lemma nth_skipn_add {A} (l : list A) k j d : nth j (skipn k l) d = nth (k + j) l d.
Proof. revert l. induction k as [|k IH]; intros l; [reflexivity|]. destruct l as [|a l]; [destruct j; reflexivity|]. cbn [skipn Nat.add nth]. apply IH. Qed.
(** ** pairs *)
Lemma nodup_app {A} (l1 l2 : list A) : NoDup l1 -> NoDup l2 -> (forall a, In a l1 -> ~ In a l2) -> NoDup (l1 ++ l2).
Proof.
  intros H1 H2 H. induction H1 as [|a l Ha Hl IH]; [exact H2|]. cbn. constructor.
  - rewrite in_app_iff. intros [G|G]; [auto|apply (H a); [left; auto|auto]].
  - apply IH. intros b Hb. apply H. right. auto.
Qed.
Lemma upairs_nodup n : NoDup (upairs n).
Proof.
  unfold upairs. assert (G : forall l, NoDup l -> NoDup (flat_map (fun a => map (pair a) (seq a (n - a))) l)).
  { induction l as [|a l IH]; intros H; [constructor|]. inversion H as [|a' l' H1 H2 E1]; subst. cbn [flat_map].
    apply nodup_app; [|apply IH; auto|].
    - apply FinFun.Injective_map_NoDup; [intros u v E; injection E; auto|apply seq_NoDup].
    - intros [u v] Hu Hv. apply in_map_iff in Hu. destruct Hu as (w & E & _). injection E as <- _.
      apply in_flat_map in Hv. destruct Hv as (b & Hb & Hv). apply in_map_iff in Hv. destruct Hv as (w' & E & _). injection E as -> _. auto. }
  apply G, seq_NoDup.
Qed.
Lemma find_combine {A} (l : list (nat * nat)) (tabs : list A) q p d : NoDup l -> nth_error l q = Some p -> (q < length tabs)%nat ->
  find (fun e => (fst (fst e) =? fst p)%nat && (snd (fst e) =? snd p)%nat)%bool (combine l tabs) = Some (p, nth q tabs d).
Proof.
  revert tabs q. induction l as [|a l IH]; intros tabs q Hn Hq Hl; [destruct q; discriminate|].
  destruct tabs as [|b tabs]; [cbn in Hl; lia|]. inversion Hn as [|a' l' H1 H2 E1]; subst. destruct q as [|q].
  - injection Hq as ->. cbn. rewrite !Nat.eqb_refl. reflexivity.
  - cbn [combine find fst snd]. destruct (Nat.eqb_spec (fst a) (fst p)); destruct (Nat.eqb_spec (snd a) (snd p)); cbn [andb].
    + exfalso. apply H1. assert (a = p) as -> by (destruct a, p; cbn in *; congruence). eapply nth_error_In, Hq.
    + cbn in Hl. rewrite (IH tabs q H2 Hq) by lia. reflexivity.
    + cbn in Hl. rewrite (IH tabs q H2 Hq) by lia. reflexivity.
    + cbn in Hl. rewrite (IH tabs q H2 Hq) by lia. reflexivity.
Qed.
Lemma pair_entry_nth {A} (d : A) (f : mace_file RNum) tabs t u : (t < length (f_atomic_numbers f))%nat -> (u < length (f_atomic_numbers f))%nat ->
  (tyij (ldm f) t u < length tabs)%nat -> pair_entry d (length (f_atomic_numbers f)) tabs t u = nth (tyij (ldm f) t u) tabs d.
Proof.
  intros Ht Hu Hq. unfold pair_entry. pose proof (tyij_upairs (ldm f) t u Ht Hu) as E.
  change (m_atomic_numbers (ldm f)) with (f_atomic_numbers f) in E.
  pose proof (find_combine _ tabs _ _ d (upairs_nodup _) E Hq) as G. cbn [fst snd] in G. rewrite G. reflexivity.
Qed.

(** ** splines *)
Lemma csv_hermite (h : R) (vs ds : list R) (r : R) : h <> 0 -> in_cells (N:=RNum) h (length vs) r ->
  csv (N:=RNum) (spl (N:=RNum) h vs ds) r = hermite h vs ds r.
Proof.
  intros Hh HH. unfold in_cells in HH. cbn [ntrunc ndiv RNum] in HH. destruct HH as [H0 H1].
  set (q := Z.to_nat (Rtrunc (r / h))).
  assert (Hq : Rtrunc (r / h) = Z.of_nat q). { unfold q; rewrite Z2Nat.id. reflexivity. exact H0. }
  destruct (cs_all_ok (N:=RNum) h vs ds r q Hq) as (_ & E & _); [change (q < length vs - 1)%nat; lia|].
  unfold csv. rewrite E. unfold hermite.
  assert (Eq : Z.to_nat (Int_part (r / h)) = q).
  { unfold q, Rtrunc. destruct (Rle_dec 0 (r / h)) as [Hp|Hp]; [reflexivity|]. unfold Rtrunc in H0. destruct (Rle_dec 0 (r / h)); [contradiction|].
    destruct (base_Int_part (r / h)) as [A B]. destruct (base_Int_part (- (r / h))) as [A' B'].
    assert (Int_part (- (r / h)) = 0)%Z as ->.
    { assert (0 <= Int_part (- (r / h)))%Z; [|lia]. assert (-1 < Int_part (- (r / h)))%Z; [|lia]. apply lt_IZR. lra. }
    assert (Int_part (r / h) < 0)%Z by (apply lt_IZR; lra). destruct (Int_part (r / h)); cbn; lia. }
  rewrite Eq. unfold SplineProofs.pval, hco, vfun. rewrite (RNum_ofZ (-3)), (RNum_ofZ 2), (RNum_ofZ 3), RNum_ofnat, RNum_zero.
  cbn [nadd nmul nsub ndiv RNum carrier]. match goal with |- ?a = ?b => change (@eq R a b) end. change (carrier RNum) with R. cbv zeta. field. exact Hh.
Qed.

(** ** systems *)
Definition edge_of (e : nbr) : edge RNum := mkEdge (nb_type e) (nb_index e) (nb_x e) (nb_y e) (nb_z e) (nb_r e).
Lemma unflat_nth {N : Num} ts : forall nns (E : list (edge N)) i, (i < length ts)%nat -> length nns = length ts ->
  nth i (unflat ts nns E) (mkNode 0 []) = mkNode (nth i ts 0%nat) (firstn (nth i nns 0%nat) (skipn (list_sum (firstn i nns)) E)).
Proof.
  induction ts as [|t ts IH]; intros nns E i Hi HL; [cbn in Hi; lia|]. destruct nns as [|n nns]; [discriminate|].
  destruct i as [|i]; [reflexivity|]. cbn in Hi, HL. cbn [unflat nth firstn].
  rewrite IH by lia. change (list_sum (n :: firstn i nns)) with (n + list_sum (firstn i nns))%nat.
  rewrite skipn_skipn'. reflexivity.
Qed.
Lemma firstn_skipn_seq n a b : (a + b <= n)%nat -> firstn b (skipn a (seq 0 n)) = seq a b.
Proof.
  intros H. replace n with (a + (b + (n - a - b)))%nat by lia. rewrite !seq_app.
  rewrite skipn_app, skipn_all2 by (rewrite seq_length; lia). rewrite seq_length, Nat.sub_diag. cbn [skipn app].
  rewrite firstn_app, firstn_all2 by (rewrite seq_length; lia). rewrite seq_length, Nat.sub_diag. cbn [firstn]. apply app_nil_r.
Qed.
Lemma seg_le nns i : (i < length nns)%nat -> (list_sum (firstn i nns) + nth i nns 0 <= list_sum nns)%nat.
Proof.
  revert i. induction nns as [|n nns IH]; intros i Hi; [cbn in Hi; lia|]. destruct i as [|i]; cbn [firstn nth].
  - change (list_sum (n :: nns)) with (n + list_sum nns)%nat. cbn. lia.
  - cbn in Hi. specialize (IH i ltac:(lia)). change (list_sum (n :: firstn i nns)) with (n + list_sum (firstn i nns))%nat.
    change (list_sum (n :: nns)) with (n + list_sum nns)%nat. lia.
Qed.

Lemma mlp_formula (c : R) K (w1 w2 : list R) (g : nat -> R) : length w1 = (K * 16)%nat -> length w2 = 16%nat ->
  nth 0 (network c [chunks K 16 w1; [w2]] (tab K g)) 0 =
  sum 16 (fun j => nth j w2 0 * silu c (sum K (fun k => nth (j * K + k) w1 0 * g k))).
Proof.
  intros La Lb. cbn [network map nth].
  rewrite dot_rsum by (rewrite !map_length, length_chunks; exact Lb). rewrite Lb, sum_rsum. apply rsum_ext. intros j Hj. f_equal.
  rewrite (nth_indep _ 0 (silu c 0)) by (rewrite !map_length, length_chunks; exact Hj).
  rewrite map_nth. f_equal. 
  rewrite (nth_indep _ 0 (dotR [] (tab K g))) by (rewrite map_length, length_chunks; exact Hj).
  rewrite (map_nth (fun row => dotR row (tab K g)) (chunks K 16 w1) []).
  assert (Lr : length (nth j (chunks K 16 w1) []) = K).
  { eapply rows_chunks; [exact La|]. apply nth_In. rewrite length_chunks. exact Hj. }
  rewrite dot_rsum by (rewrite Lr; symmetry; apply length_tab). rewrite Lr, sum_rsum. apply rsum_ext. intros k Hk.
  rewrite nth_tab by auto. f_equal. unfold chunks.
  rewrite (nth_indep _ [] (firstn K (skipn (0 * K) w1))) by (rewrite map_length, seq_length; exact Hj).
  rewrite (map_nth (fun i => firstn K (skipn (i * K) w1))), seq_nth by exact Hj. cbn [Nat.add].
  rewrite nth_firstn_lt by exact Hk. apply nth_skipn_add.
Qed.

Section Energy.
Variable sph : nat -> R -> R -> R -> list R * list R.
Variable srt : list (list (list nat)) -> list (list (list nat)).
Hypothesis Hsrt : forall l, Permutation l (srt l).
Variable f : mace_file RNum.
Hypothesis F : file_ok f.
Hypothesis Hh : f_radial_spline_h f <> 0.
Hypothesis Hh0 : f_A0_scaled f = true -> f_A0_spline_h f <> 0.
Hypothesis Hh1 : f_A1_scaled f = true -> f_A1_spline_h f <> 0.
Hypothesis Hm : monomials_once f.
Variable x : input RNum.
Hypothesis Hx : input_ok f x.
Notation T := (length (f_atomic_numbers f)).
Notation K := (f_num_channels f).
Notation lmax := (f_l_max f).
Notation n := (i_num_nodes x).
Notation s := (sys_of x).
Notation m := (ldm f).
Notation tp := (tp x).

Lemma nd_of i : (i < n)%nat -> nd_ s i = mkNode (tp i) (map edge_of (neighbours x i)).
Proof.
  intros Hi. unfold nd_, sys_of. pose proof (io_types _ _ Hx) as H1. pose proof (io_nn _ _ Hx) as H2.
  rewrite unflat_nth by congruence. unfold edges_of, neighbours, tp. f_equal.
  rewrite skipn_map, firstn_map, firstn_skipn_seq by (apply seg_le; lia).
  rewrite map_map. reflexivity.
Qed.
Lemma ty_of i : (i < n)%nat -> ty s i = tp i.
Proof. intros Hi. unfold ty. rewrite nd_of by auto. reflexivity. Qed.
Lemma es_of i : (i < n)%nat -> es s i = map edge_of (neighbours x i).
Proof. intros Hi. unfold es. rewrite nd_of by auto. reflexivity. Qed.
Lemma tp_lt i : (i < n)%nat -> (tp i < T)%nat.
Proof. intros Hi. apply (io_ty _ _ Hx). apply nth_In. rewrite (io_types _ _ Hx). auto. Qed.
Lemma nbr_ok i e : (i < n)%nat -> In e (neighbours x i) -> (nb_type e < T)%nat /\ (nb_index e < n)%nat /\ in_domain f (nb_r e).
Proof.
  intros Hi He. unfold neighbours in He. apply in_map_iff in He. destruct He as (p & <- & Hp). apply in_seq in Hp.
  pose proof (seg_le (i_num_neigh x) i ltac:(rewrite (io_nn _ _ Hx); auto)) as L. cbn [nb_type nb_index nb_r].
  split; [|split].
  - apply (io_nty _ _ Hx). apply nth_In. rewrite (io_nt _ _ Hx). lia.
  - apply (io_ix _ _ Hx). apply nth_In. rewrite (io_idx _ _ Hx). lia.
  - apply (io_dom _ _ Hx). apply nth_In. rewrite (io_r _ _ Hx). lia.
Qed.

Lemma tyij_le t u : (t < T)%nat -> (u < T)%nat -> (tyij m t u < T * (T + 1) / 2)%nat.
Proof. intros Ht Hu. apply (tyij_lt m t u Ht Hu). Qed.

(** a table of the radial set *)
Lemma table c vals ders t u r p : radial_ok T c vals ders -> (t < T)%nat -> (u < T)%nat -> (p < c)%nat ->
  (forall v row, In v vals -> In row v -> in_cells (N:=RNum) (f_radial_spline_h f) (length row) r) ->
  setv (N:=RNum) (nth (tyij m t u) (ld_set f vals ders) dset) r p =
  hermite (f_radial_spline_h f) (nth p (pair_entry [] T vals t u) []) (nth p (pair_entry [] T ders t u) []) r.
Proof.
  intros (H1 & H2 & H3) Ht Hu Hp D. pose proof (tyij_le t u Ht Hu) as Hq.
  rewrite !pair_entry_nth by (auto; lia). set (q := tyij m t u) in *. rewrite nth_set by lia.
  destruct (H3 q ltac:(lia)) as (kn & Hk & L1 & L2 & R1 & R2).
  assert (Hr : length (nth 0 (nth q vals []) []) = kn) by (apply R1, nth_In; lia). rewrite Hr.
  assert (Hi : in_cells (N:=RNum) (f_radial_spline_h f) (length (nth p (nth q vals []) [])) r).
  { apply (D (nth q vals [])); apply nth_In; lia. }
  assert (Hkn : length (nth p (nth q vals []) []) = kn) by (apply R1, nth_In; lia).
  rewrite (proj1 (setv_csv (f_radial_spline_h f) (nth q vals []) (nth q ders []) kn r p ltac:(rewrite Hkn in Hi; exact Hi) ltac:(rewrite L1; exact Hp) Hkn)).
  apply csv_hermite; auto.
Qed.
Lemma table1 h vals ders t u r : h <> 0 -> density_ok T vals ders -> (t < T)%nat -> (u < T)%nat ->
  (forall row, In row vals -> in_cells (N:=RNum) h (length row) r) ->
  csv (N:=RNum) (nth (tyij m t u) (ld_spl h vals ders) dspl) r = hermite h (pair_entry [] T vals t u) (pair_entry [] T ders t u) r.
Proof.
  intros Hh' (H1 & H2 & H3) Ht Hu D. pose proof (tyij_le t u Ht Hu) as Hq.
  rewrite !pair_entry_nth by (auto; lia). rewrite nth_spls by lia. apply csv_hermite; auto. apply D, nth_In. lia.
Qed.

Lemma R0_of i e l k : (i < n)%nat -> In e (neighbours x i) -> (l <= lmax)%nat -> (k < K)%nat ->
  R0v (N:=RNum) m s i (edge_of e) (l * K + k) = radial0 f (tp i) (nb_type e) (nb_r e) l k.
Proof.
  intros Hi He Hl Hk. destruct (nbr_ok i e Hi He) as (Hu & _ & D). unfold R0v, set0. rewrite ty_of by auto.
  apply (table ((lmax + 1) * K)); auto; [apply (fo_R0 _ F)|apply tp_lt; auto|nia|]. apply D.
Qed.
Lemma R1_of i e le k : (i < n)%nat -> In e (neighbours x i) -> (le < length (f_Phi1_l f))%nat -> (k < K)%nat ->
  R1v (N:=RNum) m s i (edge_of e) (le * K + k) = radial1 f (tp i) (nb_type e) (nb_r e) le k.
Proof.
  intros Hi He Hl Hk. destruct (nbr_ok i e Hi He) as (Hu & _ & D). unfold R1v, set1. rewrite ty_of by auto.
  apply (table (length (f_Phi1_l f) * K)); auto; [apply (fo_R1 _ F)|apply tp_lt; auto|nia|]. apply D.
Qed.
Lemma Y_of i e l mm : Yv (N:=RNum) sph m i (edge_of e) (l * l + mm) = Ylm sph f e l mm.
Proof.
  unfold Yv, Ylm, at_, ynorm, edge_of. cbn [e_x e_y e_z]. rewrite !RNum_ofZ, RNum_zero. cbn [nmul nsqrt npi RNum carrier]. change (m_l_max m) with lmax. ring.
Qed.
Lemma sqrt_lm l mm : (mm < 2 * l + 1)%nat -> Nat.sqrt (l * l + mm) = l.
Proof. intros H. apply Nat.sqrt_unique. nia. Qed.
Lemma lm_split lm L : (lm < (L + 1) * (L + 1))%nat -> exists l mm, (l <= L)%nat /\ (mm < 2 * l + 1)%nat /\ lm = (l * l + mm)%nat.
Proof.
  intros H. exists (Nat.sqrt lm), (lm - Nat.sqrt lm * Nat.sqrt lm)%nat. pose proof (Nat.sqrt_spec lm ltac:(lia)) as S. cbv zeta in S. nia.
Qed.

Lemma phi0_of i l mm k : (i < n)%nat -> (l <= lmax)%nat -> (mm < 2 * l + 1)%nat -> (k < K)%nat ->
  phi0 (N:=RNum) m s (R0v m s) (Yv sph m) i (l * l + mm) k = Phi0 sph f x i l mm k.
Proof.
  intros Hi Hl Hm' Hk. unfold phi0, Phi0. rewrite suml_rl, nfold_rl0, es_of, rl_map by auto. apply rl_ext. intros e He.
  rewrite sqrt_lm by auto. change (m_num_channels m) with K. rewrite R0_of, Y_of by auto.
  unfold at_. rewrite RNum_zero. reflexivity.
Qed.
Lemma sc0_of i : (i < n)%nat -> f_A0_scaled f = true ->
  sc0 (N:=RNum) m s i = 1 + suml (neighbours x i) (fun e => density0 f (tp i) (nb_type e) (nb_r e)).
Proof.
  intros Hi E. unfold sc0. rewrite nfold_rl. rewrite (suml_rl (neighbours x i)). rewrite (es_of i Hi). rewrite rl_map. change (@none RNum) with 1. f_equal. apply rl_ext. intros e He.
  destruct (nbr_ok i e Hi He) as (Hu & _ & D). unfold spl0. cbn [ldm m_A0_splines]. rewrite E, ty_of by auto.
  apply table1; auto; [apply (fo_A0s _ F E)|apply tp_lt; auto|]. apply D. exact E.
Qed.
Lemma sc1_of i : (i < n)%nat -> f_A1_scaled f = true ->
  sc1 (N:=RNum) m s i = 1 + suml (neighbours x i) (fun e => density1 f (tp i) (nb_type e) (nb_r e)).
Proof.
  intros Hi E. unfold sc1. rewrite nfold_rl. rewrite (suml_rl (neighbours x i)). rewrite (es_of i Hi). rewrite rl_map. change (@none RNum) with 1. f_equal. apply rl_ext. intros e He.
  destruct (nbr_ok i e Hi He) as (Hu & _ & D). unfold spl1. cbn [ldm m_A1_splines]. rewrite E, ty_of by auto.
  apply table1; auto; [apply (fo_A1s _ F E)|apply tp_lt; auto|]. apply D. exact E.
Qed.
Lemma A0_of i l mm k : (i < n)%nat -> (l <= lmax)%nat -> (mm < 2 * l + 1)%nat -> (k < K)%nat ->
  pA0 (N:=RNum) sph m s i (l * l + mm) k = A0 sph f x i l mm k.
Proof.
  intros Hi Hl Hm' Hk. unfold pA0, A0.
  assert (E : mulW0 (N:=RNum) m s (phi0 m s (R0v m s) (Yv sph m)) i (l * l + mm) k =
     sum K (fun q => Phi0 sph f x i l mm q * nth (q * K + k) (nth l (nth (tp i) (f_A0_weights f) []) []) 0)).
  { unfold mulW0. rewrite nsum_rsum, sum_rsum. apply rsum_ext. intros q Hq. change (m_num_channels m) with K in *. rewrite phi0_of by auto.
    unfold W0. rewrite sqrt_lm, ty_of by auto. unfold at_. rewrite RNum_zero. reflexivity. }
  unfold odivs. cbn [ldm m_A0_scaled]. destruct (bool_dec (f_A0_scaled f) true) as [Es|Es]; [|apply not_true_is_false in Es]; rewrite Es.
  - unfold divs. rewrite E, sc0_of by auto. reflexivity.
  - rewrite E. symmetry. apply Rdiv_1.
Qed.

Lemma xcol_all (g : nat -> nat -> nat -> R) (h : nat -> nat -> R) i k :
  (forall l mm, (l <= lmax)%nat -> (mm < 2 * l + 1)%nat -> g i (l * l + mm)%nat k = h l mm) ->
  xcol (N:=RNum) m g i k = all_lm f h.
Proof.
  intros H. unfold xcol, all_lm, num_lm. cbn [ldm m_l_max].
  assert (G : forall L, (forall l mm, (l < L)%nat -> (mm < 2 * l + 1)%nat -> g i (l * l + mm)%nat k = h l mm) ->
    tab (L * L) (fun lm => g i lm k) = flat_map (fun l => map (h l) (seq 0 (2 * l + 1))) (seq 0 L)).
  { induction L as [|L IH]; intros HL; [reflexivity|]. rewrite seq_S, flat_map_app, <- IH by (intros; apply HL; lia). cbn [flat_map Nat.add]. rewrite app_nil_r.
    assert (ES : (S L * S L = L * L + (2 * L + 1))%nat) by lia. rewrite ES. unfold tab. rewrite seq_app, map_app. f_equal.
    clear IH. assert (Q : forall c a, (a + c <= 2 * L + 1)%nat -> map (fun lm => g i lm k) (seq (L * L + a) c) = map (h L) (seq a c)).
    { induction c as [|c IHc]; intros a Ha; [reflexivity|]. cbn [seq map]. f_equal; [apply HL; lia|].
      replace (S (L * L + a)) with (L * L + S a)%nat by lia. apply IHc. lia. }
    specialize (Q (2 * L + 1)%nat 0%nat ltac:(lia)). rewrite Nat.add_0_r in Q. exact Q. }
  apply G. intros l mm Hl Hmm. apply H; lia.
Qed.
Lemma length_all (h : nat -> nat -> R) : length (all_lm f h) = ((lmax + 1) * (lmax + 1))%nat.
Proof.
  rewrite <- (xcol_all (fun _ lm _ => h (Nat.sqrt lm) (lm - Nat.sqrt lm * Nat.sqrt lm)%nat) h 0 0).
  - unfold xcol. rewrite length_tab. reflexivity.
  - intros l mm Hl Hmm. cbv beta. rewrite sqrt_lm by auto. f_equal. lia.
Qed.

Lemma mkp_val cs ms xs : monos_ok ((lmax + 1) * (lmax + 1)) ms -> length cs = length ms -> NoDup ms -> length xs = ((lmax + 1) * (lmax + 1))%nat ->
  MpProofs.pval (N:=RNum) (mkp srt f cs ms) xs = poly cs ms xs.
Proof.
  intros H1 H2 H3 H4. destruct (mkp_ok srt Hsrt f cs ms H1 H2) as [E _].
  rewrite (built_pval srt Hsrt _ cs ms H1 H2 _ xs E H4). rewrite first_terms_nodup; auto.
Qed.
Lemma nth_flat_const {A B} (g : A -> list B) l c i j a d : (forall a, length (g a) = c) -> nth_error l i = Some a -> (j < c)%nat ->
  nth (i * c + j) (flat_map g l) d = nth j (g a) d.
Proof.
  intros Hc Hi Hj. apply nth_error_nth. rewrite (nth_error_flat_map_const g l c i j a); auto. apply nth_error_nth'. rewrite Hc. auto.
Qed.
Lemma seq_error i k : (i < k)%nat -> nth_error (seq 0 k) i = Some i.
Proof. intros H. rewrite (nth_error_nth' _ 0%nat) by (rewrite seq_length; auto). rewrite seq_nth; auto. Qed.
Lemma ldp0_at a lm k : (a < T)%nat -> (lm < (f_L_max f + 1) * (f_L_max f + 1))%nat -> (k < K)%nat ->
  ldp0 srt f (a * ((f_L_max f + 1) * (f_L_max f + 1)) * K + (lm * K + k)) = mkp srt f (f_M0_weights f a lm k) (f_M0_monomials f lm).
Proof.
  intros Ha Hl Hk. unfold ldp0, ldP0. set (LM := ((f_L_max f + 1) * (f_L_max f + 1))%nat) in *.
  replace (a * LM * K + (lm * K + k))%nat with (a * (LM * K) + (lm * K + k))%nat by lia.
  rewrite (nth_flat_const _ _ (LM * K) a (lm * K + k) a); [| |apply seq_error; auto|nia].
  - rewrite (nth_flat_const _ _ K lm k lm); [| |apply seq_error; auto|auto].
    + rewrite (nth_indep _ _ (mkp srt f (f_M0_weights f a lm 0%nat) (f_M0_monomials f lm))) by (rewrite map_length, seq_length; auto).
      rewrite (map_nth (fun k => mkp srt f (f_M0_weights f a lm k) (f_M0_monomials f lm))). rewrite seq_nth by auto. reflexivity.
    + intros b. rewrite map_length, seq_length. reflexivity.
  - intros b. rewrite (length_flat_map_const _ _ K), seq_length; [lia|]. intros; rewrite map_length, seq_length; auto.
Qed.
Lemma ldp1_at a k : (a < T)%nat -> (k < K)%nat -> ldp1 srt f (a * K + k) = mkp srt f (f_M1_weights f a k) (f_M1_monomials f).
Proof.
  intros Ha Hk. unfold ldp1, ldP1. rewrite (nth_flat_const _ _ K a k a); [| |apply seq_error; auto|auto].
  - rewrite (nth_indep _ _ (mkp srt f (f_M1_weights f a 0%nat) (f_M1_monomials f))) by (rewrite map_length, seq_length; auto).
    rewrite (map_nth (fun k => mkp srt f (f_M1_weights f a k) (f_M1_monomials f))). rewrite seq_nth by auto. reflexivity.
  - intros b. rewrite map_length, seq_length. reflexivity.
Qed.
Lemma M0_of i L M k : (i < n)%nat -> (L <= f_L_max f)%nat -> (M < 2 * L + 1)%nat -> (k < K)%nat ->
  pM0 (N:=RNum) sph m (ldp0 srt f) s i (L * L + M) k = M0 sph f x i L M k.
Proof.
  intros Hi HL HM Hk. unfold pM0, m0, M0. change (num_LM m) with ((f_L_max f + 1) * (f_L_max f + 1))%nat. change (m_num_channels m) with K.
  assert (HLM : (L * L + M < (f_L_max f + 1) * (f_L_max f + 1))%nat) by nia.
  rewrite ty_of, ldp0_at by (auto; apply tp_lt; auto).
  rewrite (xcol_all _ (fun l mm => A0 sph f x i l mm k)) by (intros; apply A0_of; auto).
  destruct (fo_M0 _ F (tp i) (L * L + M)%nat k (tp_lt i Hi) HLM Hk) as [Q1 Q2].
  apply mkp_val; auto; [apply (proj1 Hm); auto|apply length_all].
Qed.
Lemma H1_of i L M k : (i < n)%nat -> (L <= f_L_max f)%nat -> (M < 2 * L + 1)%nat -> (k < K)%nat ->
  pH1 (N:=RNum) sph m (ldp0 srt f) s i (L * L + M) k = H1 sph f x i L M k.
Proof.
  intros Hi HL HM Hk. unfold pH1, mulH1, H1. rewrite nsum_rsum, sum_rsum. change (m_num_channels m) with K. apply rsum_ext. intros q Hq.
  rewrite M0_of by auto. rewrite sqrt_lm by auto. unfold WH1, at_. rewrite RNum_zero.
  cbn [nmul RNum carrier]. f_equal. cbn [ldm m_H1_weights]. f_equal. lia.
Qed.
Lemma seq_add b c : forall o, seq (b + o) c = map (Nat.add b) (seq o c).
Proof. induction c as [|c IH]; intros o; [reflexivity|]. cbn [seq map]. rewrite <- IH. do 2 f_equal. lia. Qed.
Lemma H100 i k : (i < n)%nat -> (k < K)%nat -> pH1 (N:=RNum) sph m (ldp0 srt f) s i 0 k = H1 sph f x i 0 0 k.
Proof. intros Hi Hk. apply (H1_of i 0 0 k Hi); auto; lia. Qed.
Lemma columns_paths : paths m = map (fun c => let '(le, m1, m2) := c in
    (le, nth le (f_Phi1_l1 f) 0 * nth le (f_Phi1_l1 f) 0 + m1, nth le (f_Phi1_l2 f) 0 * nth le (f_Phi1_l2 f) 0 + m2)%nat) (columns f).
Proof.
  unfold paths, columns. rewrite map_flat_map. apply flat_map_ext. intros le. unfold paths_at, pl1, pl2. cbn [ldm m_Phi1_l1 m_Phi1_l2].
  rewrite map_flat_map. set (a := nth le (f_Phi1_l1 f) 0%nat). set (b := nth le (f_Phi1_l2 f) 0%nat).
  replace (seq (a * a) (2 * a + 1)) with (map (Nat.add (a * a)) (seq 0 (2 * a + 1))).
  2:{ rewrite <- seq_add, Nat.add_0_r. reflexivity. }
  rewrite flat_map_concat_map, map_map, <- flat_map_concat_map. apply flat_map_ext. intros m1.
  replace (seq (b * b) (2 * b + 1)) with (map (Nat.add (b * b)) (seq 0 (2 * b + 1))).
  2:{ rewrite <- seq_add, Nat.add_0_r. reflexivity. }
  rewrite !map_map. reflexivity.
Qed.
Lemma message_of i c k : (i < n)%nat -> (c < length (columns f))%nat -> (k < K)%nat ->
  pP1r (N:=RNum) sph m (ldp0 srt f) s i c k = message sph f x i (nth c (columns f) (0, 0, 0)%nat) k.
Proof.
  intros Hi Hc Hk. unfold pP1r, phi1r, ple, plm1, plm2, path. rewrite columns_paths.
  set (g := fun c => let '(le, m1, m2) := c in (le, nth le (f_Phi1_l1 f) 0 * nth le (f_Phi1_l1 f) 0 + m1, nth le (f_Phi1_l2 f) 0 * nth le (f_Phi1_l2 f) 0 + m2)%nat).
  rewrite (nth_indep (map g (columns f)) (0, 0, 0)%nat (g (0, 0, 0)%nat)) by (rewrite map_length; auto). rewrite map_nth.
  pose proof (nth_In (columns f) (0, 0, 0)%nat Hc) as Hin. destruct (nth c (columns f) (0, 0, 0)%nat) as [[le m1] m2]. cbn [g fst snd].
  unfold columns in Hin. apply in_flat_map in Hin. destruct Hin as (le' & Hle & Hin). apply in_seq in Hle.
  apply in_flat_map in Hin. destruct Hin as (m1' & Hm1 & Hin). apply in_seq in Hm1. apply in_map_iff in Hin. destruct Hin as (m2' & E & Hm2). apply in_seq in Hm2.
  injection E as -> -> ->. unfold message. rewrite suml_rl, nfold_rl0, es_of, rl_map by auto. apply rl_ext. intros e He.
  destruct (nbr_ok i e Hi He) as (_ & Hj & _). rewrite Y_of. change (m_num_channels m) with K. rewrite R1_of by (auto; lia).
  change (e_idx (edge_of e)) with (nb_index e). rewrite H1_of; [reflexivity|exact Hj|apply (fo_l2_le _ F); lia|lia|exact Hk].
Qed.
Lemma length_columns : length (columns f) = m_num_lelm1lm2 m.
Proof. rewrite (mw_nlel _ (ld_wf f F)), columns_paths, map_length. reflexivity. Qed.
Lemma moff_row l : moff m l = list_sum (map (fun l' => (2 * l' + 1) * npaths f l')%nat (seq 0 l)).
Proof. reflexivity. Qed.
Lemma Phi1_of i l mm e k : (i < n)%nat -> (k < K)%nat ->
  pP1 (N:=RNum) sph m (ldp0 srt f) s i (moff m l + mm * npaths f l + e) k = Phi1 sph f x i l mm e k.
Proof.
  intros Hi Hk. unfold pP1, phi1, Phi1. rewrite nfold_rl0, rl_filter, sum_rl. apply rl_ext. intros p Hp. apply in_seq in Hp.
  cbn [ldm m_Phi1_clebsch_gordan] in Hp. unfold cgl, cgr, cgC, at_. cbn [ldm m_Phi1_clebsch_gordan m_Phi1_lme m_Phi1_lelm1lm2]. fold m.
  rewrite moff_row. fold (row f l mm e). destruct (Nat.eqb_spec (nth p (f_Phi1_lme f) 0%nat) (row f l mm e)); [|reflexivity].
  rewrite message_of; auto.
  rewrite length_columns. apply (mw_lel_lt _ (ld_wf f F) p). exact (proj2 Hp).
Qed.
Lemma A1_of i l mm k : (i < n)%nat -> (l <= lmax)%nat -> (mm < 2 * l + 1)%nat -> (k < K)%nat ->
  pA1 (N:=RNum) sph m (ldp0 srt f) s i (l * l + mm) k = A1 sph f x i l mm k.
Proof.
  intros Hi Hl Hm' Hk. unfold pA1, A1.
  assert (E : a1raw (N:=RNum) m (pP1 sph m (ldp0 srt f) s) i (l * l + mm) k =
     sum (npaths f l) (fun e => sum K (fun q => Phi1 sph f x i l mm e q * nth ((e * K + q) * K + k) (nth l (f_A1_weights f) []) 0))).
  { unfold a1raw. cbv zeta. rewrite sqrt_lm by auto. change (m_num_channels m) with K. change (mult m l) with (npaths f l).
    rewrite nsum_rsum, rsum_prod, sum_rsum. apply rsum_ext. intros e He. rewrite sum_rsum. apply rsum_ext. intros q Hq.
    rewrite Nat.div_add_l, (Nat.div_small q), Nat.add_0_r by lia. rewrite (Nat.add_comm (e * K) q), Nat.mod_add, Nat.mod_small by lia.
    replace (l * l + mm - l * l)%nat with mm by lia. rewrite Phi1_of by auto.
    unfold W1, at_. rewrite RNum_zero. rewrite (Nat.add_comm q). reflexivity. }
  unfold odivs. cbn [ldm m_A1_scaled]. destruct (bool_dec (f_A1_scaled f) true) as [Es|Es]; [|apply not_true_is_false in Es]; rewrite Es.
  - unfold divs. rewrite E, sc1_of by auto. reflexivity.
  - rewrite E. symmetry. apply Rdiv_1.
Qed.
Lemma M1_of i k : (i < n)%nat -> (k < K)%nat -> pM1 (N:=RNum) sph m (ldp0 srt f) (ldp1 srt f) s i k = M1 sph f x i k.
Proof.
  intros Hi Hk. unfold pM1, m1, M1. change (m_num_channels m) with K.
  rewrite ty_of, ldp1_at by (auto; apply tp_lt; auto).
  rewrite (xcol_all _ (fun l mm => A1 sph f x i l mm k)) by (intros; apply A1_of; auto).
  destruct (fo_M1 _ F (tp i) k (tp_lt i Hi) Hk) as [Q1 Q2].
  apply mkp_val; auto; [apply (proj2 Hm)|apply length_all].
Qed.
Lemma H2_of i k : (i < n)%nat -> (k < K)%nat -> pH2 (N:=RNum) sph m (ldp0 srt f) (ldp1 srt f) s i k = H2 sph f x i k.
Proof.
  intros Hi Hk. unfold pH2, h2, H2. rewrite !nsum_rsum, !sum_rsum. change (m_num_channels m) with K. cbn [nadd RNum carrier]. f_equal; apply rsum_ext; intros q Hq.
  - rewrite H100 by auto. unfold WHH, at_. rewrite RNum_zero, ty_of by auto. cbn [nmul RNum carrier]. apply Rmult_comm.
  - rewrite M1_of by auto. unfold WHM, at_. rewrite RNum_zero. cbn [nmul RNum carrier]. apply Rmult_comm.
Qed.

Lemma zen_of t u r : f_has_zbl f = true -> (t < T)%nat -> (u < T)%nat ->
  zen (N:=RNum) m t u r = zbl_energy (f_zbl_a_exp f) (f_zbl_a_prefactor f) (f_zbl_c f) (f_zbl_covalent_radii f) (f_zbl_p f)
    (nth t (f_atomic_numbers f) 0%nat) (nth u (f_atomic_numbers f) 0%nat) r.
Proof.
  intros Hz Ht Hu. destruct (fo_zbl _ F Hz) as [Za Zc]. unfold zen, zbl_compute. cbn [ldm m_zbl m_atomic_numbers z_covalent_radii z_c z_a_exp z_a_prefactor z_p].
  set (Zt := nth t (f_atomic_numbers f) 0%nat). set (Zu := nth u (f_atomic_numbers f) 0%nat).
  rewrite (rd_some (f_zbl_covalent_radii f) Zt 0) by (apply Za, nth_In; auto). rewrite (rd_some (f_zbl_covalent_radii f) Zu 0) by (apply Za, nth_In; auto).
  cbn [bind]. rewrite !(fun i Hi => rd_some (f_zbl_c f) i 0 (Nat.lt_le_trans i 4 _ Hi Zc)) by lia. cbn [bind zget]. cbv zeta.
  unfold zbl_energy, compute_envelope, zbl_envelope, c_exps_0, c_exps_1, c_exps_2, c_exps_3, v_prefactor.
  rewrite !RNum_ofnat, (RNum_ofZ (f_zbl_p f)), (RNum_ofZ 2). unfold none, nzero.
  cbn [nadd nmul nsub ndiv nexp nlit nleb npow npowi RNum carrier]. cbv zeta. change (carrier RNum) with R.
  replace (-3.2) with (-32 / 10) by lra. replace (-0.9423) with (-9423 / 10000) by lra. replace (-0.4028) with (-4028 / 10000) by lra.
  replace (-0.2016) with (-2016 / 10000) by lra. replace 0.529 with (529 / 1000) by lra. replace 14.3996 with (143996 / 10000) by lra.
  match goal with |- context [Rlt_dec ?a ?b] => destruct (Rlt_dec a b); destruct (Rle_dec b a); try (exfalso; lra) end.
  - ring.
  - apply Rmult_0_half.
Qed.

Lemma fe_of g : ldfe (N:=RNum) f (tab K g) = sum 16 (fun j => nth j (f_readout_2_weights_2 f) 0 *
    silu (f_readout_2_scale_factor f) (sum K (fun k => nth (j * K + k) (f_readout_2_weights_1 f) 0 * g k))).
Proof.
  unfold ldfe. rewrite (out_network (f_readout_2_scale_factor f) _ (act_g_R _) _ K); [|discriminate|apply ld_layers; exact F|apply length_tab].
  exact (mlp_formula (f_readout_2_scale_factor f) K (f_readout_2_weights_1 f) (f_readout_2_weights_2 f) g (fo_r2a _ F) (fo_r2b _ F)).
Qed.

Lemma energy_of i : (i < n)%nat -> resE sph srt f s i = node_energy sph f x i.
Proof.
  intros Hi. unfold resE, pE, en, node_energy. change (m_num_channels m) with K. rewrite nfold_rl, rl_seq, sum_rsum.
  rewrite fe_of. cbn [nadd nmul RNum carrier]. apply f_equal2; [apply f_equal2; [|]|].
  - unfold zE, repulsion, at_. cbn [ldm m_has_zbl m_atomic_energies]. fold m. rewrite ty_of by auto. change (@nzero RNum) with 0. rewrite Rplus_comm. f_equal.
    destruct (f_has_zbl f) eqn:Hz; [|reflexivity]. rewrite suml_rl. change 0 with (@nzero RNum). rewrite nfold_rl0, es_of, rl_map by auto.
    apply rl_ext. intros e He. destruct (nbr_ok i e Hi He) as (Hu & _ & _). apply zen_of; auto. apply tp_lt; auto.
  - apply rsum_ext. intros k Hk. rewrite H100 by auto. reflexivity.
  - rewrite !sum_rsum. apply rsum_ext. intros j Hj. do 2 f_equal. rewrite !sum_rsum. apply rsum_ext. intros k Hk. rewrite H2_of by auto. reflexivity.
Qed.
End Energy.

Lemma lemma_C65 sph : sph_ok (N:=RNum) sph -> forall srt, (forall l, Permutation l (srt l)) -> forall f : mace_file RNum, file_ok f -> monomials_once f ->
  f_radial_spline_h f <> 0 -> (f_A0_scaled f = true -> f_A0_spline_h f <> 0) -> (f_A1_scaled f = true -> f_A1_spline_h f <> 0) ->
  forall hist x, List.Forall (input_ok f) hist -> input_ok f x ->
  exists m b0 b1 b2, load_from_json srt f = Some (m, b0) /\ calls sph m b0 hist = Some b1 /\ call sph m b1 x = Some b2 /\
    b_node_energies b2 = map (node_energy sph f x) (seq 0 (i_num_nodes x)).
Proof.
  intros Hsph srt Hsrt f F Hm Hh Hh0 Hh1 hist x HH Hx. destruct (load_ok srt Hsrt f F) as (b0 & E & L).
  destruct (calls_ok sph Hsph srt f F b0 hist L HH) as (b1 & E1 & L1).
  destruct (call_ok sph Hsph srt f F b1 x L1 Hx) as (b2 & E2 & _ & A2 & _).
  exists (ldm f), b0, b1, b2. repeat split; auto. rewrite A2. apply map_ext_in. intros i Hi. apply in_seq in Hi. apply energy_of; auto. lia.
Qed.

(** ** A node without neighbours *)
Lemma mono_zero x m : (forall a, In a x -> a = 0) -> m <> [] -> mono x m = 0.
Proof.
  intros H Hm. destruct m as [|a m]; [congruence|]. unfold mono. cbn [map fold_right].
  replace (nth a x 0) with 0; [apply Rmult_0_l|]. destruct (nth_in_or_default a x 0) as [I|I]; symmetry; auto.
Qed.
Lemma poly_zero cs ms x n : (forall a, In a x -> a = 0) -> monos_ok n ms -> poly cs ms x = 0.
Proof.
  intros H Hm. unfold poly. revert ms Hm. induction cs as [|c cs IH]; intros ms Hm; [reflexivity|]. destruct ms as [|m ms]; [reflexivity|].
  inversion_clear Hm as [|? ? H1 H2]. cbn [combine map fold_right fst snd]. rewrite (mono_zero x m H (proj1 H1)), (IH ms H2). ring.
Qed.
Lemma sum_zero n g : (forall i, (i < n)%nat -> g i = 0) -> sum n g = 0.
Proof. intros H. rewrite sum_rsum. apply rsum_0. exact H. Qed.

Section Lone.
Variable sph : nat -> R -> R -> R -> list R * list R.
Variable f : mace_file RNum.
Hypothesis Hf : file_ok f.
Variable x : input RNum.
Hypothesis Hx : input_ok f x.
Variable i : nat.
Hypothesis Hi : (i < i_num_nodes x)%nat.
Hypothesis Hn : nth i (i_num_neigh x) 0%nat = 0%nat.

Lemma lone_nb : neighbours x i = [].
Proof. unfold neighbours. rewrite Hn. reflexivity. Qed.
Lemma lone_tp : (tp x i < length (f_atomic_numbers f))%nat.
Proof. unfold tp. apply (io_ty _ _ Hx). apply nth_In. rewrite (io_types _ _ Hx). exact Hi. Qed.
Lemma zero_div a : 0 / a = 0.
Proof. unfold Rdiv. apply Rmult_0_l. Qed.
Lemma lone_A0 l m k : A0 sph f x i l m k = 0.
Proof.
  unfold A0. rewrite sum_zero; [apply zero_div|]. intros q _. unfold Phi0. rewrite lone_nb. unfold suml. cbn [map fold_right]. apply Rmult_0_l.
Qed.
Lemma lone_all (h : nat -> nat -> R) : (forall l m, h l m = 0) -> forall a, In a (all_lm f h) -> a = 0.
Proof.
  intros H a Ha. unfold all_lm in Ha. apply in_flat_map in Ha. destruct Ha as [l [_ Ha]]. apply in_map_iff in Ha. destruct Ha as [m [E _]]. rewrite <- E. apply H.
Qed.
Lemma lone_M0 k : (k < f_num_channels f)%nat -> M0 sph f x i 0 0 k = 0.
Proof.
  intros Hk. unfold M0. eapply poly_zero; [apply lone_all; intros; apply lone_A0|].
  refine (proj1 (fo_M0 _ Hf (tp x i) _ k lone_tp _ Hk)). cbn. lia.
Qed.
Lemma lone_H1 k : H1 sph f x i 0 0 k = 0.
Proof. unfold H1. apply sum_zero. intros q Hq. rewrite lone_M0 by exact Hq. apply Rmult_0_l. Qed.
Lemma lone_A1 l m k : A1 sph f x i l m k = 0.
Proof.
  unfold A1. rewrite sum_zero; [apply zero_div|]. intros e _. apply sum_zero. intros q _. unfold Phi1. rewrite sum_zero; [apply Rmult_0_l|].
  intros p _. destruct (_ =? _)%nat; [|reflexivity]. unfold message. destruct (nth _ (columns f) _) as [[le m1] m2]. rewrite lone_nb. unfold suml. cbn [map fold_right].
  apply Rmult_0_r.
Qed.
Lemma lone_M1 k : (k < f_num_channels f)%nat -> M1 sph f x i k = 0.
Proof.
  intros Hk. unfold M1. eapply poly_zero; [apply lone_all; intros; apply lone_A1|]. exact (proj1 (fo_M1 _ Hf (tp x i) k lone_tp Hk)).
Qed.
Lemma lone_H2 k : H2 sph f x i k = 0.
Proof.
  unfold H2. rewrite sum_zero by (intros q _; rewrite lone_H1; apply Rmult_0_l).
  rewrite sum_zero by (intros q Hq; rewrite lone_M1 by exact Hq; apply Rmult_0_l). apply Rplus_0_l.
Qed.
Lemma lone_energy : node_energy sph f x i = nth (tp x i) (f_atomic_energies f) 0.
Proof.
  unfold node_energy. replace (repulsion f x i) with 0.
  2:{ unfold repulsion. rewrite lone_nb. destruct (f_has_zbl f); reflexivity. }
  rewrite (sum_zero (f_num_channels f)) by (intros k _; rewrite lone_H1; apply Rmult_0_r).
  rewrite (sum_zero 16); [ring|]. intros j _. rewrite sum_zero by (intros k _; rewrite lone_H2; apply Rmult_0_r).
  unfold silu. rewrite Rmult_0_r. rewrite zero_div. apply Rmult_0_r.
Qed.
End Lone.

Lemma lemma_C66 sph : sph_ok (N:=RNum) sph -> forall srt, (forall l, Permutation l (srt l)) -> forall f : mace_file RNum, file_ok f -> monomials_once f ->
  f_radial_spline_h f <> 0 -> (f_A0_scaled f = true -> f_A0_spline_h f <> 0) -> (f_A1_scaled f = true -> f_A1_spline_h f <> 0) ->
  forall hist x, List.Forall (input_ok f) hist -> input_ok f x -> forall i, (i < i_num_nodes x)%nat -> nth i (i_num_neigh x) 0%nat = 0%nat ->
  exists m b0 b1 b2, load_from_json srt f = Some (m, b0) /\ calls sph m b0 hist = Some b1 /\ call sph m b1 x = Some b2 /\
    nth_error (b_node_energies b2) i = Some (nth (nth i (i_node_types x) 0%nat) (f_atomic_energies f) 0).
Proof.
  intros Hs srt Hsrt f Hf Hm Hr H0 H1 hist x Hh Hx i Hi Hn.
  destruct (lemma_C65 sph Hs srt Hsrt f Hf Hm Hr H0 H1 hist x Hh Hx) as [m [b0 [b1 [b2 [E1 [E2 [E3 E4]]]]]]].
  exists m, b0, b1, b2. repeat (split; [assumption|]). rewrite E4.
  rewrite nth_error_map. rewrite (nth_error_nth' _ 0%nat) by (rewrite seq_length; exact Hi). rewrite seq_nth by exact Hi. cbn [option_map Nat.add].
  rewrite (lone_energy sph f Hf x Hx i Hi Hn). reflexivity.
Qed.
