(** The ASE calculator with the Kokkos evaluator against the one with the CPU evaluator.  Used in proofs only. *)
From Coq Require Import List Arith ZArith Bool Lia Reals Permutation.
From Verif Require Import Base BaseLemmas Segs Instances RSums MaceModel MaceSpec Sys SysLoops
  MaceGrid MacePure MaceStages1 MacePipe MaceLoad MaceFlat MaceThms AseModel AseSpec AseThms.
From Verif Require Import KkSem KkWp KkModel KkChain KkHost KkEq KkStage1 KkStage6 KkSpec KkLoad1 KkLoad2 KkLoad3 KkLoad4 KkTerm KkThms
  KkAseModel KkAseSpec.
Import ListNotations.
Local Open Scope nat_scope.

Lemma calc_split {N : Num} sph (m : mace_model N) b numbers V il jl r xyz :
  calculate sph m b numbers V il jl r xyz =
  (' (n, nt, nn, gt) <- ase_args (m_atomic_numbers m) numbers il jl ;;
   b' <- compute_node_energies_forces sph m b n nt nn jl gt xyz r ;;
   res <- ase_post (b_node_energies b') (b_node_forces b') numbers V il jl xyz ;;
   Some (b', res)).
Proof.
  unfold calculate, ase_args, ase_post.
  destruct (np_max il) as [mx|]; [|reflexivity]. cbn [bind].
  destruct (py_map _ (seq 0 (mx + 1))) as [nt|]; [|reflexivity]. cbn [bind].
  destruct (py_map _ jl) as [gt|]; [|reflexivity]. cbn [bind].
  destruct (compute_node_energies_forces sph m b (mx + 1) nt (bincount jl (mx + 1)) jl gt xyz r) as [b'|]; [|reflexivity]. cbn [bind].
  destruct (length (b_node_forces b') mod 3 =? 0); [|reflexivity]. cbn [negb bind].
  set (p := firstn _ (b_node_forces b')).
  destruct (s <- bincount_w jl (col p 0) _ ;; t <- bincount_w il (col p 0) _ ;; np_sub s t) as [f0|]; [|reflexivity]. cbn [bind].
  destruct (s <- bincount_w jl (col p 1) _ ;; t <- bincount_w il (col p 1) _ ;; np_sub s t) as [f1|]; [|reflexivity]. cbn [bind].
  destruct (s <- bincount_w jl (col p 2) _ ;; t <- bincount_w il (col p 2) _ ;; np_sub s t) as [f2|]; [|reflexivity]. cbn [bind].
  destruct ((length f0 =? _) && (length f1 =? _) && (length f2 =? _))%bool; [|reflexivity]. cbn [negb bind].
  destruct (length p =? length xyz); [|reflexivity]. cbn [negb bind].
  destruct V; reflexivity.
Qed.

(** the forces enter through their first entries only *)
Lemma post_ext {N : Num} (E E' nf nf' : list N) numbers V il jl xyz res : length nf' mod 3 = 0 ->
  firstn (3 * length il) nf' = firstn (3 * length il) nf ->
  ase_post E nf numbers V il jl xyz = Some res ->
  ase_post E' nf' numbers V il jl xyz = Some (mkRes (fold_left nadd E' nzero) E' (res_forces res) (res_stress res)).
Proof.
  intros H3 HF. unfold ase_post. rewrite H3, HF. cbn [Nat.eqb negb].
  destruct (length nf mod 3 =? 0); [|discriminate]. cbn [negb].
  set (p := firstn _ nf).
  destruct (s <- bincount_w jl (col p 0) _ ;; t <- bincount_w il (col p 0) _ ;; np_sub s t) as [f0|]; [|discriminate]. cbn [bind].
  destruct (s <- bincount_w jl (col p 1) _ ;; t <- bincount_w il (col p 1) _ ;; np_sub s t) as [f1|]; [|discriminate]. cbn [bind].
  destruct (s <- bincount_w jl (col p 2) _ ;; t <- bincount_w il (col p 2) _ ;; np_sub s t) as [f2|]; [|discriminate]. cbn [bind].
  destruct ((length f0 =? _) && (length f1 =? _) && (length f2 =? _))%bool; [|discriminate]. cbn [negb].
  destruct (length p =? length xyz); [|discriminate]. cbn [negb].
  destruct V; [|discriminate]. cbn [bind]. intros Q. injection Q as <-. reflexivity.
Qed.

Section T.
Variable sph : nat -> RNum -> RNum -> RNum -> list RNum * list RNum.
Variable junk : mem RNum -> KkSem.cell -> RNum.
Variable srt : list (list (list nat)) -> list (list (list nat)).
Hypothesis Hsrt : forall l, Permutation l (srt l).
Variable f : mace_file RNum.
Hypothesis F : file_ok f.
Hypothesis KF : kk_file_ok f.
Variable km : kmace RNum.
Hypothesis D : kld srt f km.

Notation inp types a := (nl_input (N:=RNum) (S (list_max (s_il a))) types (s_il a) (s_jl a) (s_r a) (s_xyz a)).

Lemma args_ok numbers types il jl : species_map (f_atomic_numbers f) numbers types -> nl_ok (length numbers) il jl -> il <> [] ->
  ase_args (f_atomic_numbers f) numbers il jl =
    Some (S (list_max il), firstn (S (list_max il)) types, map (count_occ Nat.eq_dec il) (seq 0 (S (list_max il))), map (fun j => nth j types 0) jl).
Proof.
  intros SM NL Hne. unfold ase_args. rewrite np_max_list by exact Hne. cbn [bind]. replace (list_max il + 1) with (S (list_max il)) by lia.
  set (n := S (list_max il)).
  assert (NLe : n <= length numbers) by exact (n_le numbers il jl NL Hne).
  rewrite (py_map_some _ (seq 0 n) (fun a => nth a types 0)) by (intros a Ha; apply in_seq in Ha; apply (species_at f numbers types SM); lia). cbn [bind].
  rewrite (py_map_some _ jl (fun a => nth a types 0)) by
    (intros a Ha; apply (species_at f numbers types SM); apply (nl_i _ _ _ NL); apply (jl_in numbers il jl NL); exact Ha). cbn [bind].
  rewrite (bincount_ok jl n) by (exact (jl_lt numbers il jl NL)).
  replace (map (fun a => nth a types 0) (seq 0 n)) with (firstn n types).
  - replace (map (count_occ Nat.eq_dec jl) (seq 0 n)) with (map (count_occ Nat.eq_dec il) (seq 0 n)); [reflexivity|].
    apply map_ext. intros a. symmetry. apply (nl_sym _ _ _ NL).
  - assert (Ln : n <= length types) by (rewrite (proj1 SM); exact NLe).
    apply (list_eq_nth _ _ 0); [rewrite firstn_length, map_length, seq_length; lia|]. intros a Ha. rewrite firstn_length in Ha.
    transitivity (nth a types 0).
    + rewrite <- (firstn_skipn n types) at 2. symmetry. apply app_nth1. rewrite firstn_length. lia.
    + symmetry. apply (nth_tab n (fun a => nth a types 0) a 0). lia.
Qed.

Lemma kcalc_run m a types : good km m -> species_map (f_atomic_numbers f) (s_numbers a) types -> nl_ok (length (s_numbers a)) (s_il a) (s_jl a) ->
  s_il a <> [] -> input_ok f (inp types a) -> exists m',
  one sph srt f km m (inp types a) m' /\
  forall o, kk_calculate sph junk km m a o <->
    o = Some (m', ase_post (N:=RNum) (kk_node_energies m') (kk_node_forces m') (s_numbers a) (s_volume a) (s_il a) (s_jl a) (s_xyz a)).
Proof.
  intros G SM NL Hne Hx. destruct (kcall_ok sph junk srt Hsrt f F KF km D m _ G Hx) as (m' & H & O). exists m'. split; [exact O|].
  intros o. unfold kk_calculate. rewrite (l_Z _ _ _ D), (args_ok _ types _ _ SM NL Hne). unfold kk_call in H.
  cbn [nl_input i_num_nodes i_node_types i_num_neigh i_neigh_indices i_neigh_types i_xyz i_r] in H. split.
  - intros (o' & A & B). apply H in A. subst o'. exact B.
  - intros ->. eexists. split; [apply H; reflexivity|reflexivity].
Qed.

Lemma kcalcs_run m l : good km m -> Forall (structure_ok f) l -> exists m', good km m' /\
  extent m' bE 0 = fold_left Nat.max (map atoms_seen l) (extent m bE 0) /\ forall o, kk_calculates sph junk km m l o <-> o = Some m'.
Proof.
  intros G H. revert m G. induction H as [|a l Ha Hl IH]; intros m G.
  - exists m. split; [exact G|]. split; [reflexivity|]. intros o. split; [intros Q; inversion Q; reflexivity|intros ->; constructor].
  - assert (exists m1 res, good km m1 /\ extent m1 bE 0 = Nat.max (extent m bE 0) (atoms_seen a) /\
      forall o, kk_calculate sph junk km m a o <-> o = Some (m1, res)) as (m1 & res & G1 & X1 & H1).
    { destruct Ha as (types & SM & NL & HI). destruct (list_eq_dec Nat.eq_dec (s_il a) []) as [E|E].
      - exists m, None. split; [exact G|]. split; [unfold atoms_seen; rewrite E; symmetry; apply Nat.max_0_r|]. intros o. unfold kk_calculate. rewrite E. cbn [ase_args np_max bind]. reflexivity.
      - destruct (kcalc_run m a types G SM NL E (HI E)) as (m1 & O & H1). eexists m1, _. split; [apply O|]. split; [|exact H1].
        destruct O as (_ & _ & _ & X & _). rewrite X. unfold atoms_seen. destruct (s_il a); [congruence|reflexivity]. }
    destruct (IH m1 G1) as (m2 & G2 & X2 & H2). exists m2. split; [exact G2|]. split; [cbn [map fold_left]; rewrite <- X1; exact X2|]. intros o. split.
    + intros Q. inversion Q as [|? ? ? U|? ? ? m' r' ? U V]; subst.
      * apply H1 in U. discriminate.
      * apply H1 in U. injection U as -> _. apply H2. exact V.
    + intros ->. eapply ks_cons; [apply H1; reflexivity|apply H2; reflexivity].
Qed.
End T.

Lemma fold_zeros l k a : fold_left Rplus (l ++ repeat 0%R k) a = fold_left Rplus l a.
Proof.
  rewrite fold_left_app. generalize (fold_left Rplus l a) as x. clear. induction k as [|k IH]; intros x; [reflexivity|].
  cbn [repeat fold_left]. rewrite Rplus_0_r. apply IH.
Qed.

Section L.
Variable sph : nat -> RNum -> RNum -> RNum -> list RNum * list RNum.
Hypothesis Hsph : sph_ok sph.
Variable junk : mem RNum -> KkSem.cell -> RNum.
Variable srt : list (list (list nat)) -> list (list (list nat)).
Hypothesis Hsrt : forall l, Permutation l (srt l).
Variable f : mace_file RNum.
Hypothesis F : file_ok f.
Hypothesis KF : kk_file_ok f.
Variables (hist : list structure) (a : structure) (V : RNum) (hc : list (input RNum)).
Hypothesis Hh : Forall (structure_ok f) hist.
Hypothesis Ha : structure_ok f a.
Hypothesis Hne : s_il a <> [].
Hypothesis HV : s_volume a = Some V.
Hypothesis Hc : Forall (input_ok f) hc.

Lemma lemma_C57 : exists km m b0 bc b1 res, kk_load_from_json srt f = Some km /\ load_from_json srt f = Some (m, b0) /\
  calls sph m b0 hc = Some bc /\
  calculate sph m bc (s_numbers a) (s_volume a) (s_il a) (s_jl a) (s_r a) (s_xyz a) = Some (b1, res) /\
  (exists o, kk_session sph junk km kk_fresh hist a o) /\
  forall o, kk_session sph junk km kk_fresh hist a o -> exists mem kres, o = Some (mem, Some kres) /\
    res_energy kres = res_energy res /\ res_forces kres = res_forces res /\ res_stress kres = res_stress res /\
    length (res_energies res) = atoms_seen a /\
    res_energies kres = res_energies res ++ repeat 0%R (fold_left Nat.max (map atoms_seen hist) 0 - atoms_seen a).
Proof.
  destruct (kk_load_ok srt Hsrt f F KF) as (km & EL & D). destruct (load_ok srt Hsrt f F) as (b0 & EC & LV).
  destruct (calls_ok sph Hsph srt f F b0 hc LV Hc) as (bc & EB & LB).
  destruct Ha as (types & SM & NL & HI). specialize (HI Hne).
  destruct (calc_ok sph Hsph srt f F _ types _ _ SM NL Hne bc V _ _ LB HI) as (b1 & E1 & L1 & LE & LF & EK). cbv zeta in EK.
  destruct (call_ok sph Hsph srt f F bc _ LB HI) as (b1' & E1' & _ & HE & HF). assert (b1' = b1) by congruence. subst b1'. clear E1'.
  destruct (kcalcs_run sph junk srt Hsrt f F KF km D kk_fresh hist (good_fresh km) Hh) as (m1 & G1 & X1 & H1).
  destruct (kcalc_run sph junk srt Hsrt f F KF km D m1 a types G1 SM NL Hne HI) as (m2 & (G2 & KE & KFo & X2 & _) & H2).
  rewrite <- HV in EK. match type of EK with _ = Some (_, ?r) => set (res := r) in * end.
  exists km, (ldm f), b0, bc, b1, res. do 4 (split; [assumption|]).
  assert (HS : forall o, kk_session sph junk km kk_fresh hist a o <->
    o = Some (m2, ase_post (N:=RNum) (kk_node_energies m2) (kk_node_forces m2) (s_numbers a) (s_volume a) (s_il a) (s_jl a) (s_xyz a))).
  { intros o. unfold kk_session. split.
    - intros [[A _]|(m' & A & B)]; [apply H1 in A; discriminate|]. apply H1 in A. injection A as ->. apply H2. exact B.
    - intros ->. right. exists m1. split; [apply H1; reflexivity|apply H2; reflexivity]. }
  split; [eexists; apply HS; reflexivity|]. intros o Ho. apply HS in Ho.
  rewrite calc_split in EK. cbn [ldm m_atomic_numbers] in EK. rewrite (args_ok f _ types _ _ SM NL Hne) in EK. cbn [bind] in EK.
  unfold call in E1. cbn [nl_input i_num_nodes i_node_types i_num_neigh i_neigh_indices i_neigh_types i_xyz i_r] in E1.
  cbn [ldm] in E1, EK. rewrite E1 in EK. cbn [bind] in EK.
  match type of EK with (x <- ?e ;; _) = _ => destruct e as [res'|] eqn:EP; [|discriminate EK] end. cbn [bind] in EK.
  assert (res' = res) by congruence. subst res'. clear EK.
  set (x := nl_input (N:=RNum) _ types _ _ _ _) in *.
  assert (LX : length (i_xyz x) = 3 * length (s_il a)).
  { rewrite (io_xyz _ _ HI), <- (io_idx _ _ HI). cbn [x nl_input i_neigh_indices]. rewrite (nl_len _ _ _ NL). reflexivity. }
  assert (PX := fun A B => post_ext (N:=RNum) _ (kk_node_energies m2) _ (kk_node_forces m2) _ _ _ _ _ res A B EP).
  match type of PX with ?A -> ?B -> _ => assert (PA : A); [|assert (PB : B); [|specialize (PX PA PB)]] end.
  3: refine (let Ho' := eq_trans Ho (f_equal (fun r => Some (m2, r)) PX) in _); clearbody Ho'; clear Ho; rename Ho' into Ho.
  - unfold kk_node_forces, kk_view. rewrite map_length, seq_length. apply (g_F _ _ G2).
  - refine (eq_trans (f_equal (fun k => firstn k _) (eq_sym LX)) _). refine (eq_trans KFo _). rewrite <- HF. symmetry. apply firstn_all2. rewrite LF. lia.
  - eexists m2, _. split; [exact Ho|]. cbn [res_energy res_forces res_stress res_energies]. split; [|split; [reflexivity|split; [reflexivity|]]].
    + rewrite KE. unfold res. cbn [res_energy]. rewrite HE. exact (fold_zeros _ _ 0%R).
    + assert (AS : atoms_seen a = S (list_max (s_il a))) by (unfold atoms_seen; destruct (s_il a); [congruence|reflexivity]).
      unfold res. cbn [res_energies]. split; [rewrite LE, AS; reflexivity|]. rewrite KE, HE. f_equal. f_equal. rewrite X2, X1, AS.
      change (extent kk_fresh bE 0) with 0%nat. cbn [x nl_input i_num_nodes]. lia.
Qed.
End L.
