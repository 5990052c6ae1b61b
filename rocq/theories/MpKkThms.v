(** Objects of the two polynomial classes, side by side.  Used in proofs only. *)
From Coq Require Import List Arith ZArith Bool Lia Reals Lra Permutation FunctionalExtensionality.
From Verif Require Import Base BaseLemmas Segs Instances BlasModel RSums ToolsModel MpModel MpSpec MpCtor MpProofs MpR.
From Verif Require Import KkSem KkSound KkTerm KkWp KkWp2 KkModel KkHost KkTac KkSpec MpKkModel MpKkSpec MpKk.
Import ListNotations.
Local Open Scope R_scope.

Section Objects.
Variable srt : list (list (list nat)) -> list (list (list nat)).
Hypothesis Hsrt : forall l, Permutation l (srt l).
Variables (n : nat) (cs : list R) (ms : list (list nat)).
Hypothesis Hm : monos_ok n ms.
Hypothesis HL : length cs = length ms.

Lemma make_mpkk_ok host : ms <> [] -> exists p, make_mpoly (N:=RNum) srt n cs ms = Some p /\
  make_mpkk (N:=RNum) host srt n cs ms = Some (mkMpKk (N:=RNum) n cs (max_len ms) (map (padrow (pad_e host) (max_len ms)) ms)
     (mp_edges p) (mp_ncoeffs p) (mp_nvals p) (mp_nadjs p)) /\
  mp_wf p /\ mp_nvars p = n /\ length (mp_nvals p) = length (mp_nodes p) /\ length (mp_nadjs p) = length (mp_nodes p) /\
  mp_coeffs p = cs /\ mp_monos p = ms.
Proof.
  intros Hne. destruct (built_ok srt Hsrt RNum n cs ms Hm HL) as (p & E & H). exists p. split; auto. split; auto.
  unfold make_mpkk. fold (max_len ms). rewrite int_table_ok by apply max_len_ok. cbn [bind].
  change (list (carrier RNum)) with (list R) in *. rewrite E. cbn [bind]. rewrite int_table_ok; [reflexivity|].
  apply (make_mpoly_short RNum srt n cs ms p E Hne).
  intros m Hin. unfold monos_ok in Hm. rewrite Forall_forall in Hm. apply Hm. auto.
Qed.

Section Calls.
Variables (p : @mpoly RNum) (q : mpkk RNum).
Hypothesis W : mp_wf p.
Hypothesis Pn : mp_nvars p = n.
Hypothesis Pv : length (mp_nvals p) = length (mp_nodes p).
Hypothesis Pa : length (mp_nadjs p) = length (mp_nodes p).
Hypothesis Pc : mp_coeffs p = cs.
Hypothesis Pm : mp_monos p = ms.
Hypothesis Q : q = mkMpKk (N:=RNum) n cs (max_len ms) (map (padrow (-1)%Z (max_len ms)) ms)
     (mp_edges p) (mp_ncoeffs p) (mp_nvals p) (mp_nadjs p).

Lemma mok_new : mok p (mpkk_mem (N:=RNum) q).
Proof. rewrite Q. unfold mok. split; [|split]; [exact (f_equal (fun k => [k]) Pv)|exact (f_equal (fun k => [k]) Pa)|reflexivity]. Qed.

Lemma Qn : q_nvars q = mp_nvars p. Proof. rewrite Q. symmetry. exact Pn. Qed.
Lemma Qe : q_edges q = mp_edges p. Proof. rewrite Q. reflexivity. Qed.
Lemma Qc : q_ncoeffs q = mp_ncoeffs p. Proof. rewrite Q. reflexivity. Qed.
Lemma Qc' : q_coeffs q = cs. Proof. rewrite Q. reflexivity. Qed.
Lemma Qw : q_width q = max_len ms. Proof. rewrite Q. reflexivity. Qed.
Lemma Qm : q_monos q = map (padrow (-1)%Z (max_len ms)) ms. Proof. rewrite Q. reflexivity. Qed.
Lemma call_hok c m : mpkk_call_ok n ms c -> mok p m -> hok (mpkk_cmds true q c) m (fun m' => mok p m' /\ same_result p c m').
Proof.
  intros Hc HM. destruct c as [x|x|x g|x g]; cbn [mpkk_cmds mpkk_call_ok same_result] in *.
  - eapply hok_conseq; [apply (evaluate_hok p q W Qn Qe Qc); [rewrite Pn; exact Hc|exact HM]|].
    cbn beta. intros m' (D & F). split; [apply (mok_dims p m); auto|]. eexists. rewrite F. apply (evaluate_ok p W); [rewrite Pn; assumption|rewrite Pv; auto].
  - unfold k_evaluate_simple. apply hok_run.
    eapply wp_conseq; [apply (simple_wp n cs ms q Hm HL Qc' Qw Qm); auto; apply HM|]. cbn beta. intros _ m' (D & F & _).
    apply hok_nil. split; [apply (mok_dims p m); auto|]. unfold mpkk_f. change (val m' (qF, [])) with (va m' (qF, [])). rewrite F.
    rewrite <- Pc, <- Pm. apply (evaluate_simple_ok p n); rewrite ?Pc, ?Pm; auto.
  - destruct Hc as [Hx Hg]. apply hok_hop.
    set (m1 := set_view _ _ _ _). assert (HM1 : mok p m1) by exact HM.
    assert (HG : dims m1 qG = [n]) by (change (dims m1 qG) with [length g]; rewrite Hg; auto).
    eapply hok_conseq; [apply (evaluate_gradient_hok p q W Qn Qe Qc); [rewrite Pn; exact Hx|exact HM1|rewrite Pn; exact HG]|].
    cbn beta. intros m' (D & F & G). split; [apply (mok_dims p m1); auto|]. eexists. rewrite F, G. apply (evaluate_gradient_ok p W); [rewrite Pn; assumption|rewrite Pv; auto|rewrite Pa; auto].
  - destruct Hc as (Hx & Hg & HS). apply hok_hop.
    set (m1 := set_view _ _ _ _). assert (HM1 : mok p m1) by exact HM.
    assert (HG : dims m1 qG = [n]) by (change (dims m1 qG) with [length g]; rewrite Hg; auto).
    unfold k_evaluate_gradient_simple. apply hok_run.
    eapply wp_conseq; [apply (simple_wp n cs ms q Hm HL Qc' Qw Qm); auto; apply HM1|]. cbn beta. intros _ m2 (D2 & F2 & _).
    apply hok_hop. set (m3 := fill_view qG _ m2).
    assert (D3 : dims m3 = dims m1).
    { rewrite <- D2. unfold m3, fill_view, set_view. cbn [dims]. extensionality b. destruct (buf_dec qG b); congruence. }
    apply hok_run. eapply wp_conseq; [apply (gradient_simple_wp n cs ms q Hm HL Qc' Qw Qm); [exact Hx|exact HS|rewrite D3; exact HG|]|].
    { intros v Hv. unfold m3, fill_view, set_view, va. cbn. apply RNum_zero. }
    cbn beta. intros _ m4 (D4 & G4 & O4). apply hok_nil. split; [apply (mok_dims p m1); congruence|].
    rewrite (evaluate_gradient_simple_ok p n x) by (rewrite ?Pc, ?Pm; auto). rewrite Pc, Pm. f_equal. f_equal.
    + unfold mpkk_f. change (val m4 (qF, [])) with (va m4 (qF, [])). rewrite O4 by discriminate. symmetry. exact F2.
    + symmetry. apply view_eq; rewrite length_adds, repeat_length; [congruence|].
      intros v Hv. rewrite G4 by auto. symmetry. apply (simple_adds_nth n cs ms q Hm); auto using Qw, Qm, Qc'.
Qed.

Lemma calls_hok l m : (forall c, In c l -> mpkk_call_ok n ms c) -> mok p m -> hok (flat_map (mpkk_cmds true q) l) m (mok p).
Proof.
  revert m. induction l as [|c l IH]; intros m Hl HM; cbn [flat_map]; [apply hok_nil; auto|].
  apply hok_app. eapply hok_conseq; [apply call_hok; auto; apply Hl; left; auto|]. cbn beta. intros m' [HM' _].
  apply IH; auto. intros d Hd. apply Hl. right; auto.
Qed.
End Calls.

Lemma lemma_C80 : ms <> [] -> exists p q, make_mpoly (N:=RNum) srt n cs ms = Some p /\ make_mpkk (N:=RNum) true srt n cs ms = Some q /\
  forall l c, (forall d, In d l -> mpkk_call_ok n ms d) -> mpkk_call_ok n ms c ->
  exists m0 m1, (forall o, hexec (flat_map (mpkk_cmds true q) l) (mpkk_mem q) o <-> o = Some m0) /\
    (forall o, hexec (mpkk_cmds true q c) m0 o <-> o = Some m1) /\ same_result p c m1.
Proof.
  intros Hne. destruct (make_mpkk_ok true Hne) as (p & Ep & Eq & W & Pn & Pv & Pa & Pc & Pm).
  eexists p, _. split; [exact Ep|]. split; [exact Eq|]. intros l c Hl Hc. cbn [pad_e].
  destruct (hok_exec _ _ _ (calls_hok p _ W Pn Pv Pa Pc Pm eq_refl l _ Hl (mok_new p _ Pv Pa eq_refl))) as (m0 & H0 & M0).
  destruct (hok_exec _ _ _ (call_hok p _ W Pn Pv Pa Pc Pm eq_refl c m0 Hc M0)) as (m1 & H1 & _ & S1).
  exists m0, m1. auto.
Qed.
End Objects.

(** ** where the classes differ *)
Definition ms_shared : list (list nat) := [[0]; [0; 1]]%nat.
Lemma ms_shared_ok : monos_ok 2 ms_shared /\ NoDup ms_shared.
Proof.
  split; [repeat constructor; try discriminate|].
  repeat constructor; cbn; intuition discriminate.
Qed.
Lemma steps_left A p m p' m' q (k : prog RNum A) : steps unit p m p' m' -> steps A (Fork p q k) m (Fork p' q k) m'.
Proof. induction 1; [constructor|]. econstructor; [apply step_left; eauto|auto]. Qed.
Lemma lemma_C80_race : forall srt, (forall l, Permutation l (srt l)) ->
  exists q, make_mpkk (N:=RNum) true srt 2 [1; 1] ms_shared = Some q /\
    hexec (mpkk_cmds true q (QGradSimple [1; 1] [0; 0])) (mpkk_mem q) None.
Proof.
  intros srt Hsrt. destruct (make_mpkk_ok srt Hsrt 2 [1; 1] ms_shared (proj1 ms_shared_ok) eq_refl true ltac:(discriminate))
    as (p & Ep & Eq & W & Pn & Pv & Pa & Pc & Pm).
  eexists. split; [exact Eq|]. set (q := mkMpKk _ _ _ _ _ _ _ _).
  cbn [mpkk_cmds]. unfold k_evaluate_gradient_simple.
  eapply hexec_op; [reflexivity|]. set (m1 := set_view _ _ _ _).
  assert (H1 : wp top (k_simple (N:=RNum) q [1; 1]) m1 (fun _ m' => dims m' = dims m1 /\ va m' (qF, []) = poly [1; 1] ms_shared [1; 1] /\
    (forall c, fst c <> qF -> fst c <> bScr -> va m' c = va m1 c))).
  { apply (simple_wp 2 [1; 1] ms_shared q (proj1 ms_shared_ok) eq_refl eq_refl eq_refl eq_refl); reflexivity. }
  destruct H1 as ([] & m2 & R2 & D2 & _).
  eapply hexec_run; [eapply run_exec; exact R2|].
  eapply hexec_op; [reflexivity|]. set (m3 := fill_view _ _ _).
  assert (AG : forall m : rmem, dims m = dims m3 -> alloc m (qG, [0%nat]) = true).
  { intros m D. apply (al1 m qG 2); [|lia]. rewrite D. change (dims m3 qG) with (dims m2 qG). rewrite D2. reflexivity. }
  eapply hexec_run_ub.
  - unfold k_gradient_simple. cbn [q_coeffs q length par_for]. apply steps_left. 
    eapply steps_step; [|apply steps_refl]. apply step_right.
    apply step_get. apply AG. reflexivity.
  - eapply (ub_race _ _ _ _ _ Write Read (qG, [0%nat])); [|apply about_get|exact I].
    apply about_right. apply about_put.
Qed.

(** memory that the host cannot access *)
Lemma lemma_C80_device : forall srt, (forall l, Permutation l (srt l)) -> forall n cs ms (x : list R),
  monos_ok n ms -> ms <> [] -> length cs = length ms -> length x = n ->
  exists q, make_mpkk (N:=RNum) false srt n cs ms = Some q /\ hexec (mpkk_cmds false q (QEval x)) (mpkk_mem q) None.
Proof.
  intros srt Hsrt n cs ms x Hm Hne HL Hx. destruct (make_mpkk_ok srt Hsrt n cs ms Hm HL false Hne)
    as (p & Ep & Eq & W & Pn & Pv & Pa & Pc & Pm).
  eexists. split; [exact Eq|]. set (q := mkMpKk _ _ _ _ _ _ _ _). cbn [mpkk_cmds]. unfold k_evaluate.
  assert (HM : mok p (mpkk_mem q)).
  { split; [|split]; [exact (f_equal (fun k => [k]) Pv)|exact (f_equal (fun k => [k]) Pa)|reflexivity]. }
  destruct (init_forward_wp p q W (eq_sym Pn) x _ (eq_trans Hx (eq_sym Pn)) HM) as ([] & m1 & R1 & _).
  eapply hexec_run; [eapply run_exec; exact R1|]. eapply hexec_run_ub; [apply steps_refl|]. apply ub_fail.
Qed.
Definition ms_pad : list (list nat) := [[1]; [0; 1]]%nat.
Lemma lemma_C80_padding : forall srt, (forall l, Permutation l (srt l)) ->
  exists p q m', make_mpoly (N:=RNum) srt 2 [1; 1] ms_pad = Some p /\ make_mpkk (N:=RNum) false srt 2 [1; 1] ms_pad = Some q /\
    mp_evaluate_simple p [2; 3] = Some 9 /\
    (forall o, hexec (mpkk_cmds false q (QSimple [2; 3])) (mpkk_mem q) o <-> o = Some m') /\ mpkk_f m' = 12.
Proof.
  intros srt Hsrt. assert (Hm : monos_ok 2 ms_pad) by (repeat constructor; try discriminate).
  destruct (make_mpkk_ok srt Hsrt 2 [1; 1] ms_pad Hm eq_refl false ltac:(discriminate)) as (p & Ep & Eq & W & Pn & Pv & Pa & Pc & Pm).
  set (q := mkMpKk _ _ _ _ _ _ _ _) in Eq.
  assert (H : hok (mpkk_cmds false q (QSimple [2; 3])) (mpkk_mem q) (fun m' => mpkk_f m' = 12)).
  { cbn [mpkk_cmds]. apply hok_run. unfold k_simple. apply wp_bind.
    apply (wp_red1r top [] _ _ (fun i => nth i [1 * (3 * 2); 1 * (2 * 3)] 0)); [reflexivity| |].
    - intros j Hj. change (j < 2)%nat in Hj. destruct j as [|[|j]]; [| |lia]; eapply wp_lift; try reflexivity; eapply wp_lift; try reflexivity; apply wp_ret; reflexivity.
    - intros m' D O. apply wp_put_; [reflexivity|change (inb (dims m' qF) [] = true); rewrite D; reflexivity|].
      apply hok_nil. unfold mpkk_f. match goal with |- val ?m ?c = _ => change (va m c = 12) end. rewrite va_store_eq. cbn. ring. }
  destruct (hok_exec _ _ _ H) as (m' & H1 & H2). exists p, q, m'. split; auto. split; auto. split; auto.
  rewrite (evaluate_simple_ok p 2) by (rewrite ?Pc, ?Pm; auto). f_equal. rewrite Pc, Pm. unfold poly, mono. cbn. ring.
Qed.

(** no terms: the view [nodes] has no columns *)
Lemma for_first_none {S} k (body : nat -> S -> option S) s : body 0%nat s = None -> for_ (Datatypes.S k) body s = None.
Proof. intros H. unfold for_. cbn [for_from]. rewrite H. reflexivity. Qed.
Lemma lemma_C80_no_terms : forall srt, (forall l, Permutation l (srt l)) -> forall host n, (0 < n)%nat ->
  (exists p, make_mpoly (N:=RNum) srt n [] [] = Some p) /\ make_mpkk (N:=RNum) host srt n [] [] = None.
Proof.
  intros srt Hsrt host n Hn. assert (Hm : monos_ok n []) by constructor.
  destruct (make_mpoly_ok srt Hsrt n [] Hm) as (nodes & edges & naux & G & H). destruct (H RNum [] eq_refl) as (nc & E & _).
  split; [eauto|]. unfold make_mpkk. cbn [fold_left]. unfold int_table at 1. cbn [length for_ for_from bind repeat]. rewrite E. cbn [bind mp_nodes].
  destruct (go_split _ _ _ _ _ G) as (rest & -> & _). destruct n as [|n]; [lia|]. cbn [seq map app].
  unfold int_table. cbn [length]. rewrite for_first_none; auto.
Qed.
