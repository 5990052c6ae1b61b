(** Ghost communication on arrays with more rows than atoms.  Used in proofs only. *)
From Coq Require Import List Arith ZArith Lia Bool Reals Lra Permutation.
From Verif Require Import Base BaseLemmas Instances RSums MaceGradSpec MaceForces AseGrad PairModel PairMpiModel PairCommSpec PairTally PairComm PairKokkosModel PairKokkosComm KkPairMpi2Model.
Import ListNotations.

Lemma plan_more size size' own gs : length size' = length size -> (forall r, nth r size 0 <= nth r size' 0) ->
  forall known, plan_ok size own known gs -> plan_ok size' own known gs.
Proof.
  intros EL LE. induction gs as [|g gs IH]; intros known HP; [exact I|]. destruct HP as (P1 & P2 & P3 & P4). cbn [plan_ok]. rewrite EL.
  split; [exact P1|]. split; [exact P2|]. split; [|apply IH; exact P4].
  intros k i Hk. destruct (P3 k i Hk) as (Q1 & Q2 & Q3). pose proof (LE (g_src g)). pose proof (LE (g_dst g)). split; [lia|]. split; [lia|exact Q3].
Qed.

Section More.
Variable W : nat.
Variables size size' : list nat.
Variable own : slot -> slot.
Hypothesis EL : length size' = length size.
Hypothesis LE : forall r, nth r size 0 <= nth r size' 0.
Lemma forward_more nloc gs (hs : list (list R)) : comm_ok nloc size own gs -> arrays_ok W size' hs ->
  exists hs', forward_comm (N:=RNum) W gs hs = Some hs' /\ arrays_ok W size' hs' /\
    (forall z k, In z (atoms size) -> k < W -> at_slot W (0 : R)%R hs' z k = at_slot W (0 : R)%R hs (own z) k).
Proof.
  intros [C1 C2 C3 C4 C5 C6] HA.
  destruct (forward_comm_ok (N:=RNum) W 0%R size' own gs (locals nloc) hs (plan_more size size' own gs EL LE _ C5) HA) as (hs' & E & A & B1 & _ & B3).
  exists hs'. split; [exact E|]. split; [exact A|].
  intros z k Hz Hk. destruct (C6 z Hz) as [Hl|(g & Hg & Hd)].
  - rewrite (C3 z Hl). apply B1; auto.
  - destruct (B3 g z Hg Hd) as (z0 & Z1 & Z2 & Z3). etransitivity; [apply Z3; exact Hk|]. f_equal. rewrite <- Z2. symmetry. apply C3. exact Z1.
Qed.
Local Open Scope R_scope.
Lemma reverse_more nloc gs (hs : list (list R)) : comm_ok nloc size own gs -> arrays_ok W size' hs ->
  exists hs', reverse_comm (N:=RNum) W gs hs = Some hs' /\ arrays_ok W size' hs' /\
    forall o k, In o (locals nloc) -> (k < W)%nat -> at_slot W (0 : R) hs' o k = total (map (fun z => at_slot W (0 : R) hs z k) (owned size own o)).
Proof.
  intros [C1 C2 C3 C4 C5 C6] HA. pose proof (plan_more size size' own gs EL LE _ C5) as C5'.
  destruct (reverse_comm_ok W size' own gs (locals nloc) hs (NoDup_slots nloc) C5' HA) as (hs' & E & A & B).
  exists hs'. split; [exact E|]. split; [exact A|]. intros o k Ho Hk. specialize (B o k Hk).
  assert (PM : Permutation (locals nloc ++ flat_map dests gs) (atoms size)).
  { apply NoDup_Permutation; [apply (plan_nodup size own); [apply NoDup_slots|exact C5]|apply NoDup_slots|]. intros z. split.
    - intros Hz. apply in_app_or in Hz. destruct Hz as [Hz|Hz].
      + destruct z as [r i]. apply locals_in in Hz. apply (locals_in size). destruct Hz as [Hr Hi]. split; [lia|]. specialize (C2 r ltac:(lia)). lia.
      + clear - C5 Hz. revert C5 Hz. generalize (locals nloc). induction gs as [|g gs IH]; intros known C5 Hz; [destruct Hz|]. cbn [flat_map] in Hz. destruct C5 as (P1 & P2 & P3 & P4).
        apply in_app_or in Hz. destruct Hz as [Hz|Hz]; [|eapply IH; eauto]. apply in_dests in Hz. destruct Hz as (m & i & Hm & ->).
        destruct (P3 m i Hm) as (_ & Q & _). apply (locals_in size). auto.
    - intros Hz. apply in_or_app. destruct (C6 z Hz) as [Hl|(g & Hg & Hd)]; [left; exact Hl|]. right. apply in_flat_map. eauto. }
  rewrite (osum_perm _ _ _ _ _ PM), (osum_filter own o _ (atoms size)) in B. unfold owned. rewrite <- B. clear - C3 Ho.
  assert (ND : NoDup (locals nloc)) by apply NoDup_slots. revert C3 Ho ND. generalize (locals nloc) as l. induction l as [|z l IH]; intros C3 Ho ND; [destruct Ho|].
  inversion_clear ND. unfold osum in *. cbn [map total fold_right]. rewrite (C3 z) by (simpl; auto). destruct (slot_eqb_spec z o) as [->|Ne].
  - rewrite (map_ext_in _ (fun _ => 0)).
    + replace (fold_right Rplus 0 (map (fun _ => 0) l)) with 0; [lra|]. clear. induction l; cbn; lra.
    + intros z' Hz'. rewrite (C3 z') by (simpl; auto). destruct (slot_eqb_spec z' o) as [E'|]; [exfalso; congruence|reflexivity].
  - destruct Ho as [Ho|Ho]; [congruence|]. unfold total in IH. rewrite <- IH by (auto; intros; apply C3; simpl; auto). lra.
Qed.
End More.

Lemma forward_any host ords W gs (hs : list (list RNum)) : ords_ok W gs ords -> forward host ords W gs hs = forward_comm W gs hs.
Proof. intros H. unfold forward. destruct host; [apply forward_host|apply forward_kk; exact H]. Qed.
Lemma reverse_any host ords W gs (hs : list (list RNum)) : ords_ok W gs ords -> reverse host ords W gs hs = reverse_comm (N:=RNum) W gs hs.
Proof. intros H. unfold reverse. destruct host; [apply reverse_host|apply reverse_kk; exact H]. Qed.
