(** compute_Y on any array of edge vectors: values and gradient order. *)
From Coq Require Import List Arith ZArith Lia Reals Lra.
From Verif Require Import Base BaseLemmas Segs Instances RSums MlpR MaceModel Sys SysLoops MacePure MaceStages1 MaceStages2 MaceSpec MaceFlat MaceGrad MaceGradSpec.
Import ListNotations.

Section One.
Context {N : Num}.
Variable sph : nat -> N -> N -> N -> list N * list N.
Hypothesis Hsph : sph_ok sph.
Variable m : mace_model N.
Notation L := ((m_l_max m + 1) * (m_l_max m + 1)).

Definition one_edges (n : nat) (xyz : list N) : list (edge N) :=
  map (fun q => mkEdge 0 0 (nth (3 * q) xyz nzero) (nth (3 * q + 1) xyz nzero) (nth (3 * q + 2) xyz nzero) nzero) (seq 0 n).
Definition one_sys n xyz : sys N := [mkNode 0 (one_edges n xyz)].

Lemma one_xyz n xyz : length xyz = 3 * n -> f_xyz (one_sys n xyz) = xyz.
Proof.
  intros H. unfold f_xyz, one_sys, all_edges, one_edges. cbn [flat_map n_edges]. rewrite app_nil_r.
  rewrite flat_map_concat_map, map_map. cbn [e_x e_y e_z]. rewrite <- flat_map_concat_map. apply flat_3. exact H.
Qed.
Lemma one_pairs n xyz q : q < n -> nth_error (epairs (one_sys n xyz)) q =
  Some (0, mkEdge 0 0 (nth (3 * q) xyz nzero) (nth (3 * q + 1) xyz nzero) (nth (3 * q + 2) xyz nzero) nzero).
Proof.
  intros H. unfold epairs, one_sys. cbn [length seq flat_map]. rewrite app_nil_r. unfold es, nd_, one_edges. cbn [nth n_edges].
  rewrite map_map. erewrite map_nth_error; [reflexivity|]. rewrite (nth_error_nth' _ 0) by (rewrite seq_length; exact H). rewrite seq_nth by exact H. reflexivity.
Qed.

Lemma Y_lemma n xyz Y0 Yg0 xs0 : length xyz = 3 * n -> exists Y Yg xs, compute_Y sph m xyz Y0 Yg0 xs0 = Some (Y, Yg, xs) /\
  forall q, q < n -> exists x y z, rd xyz (3 * q) = Some x /\ rd xyz (3 * q + 1) = Some y /\ rd xyz (3 * q + 2) = Some z /\
  forall lm, lm < L ->
    rd Y (q * L + lm) = Some (nmul (nth lm (fst (sph (m_l_max m) z x y)) nzero) (nmul (nofZ 2) (nsqrt npi))) /\
    forall a, a < 3 -> rd Yg (3 * q * L + a * L + lm) =
      Some (nmul (nth (nth a [1; 2; 0] 0 * L + lm) (snd (sph (m_l_max m) z x y)) nzero) (nmul (nofZ 2) (nsqrt npi))).
Proof.
  intros Hl. destruct (compute_Y_ok sph m (one_sys n xyz) (fun a b c => Hsph (m_l_max m) a b c) Y0 Yg0 xs0) as (Y & G & xs & E & RY & RG & _).
  rewrite one_xyz in E by exact Hl. exists Y, G, xs. split; [exact E|]. intros q Hq.
  exists (nth (3 * q) xyz nzero), (nth (3 * q + 1) xyz nzero), (nth (3 * q + 2) xyz nzero).
  split; [apply rd_some; lia|]. split; [apply rd_some; lia|]. split; [apply rd_some; lia|]. intros lm Hlm. split.
  - apply (RY q _ _ lm _ (one_pairs n xyz q Hq) Hlm eq_refl).
  - intros a Ha. rewrite (RG q _ _ (a * L + lm) _ (one_pairs n xyz q Hq)); [|unfold num_lm; nia|unfold num_lm; lia].
    unfold Yg, num_lm, at_, ynorm. cbn [e_x e_y e_z].
    assert (EI : (a * L + lm + L) mod (3 * L) = nth a [1; 2; 0] 0 * L + lm); [|rewrite EI; reflexivity].
    destruct a as [|[|[|a]]]; [| | |lia]; cbn [nth].
    + rewrite Nat.mod_small; lia.
    + rewrite Nat.mod_small; lia.
    + replace (2 * L + lm + L) with (lm + 1 * (3 * L)) by lia. rewrite Nat.mod_add, Nat.mod_small; lia.
Qed.
End One.

Local Open Scope R_scope.
Lemma Y_grad_lemma sph : sph_ok (N:=RNum) sph -> sph_gradient sph -> forall (m : mace_model RNum) n (xyz : list R) Y0 Yg0 xs0,
  length xyz = (3 * n)%nat -> exists Y Yg xs, compute_Y sph m xyz Y0 Yg0 xs0 = Some (Y, Yg, xs) /\
  forall q a lm, (q < n)%nat -> (a < 3)%nat -> (lm < (m_l_max m + 1) * (m_l_max m + 1))%nat -> norm2 xyz q <> 0 ->
  exists G E, rd Yg (3 * q * ((m_l_max m + 1) * (m_l_max m + 1)) + a * ((m_l_max m + 1) * (m_l_max m + 1)) + lm) = Some G /\
    (forall u, exists Y' Yg' xs', compute_Y sph m (upd xyz (3 * q + a) u) Y0 Yg0 xs0 = Some (Y', Yg', xs') /\
       rd Y' (q * ((m_l_max m + 1) * (m_l_max m + 1)) + lm) = Some (E u)) /\
    derivable_pt_lim E (nth (3 * q + a) xyz 0) G.
Proof.
  intros Hs Hg m n xyz Y0 Yg0 xs0 Hl. set (L := ((m_l_max m + 1) * (m_l_max m + 1))%nat).
  destruct (Y_lemma sph Hs m n xyz Y0 Yg0 xs0 Hl) as (Y & G & xs & E & H). exists Y, G, xs. split; [exact E|].
  intros q a lm Hq Ha Hlm Hn. destruct (H q Hq) as (x & y & z & Ex & Ey & Ez & HL). destruct (HL lm Hlm) as (_ & HG).
  assert (Hp : forall b, (b < 3)%nat -> (3 * q + b < length xyz)%nat) by (intros; lia).
  set (c := fun b u => nth (3 * q + b) (upd xyz (3 * q + a) u) 0).
  exists (nth (nth a [1; 2; 0]%nat 0%nat * L + lm)%nat (snd (sph (m_l_max m) z x y)) 0 * (2 * sqrt PI)),
    (fun u => nth lm (fst (sph (m_l_max m) (c 2%nat u) (c 0%nat u) (c 1%nat u))) 0 * (2 * sqrt PI)).
  split; [|split].
  - fold L in HG. rewrite (HG a Ha). rewrite RNum_zero. reflexivity.
  - intros u. destruct (Y_lemma sph Hs m n (upd xyz (3 * q + a) u) Y0 Yg0 xs0 ltac:(rewrite length_upd; exact Hl)) as (Y' & G' & xs' & E' & H').
    exists Y', G', xs'. split; [exact E'|]. destruct (H' q Hq) as (x' & y' & z' & Ex' & Ey' & Ez' & HL'). destruct (HL' lm Hlm) as (HY' & _).
    fold L in HY'. rewrite HY'. rewrite RNum_zero. unfold c. rewrite Nat.add_0_r.
    rewrite (rd_nth _ _ _ 0 Ex'), (rd_nth _ _ _ 0 Ey'), (rd_nth _ _ _ 0 Ez'). reflexivity.
  - assert (D : forall b, (b < 3)%nat -> derivable_pt_lim (c b) (nth (3 * q + a) xyz 0) (if (a =? b)%nat then 1 else 0)).
    { intros b Hb. unfold c. pose proof (nth_upd_curve xyz (3 * q + a) (3 * q + b) (nth (3 * q + a) xyz 0) (Hp a Ha)) as D.
      destruct (Nat.eqb_spec a b); destruct (Nat.eqb_spec (3 * q + a) (3 * q + b)); try lia; exact D. }
    assert (C : forall b, c b (nth (3 * q + a) xyz 0) = nth (3 * q + b) xyz 0) by (intros b; unfold c; rewrite upd_same; reflexivity).
    assert (Gd := Hg (m_l_max m) (c 2%nat) (c 0%nat) (c 1%nat) _ _ _ _ (D 2%nat ltac:(lia)) (D 0%nat ltac:(lia)) (D 1%nat ltac:(lia))).
    rewrite !C in Gd. rewrite Nat.add_0_r in Gd. specialize (Gd ltac:(unfold norm2 in Hn; lra) lm Hlm).
    rewrite (rd_nth _ _ _ 0 Ex), (rd_nth _ _ _ 0 Ey), (rd_nth _ _ _ 0 Ez) in Gd. fold L in Gd.
    eapply dlim_eq; [|apply (dlim_scal_r _ _ (2 * sqrt PI) _ Gd)]. apply (f_equal (fun w => w * (2 * sqrt PI))).
    destruct a as [|[|[|a]]]; [| | |lia]; cbn [nth Nat.eqb Nat.mul]; rewrite ?Nat.add_0_r; cbn [Nat.add]; try ring.
Qed.
