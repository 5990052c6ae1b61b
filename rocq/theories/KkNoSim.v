(** The kernels of the second layer when the lists they are given go on beyond the nodes they work on: they do what they do with the exact
    lists.  Used in proofs only. *)
From Coq Require Import List Arith ZArith Bool Lia Reals.
From Verif Require Import Base BaseLemmas Instances RSums MaceModel Segs Sys SysLoops MaceGrid MacePure MaceStages1 DistNo.
From Verif Require Import KkSem KkSound KkWp KkModel KkHost KkSim.
Import ListNotations.
Local Open Scope nat_scope.

Ltac psl := apply ps_lift; let a := fresh "a" in let E := fresh "E" in intros a E;
  first [exact E|apply rd_app1; exact E|apply first_neigh_app; exact E].
Ltac ps1 := first
  [ psl
  | apply ps_bind; [|intros]
  | apply ps_par; intros
  | apply ps_for; intros
  | apply ps_red; intros | apply ps_red2; intros | apply ps_red3; intros
  | apply ps_guard
  | apply ps_refl ].
Ltac psa := repeat ps1.

Section Sim.
Variable km : kmace RNum.
Variable junk : rmem -> cell -> R.
Variable n : nat.
Variables (nt nn ni et : list nat) (xyz r : list R).
Variables (nt' nn' ni' et' : list nat) (xyz' r' : list R).

Lemma ps_zbl z an : psim (kk_ZBL (N:=RNum) z n nt nn et an r xyz) (kk_ZBL z n (nt ++ nt') (nn ++ nn') (et ++ et') an (r ++ r') (xyz ++ xyz')).
Proof. unfold kk_ZBL. psa. Qed.
Lemma ps_P1r : psim (kk_Phi1r_kernel km n nn ni) (kk_Phi1r_kernel km n (nn ++ nn') ni).
Proof. unfold kk_Phi1r_kernel. psa. Qed.
Lemma ps_rP1r : psim (kk_reverse_Phi1r_kernel km n nn ni xyz r) (kk_reverse_Phi1r_kernel km n (nn ++ nn') ni (xyz ++ xyz') (r ++ r')).
Proof. unfold kk_reverse_Phi1r_kernel. psa. Qed.
Lemma ps_rsc bA bAa bv bd : psim (kk_reverse_scale_kernel km n nn xyz r bA bAa bv bd) (kk_reverse_scale_kernel km n (nn ++ nn') (xyz ++ xyz') (r ++ r') bA bAa bv bd).
Proof. unfold kk_reverse_scale_kernel. psa. Qed.
Lemma ps_sc bA bv : psim (kk_scale_kernel km n nn bA bv) (kk_scale_kernel km n (nn ++ nn') bA bv).
Proof. unfold kk_scale_kernel. psa. Qed.
Lemma ps_M1 : psim (kk_M1_kernel km n nt) (kk_M1_kernel km n (nt ++ nt')).
Proof. unfold kk_M1_kernel. psa. Qed.
Lemma ps_rM1 : psim (kk_reverse_M1_kernel km n nt) (kk_reverse_M1_kernel km n (nt ++ nt')).
Proof. unfold kk_reverse_M1_kernel. psa. Qed.
Lemma ps_H2 : psim (kk_H2_kernel_1 km n nt) (kk_H2_kernel_1 km n (nt ++ nt')).
Proof. unfold kk_H2_kernel_1. psa. Qed.
Lemma ps_rH2 : psim (kk_reverse_H2_kernel km n nt) (kk_reverse_H2_kernel km n (nt ++ nt')).
Proof. unfold kk_reverse_H2_kernel. psa. Qed.

Ltac hs := repeat first [apply hcsims_refl | constructor; [first [apply hcsim_refl | cbn [hcsim]; auto using ps_zbl, ps_P1r, ps_rP1r, ps_rsc, ps_sc, ps_M1, ps_rM1, ps_H2, ps_rH2]|]].
Lemma hs_Phi1 : Forall2 hcsim (kk_compute_Phi1 km n nn ni) (kk_compute_Phi1 km n (nn ++ nn') ni).
Proof. unfold kk_compute_Phi1. hs. Qed.
Lemma hs_M1 : Forall2 hcsim (kk_compute_M1 km n nt) (kk_compute_M1 km n (nt ++ nt')).
Proof. unfold kk_compute_M1. hs. Qed.
Lemma hs_H2 : Forall2 hcsim (kk_compute_H2 km n nt) (kk_compute_H2 km n (nt ++ nt')).
Proof. unfold kk_compute_H2. hs. Qed.
Lemma hs_rH2 z : Forall2 hcsim (kk_reverse_H2 km n nt z) (kk_reverse_H2 km n (nt ++ nt') z).
Proof. unfold kk_reverse_H2. destruct z; cbn [app]; hs. Qed.
Lemma hs_rM1 : Forall2 hcsim (kk_reverse_M1 km n nt) (kk_reverse_M1 km n (nt ++ nt')).
Proof. unfold kk_reverse_M1. hs. Qed.
Lemma hs_rsA1 : Forall2 hcsim (kk_reverse_A1_scaled km n nn xyz r) (kk_reverse_A1_scaled km n (nn ++ nn') (xyz ++ xyz') (r ++ r')).
Proof. unfold kk_reverse_A1_scaled. destruct (k_A1_scaled km); hs. Qed.
Lemma ps_ro0 : psim (kk_readout_0_kernel km n nt) (kk_readout_0_kernel km n (nt ++ nt')).
Proof. unfold kk_readout_0_kernel. psa. Qed.
Lemma hs_ro : Forall2 hcsim (kk_compute_readouts junk km n nt) (kk_compute_readouts junk km n (nt ++ nt')).
Proof. unfold kk_compute_readouts. apply Forall2_app; [|apply hcsims_refl]. repeat (constructor; [first [apply hcsim_refl|cbn [hcsim]; apply ps_ro0]|]). constructor. Qed.
End Sim.
