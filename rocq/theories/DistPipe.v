(** The two layers of an evaluation when the features of the first layer come from elsewhere: the quantities computed by the
    pieces of the distributed pair style, as functions of the local system. *)
From Coq Require Import List Arith ZArith Lia Bool.
From Verif Require Import Base BaseLemmas Segs BlasModel BlasLemmas SplineModel MpModel MpProofs MlpModel
  ZblModel ZblProofs MaceModel Sys SysLoops MaceGrid MacePure MaceStages1 MaceStages2 MaceStages3 MaceStages4 MaceStages5
  MaceStages6 MaceStages7 MaceStages8 MacePipe MaceHsrc PairModel PairMpiModel.
Import ListNotations.

Section Dist.
Context {N : Num}.
Variable sph : nat -> N -> N -> N -> list N * list N.
Hypothesis Hsph : forall l x y z, length (fst (sph l x y z)) = (l + 1) * (l + 1) /\
  length (snd (sph l x y z)) = 3 * ((l + 1) * (l + 1)).
Variable m : mace_model N.
Variables (P0 P1 : nat -> @mpoly N).
Variable live : @mlp N -> Prop.
Variable fe : list N -> N.
Variable fg : list N -> nat -> N.
Variable s : sys N.
Notation n := (length s).
Notation T := (length (m_atomic_numbers m)).
Notation K := (m_num_channels m).
Notation lms := (num_lm m).
Notation LMs := (num_LM m).
Notation nle := (length (m_Phi1_l m)).
Notation NP := (m_num_lelm1lm2 m).
Notation NL := (m_num_lme m).

(** second layer, given the features [H] *)
Section Second.
Variable H : nat -> nat -> nat -> N.
Definition hP1r := phi1r m s (R1v m s) (Yv sph m) H.
Definition hP1 := phi1 m hP1r.
Definition hA1 := odivs (m_A1_scaled m) (sc1 m s) (a1raw m hP1).
Definition hM1 := m1 m s P1 hA1.
Definition hH2 := h2 m s (fun i k => H i 0 k) hM1.
Definition hE : nat -> N := en m s fe (zE m s) (fun i k => H i 0 k) hH2.
Definition gH2 i k : N := fg (tab K (hH2 i)) k.
Definition gH1a := rH2n m s (ra1 m s) gH2.
Definition gM1 := rH2m m gH2.
Definition gA1r := rm1 (g1 m s P1 hA1) gM1.
Definition gF1 := ofsc s (m_A1_scaled m) (spl1 m) (sc1 m s) (dotlk m gA1r hA1) (zF m s).
Definition gA1 := odivs (m_A1_scaled m) (sc1 m s) gA1r.
Definition gP1r := phi1T m (rA1f m gA1).
Definition gF2 := fold1 m (R1v m s) (R1d m s) (Yv sph m) (Yg sph m) H gP1r gF1.
Definition gH1l (nH : nat) := adds (cube nH LMs K gH1a) (hadds m s (R1v m s) (Yv sph m) gP1r).
End Second.
(** reverse pass through the first layer, given the adjoints [Ha] of the features *)
Section First.
Variable Ha : nat -> nat -> nat -> N.
Variable F2 : nat -> edge N -> nat -> N.
Definition rrM0 := mulH1T m Ha.
Definition rrA0r := rm0 m (g0 m s P0 (pA0 sph m s)) rrM0.
Definition rrF3 := ofsc s (m_A0_scaled m) (spl0 m) (sc0 m s) (dotlk m rrA0r (pA0 sph m s)) F2.
Definition rrA0 := odivs (m_A0_scaled m) (sc0 m s) rrA0r.
Definition rrF := fold0 m (R0v m s) (R0d m s) (Yv sph m) (Yg sph m) (mulW0T m s rrA0) rrF3.
End First.

(** without a break these are the quantities of one evaluation *)
Lemma pE_hE : pE sph m P0 P1 fe s = hE (pH1 sph m P0 s).
Proof. reflexivity. Qed.
Lemma qF2_gF2 : qF2 sph m P0 P1 fg s = gF2 (pH1 sph m P0 s).
Proof. reflexivity. Qed.
Lemma pF_rrF : pF sph m P0 P1 fg s = rrF (qH1 sph m P0 P1 fg s) (gF2 (pH1 sph m P0 s)).
Proof. reflexivity. Qed.

Hypothesis W : mace_wf m.
Hypothesis Wz : zbl_wf m.
Variable nH : nat.
Hypothesis HnH : n <= nH.
Hypothesis SW : sys_wf m s nH.
Hypothesis RO : ro_ok m live fe fg.

Notation bl b := (bufs_live m P0 P1 live b).

(** the state after the first piece *)
Record begun (b : mace_bufs N) (p : pair_bufs N) (Eb Fb : list N) : Prop := {
  bg_nt : p_node_types p = f_node_types s;
  bg_nn : p_num_neigh p = f_num_neigh s;
  bg_j : p_neigh_j p = f_neigh_indices s;
  bg_ty : p_neigh_types p = f_neigh_types s;
  bg_xyz : p_xyz p = f_xyz s;
  bg_r : p_r p = f_r s;
  bg_E : b_node_energies b = Eb;
  bg_F : b_node_forces b = Fb;
  bg_Y : eread s (b_Y b) lms (Yv sph m);
  bg_Yg : eread s (b_Y_grad b) (3 * lms) (Yg sph m);
  bg_R0 : b_R0 b = eb s ((m_l_max m + 1) * K) (R0v m s);
  bg_R0d : b_R0_deriv b = eb s ((m_l_max m + 1) * K) (R0d m s);
  bg_A0 : b_A0 b = cube n lms K (pA0 sph m s);
  bg_M0 : b_M0 b = cube n LMs K (pM0 sph m P0 s);
  bg_M0g : forall i L lm k, i < n -> L < LMs -> lm < lms -> k < K -> rd (b_M0_grad b) (gix m i L lm k) = Some (g0 m s P0 (pA0 sph m s) i L lm k);
  bg_live : bl b
}.

(** the evaluator before the first communication, started on gathered arrays *)
Definition begin_eval (num_nodes : nat) (node_types num_neigh neigh_types : list nat) (xyz r : list N) (b : mace_bufs N) :
    option (mace_bufs N) :=
  let node_energies := fill nzero (resize nzero (b_node_energies b) num_nodes) in
  let node_forces := fill nzero (resize nzero (b_node_forces b) (length xyz)) in
  ' (node_energies, node_forces) <-
    (if m_has_zbl m then
       compute_ZBL (m_zbl m) num_nodes node_types num_neigh neigh_types (m_atomic_numbers m) r xyz node_energies node_forces
     else Some (node_energies, node_forces)) ;;
  ' (Y, Y_grad, xyz_shuffled) <- compute_Y sph m xyz (b_Y b) (b_Y_grad b) (b_xyz_shuffled b) ;;
  ' (R0, R0_deriv) <- compute_R0 m num_nodes node_types num_neigh neigh_types r (b_R0 b) (b_R0_deriv b) ;;
  A0 <- compute_A0 m num_nodes node_types num_neigh neigh_types Y R0 (b_A0 b) ;;
  A0 <- compute_A0_scaled m num_nodes node_types num_neigh neigh_types r A0 ;;
  ' (P0, M0, M0_grad) <- compute_M0 m num_nodes node_types A0 (b_P0 b) (b_M0 b) (b_M0_grad b) ;;
  mH1 <- compute_H1 m num_nodes M0 (b_H1 b) ;;
  Some (mkBufs node_energies node_forces R0 R0_deriv (b_R1 b) (b_R1_deriv b) Y Y_grad xyz_shuffled A0 (b_A0_adj b)
          M0 M0_grad (b_M0_adj b) P0 mH1 (b_H1_adj b) (b_Phi1r b) (b_dPhi1r b) (b_Phi1 b) (b_dPhi1 b) (b_A1 b) (b_A1_adj b)
          (b_M1 b) (b_M1_grad b) (b_M1_adj b) (b_P1 b) (b_H2 b) (b_H2_adj b) (b_readout_2 b)).

Lemma begin_eval_ok b : bl b -> exists b', begin_eval n (f_node_types s) (f_num_neigh s) (f_neigh_types s) (f_xyz s) (f_r s) b = Some b' /\
  b_H1 b' = cube n LMs K (pH1 sph m P0 s) /\
  forall p, p_node_types p = f_node_types s -> p_num_neigh p = f_num_neigh s -> p_neigh_j p = f_neigh_indices s ->
    p_neigh_types p = f_neigh_types s -> p_xyz p = f_xyz s -> p_r p = f_r s -> begun b' p (tab n (zE m s)) (eb s 3 (zF m s)).
Proof.
  intros (L0 & L1 & Lr). unfold begin_eval.
  rewrite !fill_resize, (zbl_ok m s Wz nH SW). cbn [bind].
  destruct (compute_Y_ok sph m s (fun a b c => Hsph (m_l_max m) a b c) (b_Y b) (b_Y_grad b) (b_xyz_shuffled b)) as (Y' & Yg' & xs' & EY & RY & RYg & _).
  rewrite EY. cbn [bind].
  rewrite (compute_R0_ok m s W nH SW). cbn [bind].
  rewrite (compute_A0_ok m s W nH SW _ _ _ _ _ RY (eread_eb _ _ _)). cbn [bind].
  rewrite (compute_A0_scaled_ok m s W nH SW). cbn [bind]. fold (pA0 sph m s).
  destruct (compute_M0_ok m s W (sw_ty _ _ _ SW) P0 (pA0 sph m s) (cube n lms K (pA0 sph m s)) (nread_cube _ _ _ _) (b_P0 b) (b_M0 b) (b_M0_grad b) L0)
    as (P0' & Mg0 & EM0 & L0' & RG0).
  rewrite EM0. cbn [bind]. fold (pM0 sph m P0 s).
  rewrite (compute_H1_ok m s W _ (pM0 sph m P0 s)) by (try apply nread_cube; apply length_cube). cbn [bind]. fold (pH1 sph m P0 s).
  eexists. split; [reflexivity|]. split; [reflexivity|]. intros p G1 G2 G3 G4 G5 G6. constructor; auto. repeat split; auto.
Qed.

Lemma mpi_middle_ok b p h H : begun b p (tab n (zE m s)) (eb s 3 (zF m s)) -> length h = nH * (LMs * K) -> nread nH h LMs K H ->
  exists b' p', mpi_middle m n b (with_H1 p h) = Some (b', p') /\
    begun b' p' (tab n (hE H)) (eb s 3 (gF2 H)) /\ p_node_i p' = p_node_i p /\ p_H1_adj p' = gH1l H nH.
Proof.
  intros B Lh RH. destruct B as [B1 B2 B3 B4 B5 B6 B7 B8 B9 B10 B11 B12 B13 B14 B15 (L0 & L1 & Lr)].
  unfold mpi_middle. cbn [with_H1 p_node_types p_num_neigh p_neigh_types p_neigh_j p_xyz p_r p_H1].
  rewrite B1, B2, B3, B4, B5, B6, B7, B8.
  rewrite (compute_R1_ok m s W nH SW). cbn [bind].
  rewrite (compute_Phi1_ok m s W nH SW _ _ _ _ _ _ _ _ B9 (eread_eb _ _ _) RH). cbn [bind]. fold (hP1r H). fold (hP1 H).
  rewrite (compute_A1_ok m s W _ _ _ (nread_cube _ _ _ (hP1 H))). cbn [bind].
  rewrite (compute_A1_scaled_ok m s W nH SW). cbn [bind]. fold (hA1 H).
  destruct (compute_M1_ok m s W (sw_ty _ _ _ SW) P1 (hA1 H) (cube n lms K (hA1 H)) (nread_cube _ _ _ _) (b_P1 b) (b_M1 b) (b_M1_grad b) L1)
    as (P1' & Mg1 & EM1 & L1' & RG1).
  rewrite EM1. cbn [bind]. fold (hM1 H).
  assert (RH0 : forall i k, i < n -> k < K -> rd h (i * (LMs * K) + k) = Some (H i 0 k)).
  { intros i k Hi Hk. apply (RH i 0 k); auto; [lia|unfold num_LM; nia]. }
  rewrite (compute_H2_ok m s W (sw_ty _ _ _ SW) _ _ (fun i k => H i 0 k) (hM1 H) _ RH0).
  2:{ intros; apply rd_grid; auto. }
  cbn [bind]. fold (hH2 H).
  destruct (compute_readouts_ok m s W (sw_ty _ _ _ SW) live fe fg nH h (hH2 H) (b_readout_2 b) (zE m s) (b_H1_adj b) (b_H2_adj b)
     (fun i k => H i 0 k) RO Lr HnH) as (r' & ER & Lr'); auto.
  rewrite ER. cbn [bind]. fold (hE H).
  rewrite (reverse_H2_ok m s W (sw_ty _ _ _ SW) nH h (grid n K (hM1 H)) (ra1 m s) _ (gH2 H)) by
    (auto; try apply length_cube; try apply length_grid; intros; apply (rd_grid n K (gH2 H)); auto).
  cbn [bind]. fold (gH1a H). fold (gM1 H).
  rewrite (reverse_M1_ok m s (cube n lms K (hA1 H)) _ (gM1 H) _ (g1 m s P1 (hA1 H))) by
    (auto; try apply length_cube; intros; apply rd_grid; auto).
  cbn [bind]. fold (gA1r H).
  rewrite (reverse_A1_scaled_ok m s W nH SW _ (hA1 H) (gA1r H) (zF m s) (nread_cube _ _ _ _)). cbn [bind]. fold (gA1 H). fold (gF1 H).
  rewrite (reverse_A1_ok m s W _ _ (gA1 H)) by (try apply nread_cube; apply length_cube). cbn [bind].
  rewrite (reverse_Phi1_ok m s W nH SW false false _ _ _ _ _ _ _ _ (gF1 H) (cube nH LMs K (gH1a H)) (Yv sph m) (Yg sph m) (R1v m s) (R1d m s)
     H (rA1f m (gA1 H)) B9 B10 (eread_eb _ _ _) (eread_eb _ _ _) RH); try apply nread_cube; try (rewrite ?length_cube; auto; fail).
  cbn [bind oz]. fold (gP1r H). fold (gF2 H). fold (gH1l H nH).
  eexists _, _. split; [reflexivity|]. split; [|split; reflexivity].
  constructor; auto. repeat split; auto.
Qed.

Lemma mpi_end_ok fl b p a h Ha Eb F2 : begun b p Eb (eb s 3 F2) -> nread n h LMs K Ha ->
  exists b', b_node_energies b' = Eb /\ b_node_forces b' = eb s 3 (rrF Ha F2) /\ bl b' /\
  mpi_end m fl n b (with_H1_adj p h) a =
    (a' <- tally fl n n (p_node_i p) (f_num_neigh s) (f_neigh_indices s) (f_xyz s) Eb (eb s 3 (rrF Ha F2)) a ;;
     Some (b', with_H1_adj p h, a')).
Proof.
  intros B RHa. destruct B as [B1 B2 B3 B4 B5 B6 B7 B8 B9 B10 B11 B12 B13 B14 B15 B16].
  unfold mpi_end. cbn [with_H1_adj p_node_types p_num_neigh p_neigh_types p_neigh_j p_node_i p_xyz p_r p_H1_adj].
  rewrite B1, B2, B3, B4, B5, B6, B7, B8, B11, B12, B13, B14.
  rewrite (reverse_H1_ok m s W (cube n LMs K (pM0 sph m P0 s)) h Ha) by (auto; apply length_cube).
  cbn [bind]. fold (rrM0 Ha).
  rewrite (reverse_M0_ok m s (cube n lms K (pA0 sph m s)) _ (rrM0 Ha) (b_M0_grad b) (g0 m s P0 (pA0 sph m s))) by (auto; try apply nread_cube; apply length_cube).
  cbn [bind]. fold (rrA0r Ha).
  rewrite (reverse_A0_scaled_ok m s W nH SW _ (pA0 sph m s) (rrA0r Ha) F2 (nread_cube _ _ _ _)). cbn [bind]. fold (rrA0 Ha). fold (rrF3 Ha F2).
  rewrite (reverse_A0_ok m s W nH SW _ _ _ _ _ _ _ _ _ _ (rrA0 Ha) B9 B10 (eread_eb _ _ _) (eread_eb _ _ _) (nread_cube _ _ _ _)).
  cbn [bind]. fold (rrF Ha F2). cbv zeta.
  eexists. split; [|split; [|split; [|reflexivity]]]; auto.
Qed.
End Dist.
