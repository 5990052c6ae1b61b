(** The evaluation of mode no_mpi_message_passing on one process: the first layer on all nodes, the second on the leading ones. *)
From Coq Require Import List Arith ZArith Lia Bool.
From Verif Require Import Base BaseLemmas Segs BlasModel BlasLemmas SplineModel MpModel MpProofs MlpModel
  ZblModel ZblProofs MaceModel Sys SysLoops MaceGrid MacePure MaceStages1 MaceStages2 MaceStages3 MaceStages4 MaceStages5
  MaceStages6 MaceStages7 MaceStages8 MacePipe MaceHsrc PairModel PairMpiModel DistPipe DistMono.
Import ListNotations.

Section Prefix.
Context {N : Num}.
Variables s1 s2 : sys N.
Notation s := (s1 ++ s2).
Lemma nd_pre i : i < length s1 -> nd_ s i = nd_ s1 i.
Proof. intros H. unfold nd_. apply app_nth1. exact H. Qed.
Lemma ty_pre i : i < length s1 -> ty s i = ty s1 i.
Proof. intros H. unfold ty. rewrite nd_pre by exact H. reflexivity. Qed.
Lemma es_pre i : i < length s1 -> es s i = es s1 i.
Proof. intros H. unfold es. rewrite nd_pre by exact H. reflexivity. Qed.
Lemma epairs_pre : epairs s = epairs s1 ++ flat_map (fun i => map (pair i) (es s i)) (seq (length s1) (length s2)).
Proof.
  unfold epairs at 1. rewrite app_length, seq_app, flat_map_app'. f_equal. apply flat_map_ext_in. intros i Hi. apply in_seq in Hi. rewrite es_pre by lia. reflexivity.
Qed.
Lemma sys_wf_pre (m : mace_model N) nH : sys_wf m s nH -> sys_wf m s1 nH.
Proof.
  intros [A1 A2 A3 A4 A5 A6 A7].
  assert (L : forall i, i < length s1 -> i < length s) by (intros; rewrite app_length; lia).
  constructor; intros; first [rewrite <- ty_pre by assumption|idtac]; try (match goal with H : In _ (es s1 _) |- _ => rewrite <- es_pre in H by assumption end); eauto.
Qed.
Lemma eread_pre buf c f : eread s buf c f -> eread s1 buf c f.
Proof. intros H q i e p k Hq. apply H. rewrite epairs_pre, nth_error_app1; [exact Hq|]. apply nth_error_Some. rewrite Hq. discriminate. Qed.
Lemma all_edges_pre : all_edges s = all_edges s1 ++ all_edges s2.
Proof. unfold all_edges. apply flat_map_app'. Qed.
Lemma nt_pre : f_node_types s = f_node_types s1 ++ f_node_types s2.
Proof. apply map_app. Qed.
Lemma nn_pre : f_num_neigh s = f_num_neigh s1 ++ f_num_neigh s2.
Proof. apply map_app. Qed.
Lemma ni_pre : f_neigh_indices s = f_neigh_indices s1 ++ f_neigh_indices s2.
Proof. unfold f_neigh_indices. rewrite all_edges_pre. apply map_app. Qed.
Lemma et_pre : f_neigh_types s = f_neigh_types s1 ++ f_neigh_types s2.
Proof. unfold f_neigh_types. rewrite all_edges_pre. apply map_app. Qed.
Lemma r_pre : f_r s = f_r s1 ++ f_r s2.
Proof. unfold f_r. rewrite all_edges_pre. apply map_app. Qed.
Lemma xyz_pre : f_xyz s = f_xyz s1 ++ f_xyz s2.
Proof. unfold f_xyz. rewrite all_edges_pre. apply flat_map_app'. Qed.
(** nothing acts on the trailing edges *)
Definition lead (F : nat -> edge N -> nat -> N) (i : nat) (e : edge N) (c : nat) : N := if i <? length s1 then F i e c else nzero.
Lemma eb_pre F : eb s1 3 F ++ repeat nzero (length (f_xyz s2)) = eb s 3 (lead F).
Proof.
  unfold eb. rewrite epairs_pre, flat_map_app'. f_equal.
  - apply flat_map_ext_in. intros [i e] Hp. apply in_epairs in Hp. apply tab_ext. intros c _. cbn [fst snd]. unfold lead. destruct (Nat.ltb_spec i (length s1)); [reflexivity|lia].
  - set (l := flat_map _ (seq _ _)).
    assert (Hl : forall p, In p l -> length s1 <= fst p).
    { intros p Hp. apply in_flat_map in Hp. destruct Hp as (i & Hi & Hp). apply in_seq in Hi. apply in_map_iff in Hp. destruct Hp as (e & <- & _). cbn. lia. }
    assert (Ll : length (f_xyz s2) = 3 * length l).
    { pose proof (length_xyz s) as E. pose proof (length_xyz s1) as E1. rewrite xyz_pre, epairs_pre, !app_length in E. fold l in E. lia. }
    rewrite Ll. clear Ll. induction l as [|p l IH]; [reflexivity|]. replace (3 * length (p :: l)) with (3 + 3 * length l) by (cbn; lia). rewrite repeat_app. cbn [flat_map].
    rewrite IH by (intros; apply Hl; right; assumption). f_equal. pose proof (Hl p (or_introl eq_refl)). change (tab 3 (lead F (fst p) (snd p))) with [lead F (fst p) (snd p) 0; lead F (fst p) (snd p) 1; lead F (fst p) (snd p) 2]. unfold lead.
    destruct (Nat.ltb_spec (fst p) (length s1)); [lia|reflexivity].
Qed.
End Prefix.

Section No.
Context {N : Num}.
Variable sph : nat -> N -> N -> N -> list N * list N.
Hypothesis Hsph : forall l x y z, length (fst (sph l x y z)) = (l + 1) * (l + 1) /\
  length (snd (sph l x y z)) = 3 * ((l + 1) * (l + 1)).
Variable m : mace_model N.

(** the evaluator calls of the function, on gathered arrays *)
Definition no_eval (num_local_nodes num_nodes : nat) (node_types num_neigh neigh_indices neigh_types : list nat) (xyz r : list N) (b : mace_bufs N) :
    option (mace_bufs N) :=
  let node_energies := fill nzero (resize nzero (b_node_energies b) num_local_nodes) in
  let node_forces := fill nzero (resize nzero (b_node_forces b) (length xyz)) in
  ' (node_energies, node_forces) <-
    (if m_has_zbl m then
       compute_ZBL (m_zbl m) num_local_nodes node_types num_neigh neigh_types (m_atomic_numbers m) r xyz node_energies node_forces
     else Some (node_energies, node_forces)) ;;
  ' (Y, Y_grad, xyz_shuffled) <- compute_Y sph m xyz (b_Y b) (b_Y_grad b) (b_xyz_shuffled b) ;;
  ' (R0, R0_deriv) <- compute_R0 m num_nodes node_types num_neigh neigh_types r (b_R0 b) (b_R0_deriv b) ;;
  A0 <- compute_A0 m num_nodes node_types num_neigh neigh_types Y R0 (b_A0 b) ;;
  A0 <- compute_A0_scaled m num_nodes node_types num_neigh neigh_types r A0 ;;
  ' (P0, M0, M0_grad) <- compute_M0 m num_nodes node_types A0 (b_P0 b) (b_M0 b) (b_M0_grad b) ;;
  H1 <- compute_H1 m num_nodes M0 (b_H1 b) ;;
  ' (R1, R1_deriv) <- compute_R1 m num_local_nodes node_types num_neigh neigh_types r (b_R1 b) (b_R1_deriv b) ;;
  ' (Phi1r, Phi1) <- compute_Phi1 m num_local_nodes num_neigh neigh_indices Y R1 H1 (b_Phi1r b) (b_Phi1 b) ;;
  A1 <- compute_A1 m num_local_nodes Phi1 (b_A1 b) ;;
  A1 <- compute_A1_scaled m num_local_nodes node_types num_neigh neigh_types r A1 ;;
  ' (P1, M1, M1_grad) <- compute_M1 m num_local_nodes node_types A1 (b_P1 b) (b_M1 b) (b_M1_grad b) ;;
  H2 <- compute_H2 m num_local_nodes node_types H1 M1 (b_H2 b) ;;
  ' (readout_2, node_energies, H1_adj, H2_adj) <-
    compute_readouts m num_local_nodes node_types H1 H2 (b_readout_2 b) node_energies (b_H1_adj b) (b_H2_adj b) ;;
  ' (H1_adj, M1_adj) <- reverse_H2 m num_local_nodes node_types false H1 M1 H2_adj H1_adj (b_M1_adj b) ;;
  A1_adj <- reverse_M1 m num_local_nodes A1 M1_adj M1_grad (b_A1_adj b) ;;
  ' (node_forces, A1_adj) <-
    reverse_A1_scaled m num_local_nodes node_types num_neigh neigh_types xyz r false A1 node_forces A1_adj ;;
  dPhi1 <- reverse_A1 m num_local_nodes Phi1 A1_adj (b_dPhi1 b) ;;
  ' (dPhi1r, node_forces, H1_adj) <-
    reverse_Phi1 m num_local_nodes num_neigh neigh_indices xyz r false false
      Y Y_grad R1 R1_deriv H1 Phi1r dPhi1 (b_dPhi1r b) node_forces H1_adj ;;
  M0_adj <- reverse_H1 m num_nodes M0 H1_adj (b_M0_adj b) ;;
  A0_adj <- reverse_M0 m num_nodes A0 M0_adj M0_grad (b_A0_adj b) ;;
  ' (node_forces, A0_adj) <-
    reverse_A0_scaled m num_nodes node_types num_neigh neigh_types xyz r A0 node_forces A0_adj ;;
  node_forces <- reverse_A0 m num_nodes node_types num_neigh neigh_types xyz r Y Y_grad R0 R0_deriv A0_adj node_forces ;;
  Some (mkBufs node_energies node_forces R0 R0_deriv R1 R1_deriv Y Y_grad xyz_shuffled A0 A0_adj
          M0 M0_grad M0_adj P0 H1 H1_adj Phi1r dPhi1r Phi1 dPhi1 A1 A1_adj M1 M1_grad M1_adj P1 H2 H2_adj readout_2).

Variables (P0 P1 : nat -> @mpoly N).
Variable live : @mlp N -> Prop.
Variable fe : list N -> N.
Variable fg : list N -> nat -> N.
Variables s1 s2 : sys N.
Notation s := (s1 ++ s2).
Notation n := (length s).
Notation n1 := (length s1).
Notation K := (m_num_channels m).
Notation lms := (num_lm m).
Notation LMs := (num_LM m).
Hypothesis W : mace_wf m.
Hypothesis Wz : zbl_wf m.
Hypothesis SW : sys_wf m s n.
Hypothesis RO : ro_ok m live fe fg.
Notation bl b := (bufs_live m P0 P1 live b).
Notation HH := (pH1 sph m P0 s).

(** adjoints of the features of all nodes *)
Definition noHa (j L k : nat) : N := at_ (gH1l sph m P1 fg s1 HH n) (j * (LMs * K) + (L * K + k)).
Definition noF2 := lead s1 (gF2 sph m P1 fg s1 HH).

Lemma no_eval_ok b : bl b -> exists b', no_eval n1 n (f_node_types s) (f_num_neigh s) (f_neigh_indices s) (f_neigh_types s) (f_xyz s) (f_r s) b = Some b' /\
  bl b' /\ b_node_energies b' = tab n1 (hE sph m P1 fe s1 HH) /\ b_node_forces b' = eb s 3 (rrF sph m P0 s noHa noF2).
Proof.
  intros (L0 & L1 & Lr). pose proof (sys_wf_pre s1 s2 m n SW) as SW1. assert (Hn : n1 <= n) by (rewrite app_length; lia).
  set (z := repeat (@nzero N) (length (f_xyz s2))). assert (Lz : length z = length (f_xyz s2)) by apply repeat_length.
  assert (Lf : forall F, length (eb s1 3 F) = length (f_xyz s1)) by (intros; rewrite length_eb, length_xyz; reflexivity).
  unfold no_eval. rewrite !fill_resize.
  match goal with |- exists _, bind ?e _ = _ /\ _ => assert (EZ : e = Some (tab n1 (zE m s1), eb s1 3 (zF m s1) ++ z)) end.
  { pose proof (zbl_ok m s1 Wz n SW1) as E. rewrite xyz_pre, app_length, repeat_app. fold z. destruct (m_has_zbl m) eqn:Hz.
    - rewrite nt_pre, nn_pre, et_pre, r_pre. apply compute_ZBL_app. exact E.
    - injection E as -> ->. reflexivity. }
  rewrite EZ. clear EZ. cbn [bind].
  destruct (compute_Y_ok sph m s (fun a b c => Hsph (m_l_max m) a b c) (b_Y b) (b_Y_grad b) (b_xyz_shuffled b)) as (Y' & Yg' & xs' & EY & RY & RYg & _).
  rewrite EY. cbn [bind].
  rewrite (compute_R0_ok m s W n SW). cbn [bind].
  rewrite (compute_A0_ok m s W n SW _ _ _ _ _ RY (eread_eb _ _ _)). cbn [bind].
  rewrite (compute_A0_scaled_ok m s W n SW). cbn [bind]. fold (pA0 sph m s).
  destruct (compute_M0_ok m s W (sw_ty _ _ _ SW) P0 (pA0 sph m s) (cube n lms K (pA0 sph m s)) (nread_cube _ _ _ _) (b_P0 b) (b_M0 b) (b_M0_grad b) L0)
    as (P0' & Mg0 & EM0 & L0' & RG0).
  rewrite EM0. cbn [bind]. fold (pM0 sph m P0 s).
  rewrite (compute_H1_ok m s W _ (pM0 sph m P0 s)) by (try apply nread_cube; apply length_cube). cbn [bind]. fold (pH1 sph m P0 s).
  set (h := cube n LMs K HH). assert (RH : nread n h LMs K HH) by apply nread_cube. assert (Lh : length h = n * (LMs * K)) by apply length_cube.
  pose proof (eread_pre s1 s2 _ _ _ RY) as RY1. pose proof (eread_pre s1 s2 _ _ _ RYg) as RYg1.
  (* second layer *)
  pose proof (compute_R1_ok m s1 W n SW1 (b_R1 b) (b_R1_deriv b)) as E1.
  apply (compute_R1_app m _ _ _ _ _ _ _ (f_node_types s2) (f_num_neigh s2) (f_neigh_types s2) (f_r s2)) in E1. destruct E1 as (xR & xRd & E1).
  rewrite <- nt_pre, <- nn_pre, <- et_pre, <- r_pre in E1. rewrite E1. cbn [bind]. clear E1.
  rewrite (nn_pre s1 s2), (ni_pre s1 s2).
  rewrite (compute_Phi1_app m _ _ _ _ _ _ _ _ (f_num_neigh s2) (f_neigh_indices s2) xR _ (compute_Phi1_ok m s1 W n SW1 _ _ _ _ _ _ _ _ RY1 (eread_eb _ _ _) RH)).
  cbn [bind]. fold (hP1r sph m s1 HH). fold (hP1 sph m s1 HH).
  rewrite (compute_A1_ok m s1 W _ _ _ (nread_cube _ _ _ (hP1 sph m s1 HH))). cbn [bind].
  rewrite (nt_pre s1 s2), (et_pre s1 s2), (r_pre s1 s2), (xyz_pre s1 s2).
  rewrite (compute_A1_scaled_app m _ _ _ _ _ _ _ _ _ _ _ (compute_A1_scaled_ok m s1 W n SW1 _)). cbn [bind]. fold (hA1 sph m s1 HH).
  destruct (compute_M1_ok m s1 W (sw_ty _ _ _ SW1) P1 (hA1 sph m s1 HH) (cube n1 lms K (hA1 sph m s1 HH)) (nread_cube _ _ _ _) (b_P1 b) (b_M1 b) (b_M1_grad b) L1)
    as (P1' & Mg1 & EM1 & L1' & RG1).
  rewrite (compute_M1_app m _ _ _ _ _ _ _ _ EM1). cbn [bind]. fold (hM1 sph m P1 s1 HH).
  assert (RH0 : forall i k, i < n1 -> k < K -> rd h (i * (LMs * K) + k) = Some (HH i 0 k)).
  { intros i k Hi Hk. apply (RH i 0 k); auto; [lia|unfold num_LM; nia]. }
  assert (EH2 := compute_H2_ok m s1 W (sw_ty _ _ _ SW1) h (grid n1 K (hM1 sph m P1 s1 HH)) (fun i k => HH i 0 k) (hM1 sph m P1 s1 HH) (b_H2 b) RH0 ltac:(intros; apply rd_grid; auto)).
  rewrite (compute_H2_app m _ _ _ _ _ _ _ EH2). cbn [bind]. fold (hH2 sph m P1 s1 HH).
  destruct (compute_readouts_ok m s1 W (sw_ty _ _ _ SW1) live fe fg n h (hH2 sph m P1 s1 HH) (b_readout_2 b) (zE m s1) (b_H1_adj b) (b_H2_adj b)
     (fun i k => HH i 0 k) RO Lr Hn) as (r' & ER & Lr'); auto.
  rewrite (compute_readouts_app m _ _ _ _ _ _ _ _ _ _ ER). cbn [bind]. fold (hE sph m P1 fe s1 HH).
  assert (EH := reverse_H2_ok m s1 W (sw_ty _ _ _ SW1) n h (grid n1 K (hM1 sph m P1 s1 HH)) (ra1 m s1)).
  erewrite (reverse_H2_app m); [|apply (EH _ (gH2 sph m P1 fg s1 HH)); auto; try apply length_cube; try apply length_grid; intros; apply (rd_grid n1 K (gH2 sph m P1 fg s1 HH)); auto].
  clear EH. cbn [bind]. fold (gH1a sph m P1 fg s1 HH). fold (gM1 sph m P1 fg s1 HH).
  rewrite (reverse_M1_ok m s1 (cube n1 lms K (hA1 sph m s1 HH)) _ (gM1 sph m P1 fg s1 HH) _ (g1 m s1 P1 (hA1 sph m s1 HH))) by
    (auto; try apply length_cube; intros; apply rd_grid; auto).
  cbn [bind]. fold (gA1r sph m P1 fg s1 HH).
  erewrite (reverse_A1_scaled_app m); [|apply Lf|exact Lz|apply (reverse_A1_scaled_ok m s1 W n SW1 _ (hA1 sph m s1 HH) (gA1r sph m P1 fg s1 HH) (zF m s1) (nread_cube _ _ _ _))].
  cbn [bind]. fold (gA1 sph m P1 fg s1 HH). fold (gF1 sph m P1 fg s1 HH).
  rewrite (reverse_A1_ok m s1 W _ _ (gA1 sph m P1 fg s1 HH)) by (try apply nread_cube; apply length_cube). cbn [bind].
  erewrite (reverse_Phi1_app m); [|apply Lf|exact Lz|apply (reverse_Phi1_ok m s1 W n SW1 false false _ _ _ _ h _ _ _ (gF1 sph m P1 fg s1 HH) (cube n LMs K (gH1a sph m P1 fg s1 HH)) (Yv sph m) (Yg sph m) (R1v m s1) (R1d m s1)
     HH (rA1f m (gA1 sph m P1 fg s1 HH)) RY1 RYg1 (eread_eb _ _ _) (eread_eb _ _ _) RH); try apply nread_cube; try (rewrite ?length_cube; auto; fail)].
  cbn [bind oz]. fold (gP1r sph m P1 fg s1 HH). fold (gF2 sph m P1 fg s1 HH). fold (gH1l sph m P1 fg s1 HH n).
  unfold z. rewrite eb_pre. fold noF2.
  (* back through the first layer *)
  assert (RHa : nread n (gH1l sph m P1 fg s1 HH n) LMs K noHa).
  { intros i L k q Hi HL Hk ->. apply rd_some. unfold gH1l. rewrite length_adds, length_cube. assert (L * K + k < LMs * K) by nia. set (w := LMs * K) in *. nia. }
  rewrite (reverse_H1_ok m s W (cube n LMs K (pM0 sph m P0 s)) _ noHa) by (auto; apply length_cube).
  cbn [bind]. fold (rrM0 m noHa).
  rewrite (reverse_M0_ok m s (cube n lms K (pA0 sph m s)) _ (rrM0 m noHa) Mg0 (g0 m s P0 (pA0 sph m s))) by (auto; try apply nread_cube; apply length_cube).
  cbn [bind]. fold (rrA0r sph m P0 s noHa).
  rewrite <- (nt_pre s1 s2), <- (nn_pre s1 s2), <- (et_pre s1 s2), <- (r_pre s1 s2), <- (xyz_pre s1 s2).
  rewrite (reverse_A0_scaled_ok m s W n SW _ (pA0 sph m s) (rrA0r sph m P0 s noHa) noF2 (nread_cube _ _ _ _)). cbn [bind]. fold (rrA0 sph m P0 s noHa). fold (rrF3 sph m P0 s noHa noF2).
  rewrite (reverse_A0_ok m s W n SW _ _ _ _ _ _ _ _ _ _ (rrA0 sph m P0 s noHa) RY RYg (eread_eb _ _ _) (eread_eb _ _ _) (nread_cube _ _ _ _)).
  cbn [bind]. fold (rrF sph m P0 s noHa noF2).
  eexists. split; [reflexivity|]. repeat split; auto.
Qed.
End No.
