(** One step of all processes in mode no_mpi_message_passing gives what the serial evaluation gives. *)
From Coq Require Import List Arith ZArith Lia Bool Reals Lra Permutation.
From Verif Require Import Base BaseLemmas Segs Instances BlasLemmas RSums RList MpModel MlpModel MaceModel MaceSpec MaceSpec2 MaceGradSpec
  Sys SysLoops MaceGrid MacePure MaceStages1 MaceStages2 MaceStages4 MaceStages6 MaceStages7 MaceStages8 MacePipe MaceHsrc MaceInert MaceLoad MaceFlat MaceThms
  AseGrad PairModel PairMpiModel PairSpec PairThms PairCommSpec PairComm PairTally DistPipe DistNbr DistAlg DistSpec DistTally DistSum DistTags DistJoin DistNo DistNoNbr DistLin.
Import ListNotations.
Local Open Scope R_scope.

Section NoMpi.
Variable sph : nat -> RNum -> RNum -> RNum -> list RNum * list RNum.
Hypothesis Hsph : sph_ok (N:=RNum) sph.
Variable srt : list (list (list nat)) -> list (list (list nat)).
Variable f : mace_file RNum.
Hypothesis F : file_ok f.
Variable types : list nat.
Variable rc : R.
Variable L : lmp RNum.
Variable owner : nat -> nat.
Notation B := (ilist L).
Hypothesis HL : lmp_ok (length types) B L.
Hypothesis O : owner_ok owner L.
Variable ranks : list (lmp RNum).
Notation need := (needed_no_mpi (N:=RNum) rc).
Hypothesis SP : split_ok (length types) (rc : RNum) owner need L ranks.
Hypothesis DOM : input_ok f (nd_input (N:=RNum) types rc owner L).

Notation m := (ldm f).
Notation P0 := (ldp0 srt f).
Notation P1 := (ldp1 srt f).
Notation fe := (ldfe f).
Notation fg := (ldfg f).
Notation live := (ldlive f).
Notation bl b := (bufs_live m P0 P1 live b).
Notation K := (m_num_channels m).
Notation LMs := (num_LM m).
Notation P := (length ranks).
Notation S := (sys_on (N:=RNum) types rc L (fun j => position (owner j) B) B).
Notation G := (length S).
Definition nlr (r : nat) : lmp RNum := nth r ranks L.
Notation lr := nlr.
Notation nall r := (nlocal (lr r) + nghost (lr r))%nat.
Definition ngl (r j : nat) : nat := gslot L (tag (lr r) j).
Notation gl := ngl.
Notation NI r := (no_nodes (lr r) rc).
Notation ix r := (no_ix (lr r) rc).
Definition ns1 (r : nat) : sys RNum := sys_on (N:=RNum) types rc (lr r) (ix r) (ilist (lr r)).
Definition ns2 (r : nat) : sys RNum := sys_on (N:=RNum) types rc (lr r) (ix r) (ghosts (lr r) rc).
Definition nss (r : nat) : sys RNum := sys_on (N:=RNum) types rc (lr r) (ix r) (NI r).
Definition nphi (r j : nat) : nat := gl r (nth j (NI r) 0%nat).
Let W : mace_wf m := ld_wf f F.
Let Wz : zbl_wf m := ld_zbl f F.
Let RO : ro_ok m live fe fg := ld_ro f F.
Let Hown := sp_owner _ _ _ _ _ _ SP.

Lemma nlr_in r : (r < P)%nat -> In (lr r) ranks.
Proof. intros H. apply nth_In. exact H. Qed.
Lemma nrank_ok r : (r < P)%nat -> lmp_ok (length types) (need (lr r)) (lr r).
Proof. intros H. apply (sp_rank _ _ _ _ _ _ SP). apply nlr_in, H. Qed.
Lemma nil_len r : (r < P)%nat -> length (ilist (lr r)) = nlocal (lr r).
Proof. intros H. rewrite (no_il_len (lr r) rc types (nrank_ok r H)). apply (lo_il _ _ _ (nrank_ok r H)). Qed.
Lemma nss_app r : nss r = ns1 r ++ ns2 r.
Proof. unfold nss, ns1, ns2, no_nodes, sys_on. apply map_app. Qed.
Lemma nlen1 r : length (ns1 r) = length (ilist (lr r)).
Proof. apply length_on. Qed.
Lemma nlen r : length (nss r) = length (NI r).
Proof. apply length_on. Qed.
Lemma nlen_le r : (length (ns1 r) <= length (nss r))%nat.
Proof. rewrite nss_app, app_length. lia. Qed.
Lemma nNI r i : (r < P)%nat -> In i (NI r) -> In i (need (lr r)).
Proof. intros H. apply (nodes_A (lr r) rc types (nrank_ok r H)). Qed.
Lemma nNI1 r i : (r < P)%nat -> In i (ilist (lr r)) -> In i (need (lr r)).
Proof. intros H Hi. apply nNI; [exact H|]. apply in_or_app. left. exact Hi. Qed.
Lemma nNI_nth r i : (i < length (ilist (lr r)))%nat -> nth i (NI r) 0%nat = nth i (ilist (lr r)) 0%nat.
Proof. intros H. apply app_nth1. exact H. Qed.
Lemma nSW_S : sys_wf m S G.
Proof. apply (ld_sys_wf f F). rewrite flat_S. exact DOM. Qed.

(** all nodes of a process *)
Lemma n_lt r i : (r < P)%nat -> (i < length (nss r))%nat -> (nphi r i < G)%nat.
Proof. intros Hr Hi. rewrite nlen in Hi. apply (rank_lt types rc L owner HL O need ranks SP (lr r) (nlr_in r Hr) (NI r) (fun i => nNI r i Hr) i Hi). Qed.
Lemma n_ty r i : (r < P)%nat -> (i < length (nss r))%nat -> ty (nss r) i = ty S (nphi r i).
Proof. intros Hr Hi. rewrite nlen in Hi. apply (rank_ty types rc L owner HL O need ranks SP (lr r) (nlr_in r Hr) (ix r) (NI r) (fun i => nNI r i Hr) i Hi). Qed.
Lemma n_es0 r i : (r < P)%nat -> (i < length (nss r))%nat -> Permutation (map strip (es (nss r) i)) (map strip (es S (nphi r i))).
Proof. intros Hr Hi. rewrite nlen in Hi. apply (rank_es0 types rc L owner HL O Hown need ranks SP (lr r) (nlr_in r Hr) (ix r) (NI r) (fun i => nNI r i Hr) i Hi). Qed.
Lemma n_wf r : (r < P)%nat -> sys_wf m (nss r) (length (nss r)).
Proof.
  intros Hr. rewrite nlen. apply (rank_wf types rc L owner HL O Hown need ranks SP (lr r) (nlr_in r Hr) (ix r) (NI r) (fun i => nNI r i Hr) m (length (NI r)) nSW_S).
  intros ii j Hi Hj. apply no_ix_lt. intros E. rewrite E in Hi. cbn in Hi. lia.
Qed.
Lemma n_H r i LM k : (r < P)%nat -> (i < length (nss r))%nat -> pH1 sph m P0 (nss r) i LM k = pH1 sph m P0 S (nphi r i) LM k.
Proof. intros Hr Hi. apply (pH1_0 sph m P0 S (nss r) (nphi r)); auto; intros; [apply n_ty|apply n_es0]; auto. Qed.

(** its local nodes *)
Lemma n1_lt r i : (r < P)%nat -> (i < length (ns1 r))%nat -> (nphi r i < G)%nat.
Proof. intros Hr Hi. apply n_lt; auto. pose proof (nlen_le r). lia. Qed.
Lemma n1_ty r i : (r < P)%nat -> (i < length (ns1 r))%nat -> ty (ns1 r) i = ty S (nphi r i).
Proof.
  intros Hr Hi. rewrite nlen1 in Hi. unfold nphi. rewrite nNI_nth by exact Hi.
  apply (rank_ty types rc L owner HL O need ranks SP (lr r) (nlr_in r Hr) (ix r) (ilist (lr r)) (fun i => nNI1 r i Hr) i Hi).
Qed.
Lemma n_back r i j : (r < P)%nat -> In i (ilist (lr r)) -> In j (kept (N:=RNum) rc (lr r) i) -> nphi r (ix r j) = gl r j /\ (ix r j < length (nss r))%nat.
Proof.
  intros Hr Hi Hj. pose proof (nodes_kept (lr r) rc types (nrank_ok r Hr) i j Hi Hj) as Hn. unfold nphi. rewrite (no_ix_in (lr r) rc types (nrank_ok r Hr) j Hn).
  rewrite nth_position by exact Hn. split; [reflexivity|]. rewrite nlen. apply position_lt. exact Hn.
Qed.
Lemma n1_es r i : (r < P)%nat -> (i < length (ns1 r))%nat -> Permutation (map (re (nphi r)) (es (ns1 r) i)) (es S (nphi r i)).
Proof.
  intros Hr Hi. rewrite nlen1 in Hi. unfold nphi at 2. rewrite nNI_nth by exact Hi.
  apply (rank_es types rc L owner HL O Hown need ranks SP (lr r) (nlr_in r Hr) (ix r) (nphi r) (ilist (lr r)) (fun i => nNI1 r i Hr) i Hi).
  intros j Hj. eapply n_back; eauto. apply nth_In. exact Hi.
Qed.
Lemma n1_idx r i e : (r < P)%nat -> (i < length (ns1 r))%nat -> In e (es (ns1 r) i) -> (e_idx e < length (nss r))%nat.
Proof.
  intros Hr Hi He. rewrite nlen1 in Hi. unfold ns1 in He. rewrite es_on in He by exact Hi. apply in_map_iff in He. destruct He as (j & <- & Hj). cbn [nbr_edge e_idx].
  eapply n_back; eauto. apply nth_In. exact Hi.
Qed.
Lemma n_part : Permutation (flat_map (fun r => map (nphi r) (seq 0 (length (ns1 r)))) (seq 0 P)) (seq 0 G).
Proof.
  rewrite length_on. rewrite <- (ranks_part types rc L owner HL O need ranks SP lr (tab_nth ranks L)).
  assert (E : forall r, In r (seq 0 P) -> Permutation (map (nphi r) (seq 0 (length (ns1 r)))) (map (fun i => gslot L (tag (lr r) i)) (seq 0 (nlocal (lr r))))).
  { intros r Hr. apply in_seq in Hr. destruct (lo_il _ _ _ (nrank_ok r ltac:(lia))) as [_ HP]. transitivity (map (gl r) (ilist (lr r))); [|apply (Permutation_map (gl r) HP)].
    assert (EQ : map (nphi r) (seq 0 (length (ns1 r))) = map (gl r) (ilist (lr r))); [|rewrite EQ; apply Permutation_refl].
    rewrite (map_nth_seq (gl r) (ilist (lr r)) 0%nat). rewrite nlen1. apply map_ext_in. intros i Hi. apply in_seq in Hi. unfold nphi. rewrite nNI_nth by lia. reflexivity. }
  revert E. generalize (seq 0 P) as l. induction l as [|r l IH]; intros E; [constructor|]. cbn [flat_map]. apply Permutation_app; [apply E; left; reflexivity|]. apply IH. intros r' Hr'. apply E. right. exact Hr'.
Qed.

Notation HH r := (pH1 sph m P0 (nss r)).
Definition nHa (r j LM k : nat) : RNum := at_ (N:=RNum) (gH1l sph m P1 fg (ns1 r) (HH r) (length (nss r))) (j * (LMs * K) + (LM * K + k)).
Definition nF2 (r : nat) := lead (N:=RNum) (ns1 r) (gF2 sph m P1 fg (ns1 r) (HH r)).
(** the edge forces, as functions of edges that carry atom indices *)
Definition nFr (r ii : nat) (e : edge RNum) (c : nat) : RNum := rrF sph m P0 (nss r) (nHa r) (nF2 r) ii (re (ix r) e) c.

Lemma n_HH r i e LM k : (r < P)%nat -> (i < length (ns1 r))%nat -> In e (es (ns1 r) i) -> HH r (e_idx e) LM k = pH1 sph m P0 S (nphi r (e_idx e)) LM k.
Proof. intros Hr Hi He. apply n_H; auto. eapply n1_idx; eauto. Qed.
Lemma n_adjoint g LM k : (g < G)%nat -> (LM < LMs)%nat -> (k < K)%nat ->
  rl (seq 0 P) (fun r => rl (seq 0 (length (nss r))) (fun j => if (nphi r j =? g)%nat then nHa r j LM k else 0)) = qH1 sph m P0 P1 fg S g LM k.
Proof.
  intros Hg HLM Hk. pose proof (nlen_le) as LE.
  apply (adjoint_sum sph m W P0 P1 fg S P ns1 nphi nphi n1_lt n1_ty n1_es n_part (fun r => length (nss r)) (fun r => HH r)); auto.
  - intros r i e Hr Hi He. eapply n1_idx; eauto.
  - intros r i e LM' k' Hr Hi He _ _. eapply n_HH; eauto.
  - intros r i k' Hr Hi _. apply n_H; auto. specialize (LE r). lia.
  - exact (sw_idx _ _ _ nSW_S).
Qed.

Notation idl r := (sys_on (N:=RNum) types rc (lr r) (fun j => j) (NI r)).
Notation idl1 r := (sys_on (N:=RNum) types rc (lr r) (fun j => j) (ilist (lr r))).
Lemma id_es r i : (i < length (NI r))%nat -> map (re (ix r)) (es (idl r) i) = es (nss r) i.
Proof. intros Hi. unfold nss. rewrite !es_on by exact Hi. rewrite map_map. reflexivity. Qed.
Lemma id_perm r i : (r < P)%nat -> (i < length (NI r))%nat -> Permutation (map (re (gl r)) (es (idl r) i)) (es S (nphi r i)).
Proof.
  intros Hr Hi. apply (rank_es types rc L owner HL O Hown need ranks SP (lr r) (nlr_in r Hr) (fun j => j) (gl r) (NI r) (fun i => nNI r i Hr) i Hi). reflexivity.
Qed.
Lemma id1_es r i : (i < length (ilist (lr r)))%nat -> es (idl r) i = es (idl1 r) i.
Proof.
  intros Hi. rewrite es_on by (unfold no_nodes; rewrite app_length; lia). rewrite nNI_nth by exact Hi. rewrite es_on by exact Hi. reflexivity.
Qed.

Lemma n_HT c (X : nat -> edge RNum -> R) : (c < 3)%nat ->
  rl (seq 0 P) (fun r => rl (epairs (idl r)) (fun p => nFr r (fst p) (snd p) c * X (gl r (nth (fst p) (NI r) 0%nat)) (re (gl r) (snd p)))) =
  rl (epairs S) (fun p => resF sph srt f S (fst p) (snd p) c * X (fst p) (snd p)).
Proof.
  intros Hc. set (cf := fun ge : nat * edge RNum => proj1_sig (rrF_lin sph m P0 S (fst ge) (snd ge) c)).
  assert (Hcf : forall ge Ha F2, @eq R (rrF sph m P0 S Ha F2 (fst ge) (snd ge) c)
    (F2 (fst ge) (snd ge) c + rl (flat_map (fun L => map (pair L) (seq 0 K)) (seq 0 LMs)) (fun p => cf ge p * Ha (fst ge) (fst p) (snd p)))).
  { intros ge. exact (proj2_sig (rrF_lin sph m P0 S (fst ge) (snd ge) c)). }
  clearbody cf.
  set (LK := flat_map (fun L => map (pair L) (seq 0 K)) (seq 0 LMs)) in *.
  assert (HLK : forall p, In p LK -> (fst p < LMs)%nat /\ (snd p < K)%nat).
  { intros p Hp. apply in_flat_map in Hp. destruct Hp as (a & A1 & A2). apply in_map_iff in A2. destruct A2 as (b & <- & A2). apply in_seq in A1, A2. cbn [fst snd]. lia. }
  set (T := fun g p => rl (es S g) (fun e => cf (g, e) p * X g e)).
  (* the forces of one process *)
  assert (E1 : forall r ii e, (r < P)%nat -> (ii < length (NI r))%nat -> @eq R (nFr r ii e c)
     (nF2 r ii (re (ix r) e) c + rl LK (fun p => cf (nphi r ii, re (gl r) e) p * nHa r ii (fst p) (snd p)))).
  { intros r ii e Hr Hi. unfold nFr. rewrite <- nlen in Hi.
    etransitivity; [|apply (Hcf (nphi r ii, re (gl r) e) (fun _ => nHa r ii) (fun _ _ => nF2 r ii (re (ix r) e)))]. cbn [fst snd].
    apply (rrF_0 sph m P0 S (nss r) (nphi r)); auto; intros; [apply n_ty|apply n_es0]; auto. }
  transitivity (rl (seq 0 P) (fun r => rl (epairs (idl1 r)) (fun p => qF2 sph m P0 P1 fg S (nphi r (fst p)) (re (gl r) (snd p)) c * X (nphi r (fst p)) (re (gl r) (snd p)))) +
    rl (seq 0 P) (fun r => rl (seq 0 (length (nss r))) (fun ii => rl LK (fun p => T (nphi r ii) p * nHa r ii (fst p) (snd p))))).
  - rewrite <- rl_plus. apply rl_ext. intros r Hr. apply in_seq in Hr. assert (Hr' : (r < P)%nat) by lia. rewrite !rl_epairs, !length_on, nlen.
    rewrite <- (rl_cut (length (ilist (lr r))) (length (NI r))) by (unfold no_nodes; rewrite app_length; lia).
    rewrite <- rl_plus. apply rl_ext. intros ii Hi. apply in_seq in Hi. assert (Hi' : (ii < length (NI r))%nat) by lia. cbn [fst snd]. fold (nphi r ii).
    transitivity (rl (es (idl r) ii) (fun e => nF2 r ii (re (ix r) e) c * X (nphi r ii) (re (gl r) e)) +
      rl (es (idl r) ii) (fun e => rl LK (fun p => cf (nphi r ii, re (gl r) e) p * nHa r ii (fst p) (snd p)) * X (nphi r ii) (re (gl r) e))).
    + rewrite <- rl_plus. apply rl_ext. intros e _. etransitivity; [apply (f_equal (fun z : R => z * _)), E1; auto|]. apply Rmult_plus_distr_r.
    + f_equal.
      * destruct (Nat.ltb_spec ii (length (ilist (lr r)))) as [Hl|Hl].
        -- rewrite <- id1_es by exact Hl. apply rl_ext. intros e He. apply (f_equal (fun z : R => z * _)).
           unfold nF2, lead. rewrite nlen1. destruct (Nat.ltb_spec ii (length (ilist (lr r)))); [|lia]. rewrite <- nlen1 in Hl.
           assert (He' : In (re (ix r) e) (es (ns1 r) ii)).
           { unfold ns1. rewrite nlen1 in Hl. rewrite es_on by exact Hl. rewrite id1_es, es_on in He by exact Hl. apply in_map_iff in He. destruct He as (j & <- & Hj). apply in_map_iff. exists j. auto. }
           rewrite (gF2_1 sph m W P0 P1 fg S (ns1 r) (nphi r) (nphi r) (fun i => n1_ty r i Hr') (fun i => n1_es r i Hr') (HH r)); auto.
           ++ apply (f_equal (fun z => qF2 sph m P0 P1 fg S (nphi r ii) z c)). unfold re. cbn [e_type e_idx e_x e_y e_z e_r]. f_equal.
              rewrite id1_es in He by (rewrite <- nlen1; exact Hl). rewrite es_on in He by (rewrite <- nlen1; exact Hl). apply in_map_iff in He. destruct He as (j & <- & Hj). cbn [nbr_edge e_idx].
              eapply n_back; eauto. apply nth_In. rewrite <- nlen1. exact Hl.
           ++ intros i e' LM k Hi2 He2 _ _. eapply n_HH; eauto.
           ++ intros i k Hi2 _. apply n_H; auto. pose proof (nlen_le r). lia.
        -- apply rl_0. intros e _. unfold nF2, lead. rewrite nlen1. destruct (Nat.ltb_spec ii (length (ilist (lr r)))); [lia|]. rewrite RNum_zero. apply Rmult_0_l.
      * transitivity (rl LK (fun p => rl (es (idl r) ii) (fun e => cf (nphi r ii, re (gl r) e) p * X (nphi r ii) (re (gl r) e)) * nHa r ii (fst p) (snd p))).
        -- rewrite (rl_ext (es (idl r) ii) _ (fun e => rl LK (fun p => (cf (nphi r ii, re (gl r) e) p * X (nphi r ii) (re (gl r) e)) * nHa r ii (fst p) (snd p)))).
           ++ rewrite rl_swap. apply rl_ext. intros p _. apply rl_scal_r.
           ++ intros e _. rewrite <- rl_scal_r. apply rl_ext. intros p _. rring.
        -- apply rl_ext. intros p _. apply (f_equal (fun z : R => z * _)). unfold T. rewrite <- (rl_perm _ _ _ (id_perm r ii Hr' Hi')), rl_map. reflexivity.
  - transitivity (rl (epairs S) (fun p => qF2 sph m P0 P1 fg S (fst p) (snd p) c * X (fst p) (snd p)) +
      rl (seq 0 G) (fun g => rl LK (fun p => T g p * qH1 sph m P0 P1 fg S g (fst p) (snd p)))).
    + apply f_equal2.
      * assert (H1 : forall r i, (r < P)%nat -> (i < length (idl1 r))%nat -> Permutation (map (re (gl r)) (es (idl1 r) i)) (es S (nphi r i))).
        { intros r i Hr Hi. rewrite length_on in Hi. rewrite <- id1_es by exact Hi. apply id_perm; auto. unfold no_nodes. rewrite app_length. lia. }
        assert (H2 : Permutation (flat_map (fun r => map (nphi r) (seq 0 (length (idl1 r)))) (seq 0 P)) (seq 0 G)).
        { rewrite <- n_part. apply Permutation_refl'. apply flat_map_ext_in. intros r _. rewrite nlen1, length_on. reflexivity. }
        symmetry. apply (ranks_sum S P (fun r => idl1 r) nphi (fun r => gl r) H1 H2 (fun p => qF2 sph m P0 P1 fg S (fst p) (snd p) c * X (fst p) (snd p))).
      * transitivity (rl (seq 0 G) (fun g => rl LK (fun p => T g p * rl (seq 0 P) (fun r => rl (seq 0 (length (nss r))) (fun j => if (nphi r j =? g)%nat then nHa r j (fst p) (snd p) else 0))))).
        -- transitivity (rl (seq 0 P) (fun r => rl (seq 0 (length (nss r))) (fun j => rl (seq 0 G) (fun g => if (nphi r j =? g)%nat then rl LK (fun p => T g p * nHa r j (fst p) (snd p)) else 0)))).
           ++ apply rl_ext. intros r Hr. apply in_seq in Hr. apply rl_ext. intros j Hj. apply in_seq in Hj. symmetry.
              apply (rl_pick G (nphi r j) (fun g => rl LK (fun p => T g p * nHa r j (fst p) (snd p)))). apply n_lt; lia.
           ++ etransitivity; [apply rl_ext; intros r _; apply rl_swap|]. rewrite rl_swap. apply rl_ext. intros g _.
              transitivity (rl (seq 0 P) (fun r => rl LK (fun p => T g p * rl (seq 0 (length (nss r))) (fun j => if (nphi r j =? g)%nat then nHa r j (fst p) (snd p) else 0)))).
              ** apply rl_ext. intros r _. rewrite (rl_ext (seq 0 (length (nss r))) _ (fun j => rl LK (fun p => T g p * (if (nphi r j =? g)%nat then nHa r j (fst p) (snd p) else 0)))).
                 --- rewrite rl_swap. apply rl_ext. intros p _. apply rl_scal.
                 --- intros j _. destruct (nphi r j =? g)%nat; [reflexivity|]. symmetry. apply rl_0. intros. apply Rmult_0_r.
              ** rewrite rl_swap. apply rl_ext. intros p _. apply rl_scal.
        -- apply rl_ext. intros g Hg. apply in_seq in Hg. apply rl_ext. intros p Hp. destruct (HLK p Hp). apply (f_equal (Rmult _)). apply n_adjoint; auto. lia.
    + rewrite !rl_epairs, <- rl_plus. apply rl_ext. intros g Hg. cbn [fst snd]. unfold T.
      rewrite (rl_ext LK _ (fun p => rl (es S g) (fun e => cf (g, e) p * X g e * qH1 sph m P0 P1 fg S g (fst p) (snd p)))) by (intros; symmetry; apply rl_scal_r).
      rewrite <- rl_swap, <- rl_plus. apply rl_ext. intros e _. unfold resF. rewrite pF_rrF, <- qF2_gF2.
      symmetry. etransitivity; [apply (f_equal (fun z : R => z * _)), (Hcf (g, e))|]. cbn [fst snd]. rewrite Rmult_plus_distr_r. apply (f_equal (Rplus _)).
      rewrite <- rl_scal_r. apply rl_ext. intros p _. rring.
Qed.

(** one process *)
Lemma n_one fl r b p a : (r < P)%nat -> vflag_atom fl = false -> bl b -> acc_ok (lr r) a ->
  exists b' p' a', compute_no_mpi_message_passing (N:=RNum) sph m rc types fl (lr r) b p a = Some (b', p', a') /\ bl b' /\
    b_node_energies b' = tab (nlocal (lr r)) (fun i => resE sph srt f S (gl r (nth i (ilist (lr r)) 0%nat))) /\
    tallied types rc (lr r) (fun j => j) (fun j => j) (NI r) fl (tab (nlocal (lr r)) (fun i => resE sph srt f S (gl r (nth i (ilist (lr r)) 0%nat)))) (nFr r) a a'.
Proof.
  intros Hr Hva Hb A. rewrite (no_mpi_eq sph m (lr r) rc types (nrank_ok r Hr)). fold (nss r).
  assert (SW : sys_wf m (ns1 r ++ ns2 r) (length (ns1 r ++ ns2 r))) by (rewrite <- nss_app; apply n_wf; exact Hr).
  destruct (no_eval_ok sph Hsph m P0 P1 live fe fg (ns1 r) (ns2 r) W Wz SW RO b Hb) as (b' & E1 & E2 & E3 & E4).
  unfold noHa, noF2 in E4. rewrite <- nss_app in E1, E3, E4. rewrite nlen1 in E1. rewrite E1. cbn [bind].
  assert (E3' : b_node_energies b' = tab (nlocal (lr r)) (fun i => resE sph srt f S (gl r (nth i (ilist (lr r)) 0%nat)))).
  { rewrite E3, nlen1, nil_len by exact Hr. apply tab_ext. intros i Hi. assert (Hi1 : (i < length (ns1 r))%nat) by (rewrite nlen1, nil_len; auto).
    pose proof (nlen_le r) as LE. unfold resE.
    rewrite (hE_1 sph m W P0 P1 fe S (ns1 r) (nphi r) (nphi r) (fun i => n1_ty r i Hr) (fun i => n1_es r i Hr) (HH r)); auto.
    - unfold nphi. rewrite nNI_nth by (rewrite <- nlen1; exact Hi1). reflexivity.
    - intros i' e' LM k Hi2 He2 _ _. eapply n_HH; eauto.
    - intros i' k Hi2 _. apply n_H; auto. lia. }
  destruct (tally_tallied types rc (lr r) (fun j => j) (fun j => j) (NI r) fl (length (ilist (lr r))) (nall r) (b_node_energies b') (nFr r) a Hva) as (a' & T1 & T2).
  - rewrite E3', length_tab, nil_len by exact Hr. lia.
  - rewrite (ao_e _ _ A), nil_len by exact Hr. lia.
  - apply (ao_v _ _ A).
  - apply (ao_f _ _ A).
  - intros i Hi. apply (need_lt types rc L owner need ranks SP (lr r) (nlr_in r Hr)), nNI; auto.
  - intros i j Hi Hj. apply (kept_lt types rc L owner need ranks SP (lr r) (nlr_in r Hr) i j); [apply nNI; auto|exact Hj].
  - assert (EB : eb (idl r) 3 (nFr r) = b_node_forces b').
    { rewrite E4. unfold eb. rewrite epairs_np. rewrite (epairs_np types rc (lr r) (ix r) (NI r) : epairs (nss r) = _). rewrite !flat_map_concat_map, !map_map. reflexivity. }
    rewrite EB in T1. rewrite nlen. rewrite nn_on, xyz_on in T1. rewrite (nn_on types rc (lr r) (ix r) (NI r) : f_num_neigh (nss r) = _), (xyz_on types rc (lr r) (ix r) (NI r) : f_xyz (nss r) = _).
    match goal with |- context [tally fl ?n ?n' ?B ?nn ?j ?x ?e ?ff a] => assert (T : tally (N:=RNum) fl n n' B nn j x e ff a = Some a') by exact T1 end.
    rewrite T. cbn [bind]. do 3 eexists. split; [reflexivity|]. split; [exact E2|]. split; [exact E3'|].
    rewrite firstn_all2 in T2 by (rewrite E3', length_tab, nil_len by exact Hr; lia). rewrite E3' in T2. exact T2.
Qed.
End NoMpi.
