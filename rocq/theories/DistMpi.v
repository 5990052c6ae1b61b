(** One step of all processes in mode mpi_message_passing gives what the serial evaluation gives. *)
From Coq Require Import List Arith ZArith Lia Bool Reals Lra Permutation.
From Verif Require Import Base BaseLemmas Segs Instances BlasLemmas RSums RList MpModel MlpModel MaceModel MaceSpec MaceSpec2 MaceGradSpec
  Sys SysLoops MaceGrid MacePure MaceStages1 MaceStages2 MaceStages4 MaceStages6 MaceStages7 MaceStages8 MacePipe MaceHsrc MaceInert MaceLoad MaceFlat MaceThms
  AseGrad PairModel PairMpiModel PairSpec PairThms PairCommSpec PairComm PairTally DistPipe DistNbr DistAlg DistSpec DistTally DistSum DistTags DistJoin.
Import ListNotations.
Local Open Scope R_scope.

Lemma each_ok {A C} (g : A -> option C) (Q : nat -> A -> C -> Prop) ps :
  (forall r p, nth_error ps r = Some p -> exists q, g p = Some q /\ Q r p q) ->
  exists qs, each g ps = Some qs /\ length qs = length ps /\ forall r p q, nth_error ps r = Some p -> nth_error qs r = Some q -> Q r p q.
Proof.
  revert Q. induction ps as [|p ps IH]; intros Q H.
  - exists []. split; [reflexivity|]. split; [reflexivity|]. intros [|r] p q E; discriminate E.
  - destruct (H 0%nat p eq_refl) as (q & E & Hq). destruct (IH (fun r => Q (S r))) as (qs & E' & Hlen & Hqs); [intros r p' Hr; apply (H (S r)); exact Hr|].
    exists (q :: qs). cbn [each]. rewrite E, E'. split; [reflexivity|]. split; [cbn; lia|]. intros [|r] p' q' E1 E2; cbn in E1, E2; [congruence|eauto].
Qed.
Lemma nth_error_combine {A C} (l : list A) (l' : list C) r : nth_error (combine l l') r =
  match nth_error l r, nth_error l' r with Some a, Some b => Some (a, b) | _, _ => None end.
Proof.
  revert l' r. induction l as [|a l IH]; intros l' r; [destruct r; reflexivity|]. destruct l' as [|b l'].
  - cbn [combine]. destruct r; cbn [nth_error]; [reflexivity|]. destruct (nth_error l r); reflexivity.
  - destruct r; cbn [combine nth_error]; [reflexivity|apply IH].
Qed.

Section Mpi.
Variable sph : nat -> RNum -> RNum -> RNum -> list RNum * list RNum.
Hypothesis Hsph : sph_ok (N:=RNum) sph.
Variable srt : list (list (list nat)) -> list (list (list nat)).
Variable f : mace_file RNum.
Hypothesis F : file_ok f.
Variable types : list nat.
Variable rc : R.
Variable L : lmp RNum.
Variable owner : nat -> nat.
Notation B := (ilist L).
Hypothesis HL : lmp_ok (length types) B L.
Hypothesis O : owner_ok owner L.
Variable ranks : list (lmp RNum).
Hypothesis SP : split_ok (length types) (rc : RNum) owner needed_mpi L ranks.
Hypothesis DOM : input_ok f (nd_input (N:=RNum) types rc owner L).
Hypothesis Hil : forall l, In l ranks -> ilist l = seq 0 (nlocal l).
Variable own : slot -> slot.
Variable gs : list msg.
Hypothesis MS : messages_ok ranks own gs.

Notation m := (ldm f).
Notation P0 := (ldp0 srt f).
Notation P1 := (ldp1 srt f).
Notation fe := (ldfe f).
Notation fg := (ldfg f).
Notation live := (ldlive f).
Notation bl b := (bufs_live m P0 P1 live b).
Notation K := (m_num_channels m).
Notation LMs := (num_LM m).
Notation Wd := (LMs * K)%nat.
Notation P := (length ranks).
Notation S := (sys_on (N:=RNum) types rc L (fun j => position (owner j) B) B).
Notation G := (length S).
Definition lr (r : nat) : lmp RNum := nth r ranks L.
Notation nall r := (nlocal (lr r) + nghost (lr r))%nat.
Definition ss (r : nat) : sys RNum := sys_on (N:=RNum) types rc (lr r) (fun j => j) (ilist (lr r)).
Definition gl (r j : nat) : nat := gslot L (tag (lr r) j).
Notation size := (map (fun l : lmp RNum => nlocal l + nghost l)%nat ranks).
Notation tags := (map (fun l : lmp RNum => atom_tag l) ranks).
Let W : mace_wf m := ld_wf f F.
Let Wz : zbl_wf m := ld_zbl f F.
Let Hown := sp_owner _ _ _ _ _ _ SP.

Lemma lr_in r : (r < P)%nat -> In (lr r) ranks.
Proof. intros H. apply nth_In. exact H. Qed.
Lemma lr_err r : (r < P)%nat -> nth_error ranks r = Some (lr r).
Proof. intros H. apply nth_error_nth'. exact H. Qed.
Lemma size_nth r : (r < P)%nat -> nth r size 0%nat = nall r.
Proof. intros H. apply nth_error_nth. rewrite nth_error_map, lr_err by exact H. reflexivity. Qed.
Lemma nloc_nth r : (r < P)%nat -> nth r (map (fun l : lmp RNum => nlocal l) ranks) 0%nat = nlocal (lr r).
Proof. intros H. apply nth_error_nth. rewrite nth_error_map, lr_err by exact H. reflexivity. Qed.
Lemma tags_nth r : (r < P)%nat -> nth r tags [] = atom_tag (lr r).
Proof. intros H. apply nth_error_nth. rewrite nth_error_map, lr_err by exact H. reflexivity. Qed.
Lemma tag_at_eq r j : (r < P)%nat -> tag_at tags (r, j) = tag (lr r) j.
Proof. intros H. unfold tag_at. cbn [fst snd]. rewrite tags_nth by exact H. reflexivity. Qed.
Lemma atoms_in r j : In (r, j) (atoms size) <-> (r < P)%nat /\ (j < nall r)%nat.
Proof.
  change (atoms size) with (locals size). rewrite locals_in, map_length. split; intros [A C]; (split; [exact A|]); rewrite size_nth in * by exact A; exact C.
Qed.
Lemma locs_in r j : In (r, j) (locals (map (fun l : lmp RNum => nlocal l) ranks)) <-> (r < P)%nat /\ (j < nlocal (lr r))%nat.
Proof. rewrite locals_in, map_length. split; intros [A C]; (split; [exact A|]); rewrite nloc_nth in * by exact A; exact C. Qed.
Lemma atoms_rl g : rl (atoms size) g = rl (seq 0 P) (fun r => rl (seq 0 (nall r)) (fun j => g (r, j))).
Proof.
  unfold atoms. rewrite rl_flat_map, map_length. apply rl_ext. intros r Hr. apply in_seq in Hr. rewrite rl_map, size_nth by lia. reflexivity.
Qed.

Lemma il_r r : (r < P)%nat -> ilist (lr r) = seq 0 (nlocal (lr r)).
Proof. intros H. apply Hil, lr_in, H. Qed.
Lemma len_ss r : (r < P)%nat -> length (ss r) = nlocal (lr r).
Proof. intros H. unfold ss. rewrite length_on, il_r, seq_length by exact H. reflexivity. Qed.
Lemma len_il r : (r < P)%nat -> length (ilist (lr r)) = nlocal (lr r).
Proof. intros H. rewrite il_r, seq_length by exact H. reflexivity. Qed.
Lemma nth_il r i : (r < P)%nat -> (i < nlocal (lr r))%nat -> nth i (ilist (lr r)) 0%nat = i.
Proof. intros H Hi. rewrite il_r, seq_nth by assumption. reflexivity. Qed.
Lemma il_need r i : (r < P)%nat -> In i (ilist (lr r)) -> In i (needed_mpi (lr r)).
Proof. intros H Hi. rewrite il_r in Hi by exact H. exact Hi. Qed.
Lemma rank_ok r : (r < P)%nat -> lmp_ok (length types) (ilist (lr r)) (lr r) /\ length (atom_tag (lr r)) = nall r.
Proof. intros H. rewrite il_r by exact H. apply (sp_rank _ _ _ _ _ _ SP). apply lr_in, H. Qed.
Lemma inum_r r : (r < P)%nat -> inum (lr r) = length (ss r).
Proof. intros H. destruct (rank_ok r H) as [A _]. rewrite len_ss by exact H. apply (lo_il _ _ _ A). Qed.

Lemma SW_S : sys_wf m S G.
Proof. apply (ld_sys_wf f F). rewrite flat_S. exact DOM. Qed.
Lemma gl_lt r i : (r < P)%nat -> (i < nall r)%nat -> (gl r i < G)%nat.
Proof.
  intros Hr Hi. unfold gl. rewrite length_on. apply (gslot_lt types L owner HL O). apply (tag_LT types rc L owner needed_mpi ranks SP _ (lr_in r Hr)). exact Hi.
Qed.
Lemma ss_lt r i : (r < P)%nat -> (i < length (ss r))%nat -> (gl r i < G)%nat.
Proof. intros Hr Hi. rewrite len_ss in Hi by exact Hr. apply gl_lt; auto. lia. Qed.
Lemma ss_ty r i : (r < P)%nat -> (i < length (ss r))%nat -> ty (ss r) i = ty S (gl r i).
Proof.
  intros Hr Hi. pose proof Hi as Hi'. rewrite len_ss in Hi' by exact Hr.
  pose proof (rank_ty types rc L owner HL O needed_mpi ranks SP (lr r) (lr_in r Hr) (fun j => j) (ilist (lr r)) (fun i => il_need r i Hr) i) as E.
  rewrite nth_il in E by assumption. apply E. rewrite len_il by exact Hr. exact Hi'.
Qed.
Lemma ss_es r i : (r < P)%nat -> (i < length (ss r))%nat -> Permutation (map (re (gl r)) (es (ss r) i)) (es S (gl r i)).
Proof.
  intros Hr Hi. pose proof Hi as Hi'. rewrite len_ss in Hi' by exact Hr.
  pose proof (rank_es types rc L owner HL O Hown needed_mpi ranks SP (lr r) (lr_in r Hr) (fun j => j) (gl r) (ilist (lr r)) (fun i => il_need r i Hr) i) as E.
  rewrite nth_il in E by assumption. apply E; [rewrite len_il by exact Hr; exact Hi'|]. reflexivity.
Qed.
Lemma ss_part : Permutation (flat_map (fun r => map (gl r) (seq 0 (length (ss r)))) (seq 0 P)) (seq 0 G).
Proof.
  rewrite length_on. rewrite <- (ranks_part types rc L owner HL O needed_mpi ranks SP lr).
  - apply Permutation_refl'. apply flat_map_ext_in. intros r Hr. apply in_seq in Hr. rewrite len_ss by lia. reflexivity.
  - exact (tab_nth ranks L).
Qed.
Lemma kept_ss r i e : (r < P)%nat -> (i < length (ss r))%nat -> In e (es (ss r) i) -> (e_idx e < nall r)%nat.
Proof.
  intros Hr Hi He. pose proof Hi as Hi'. rewrite len_ss in Hi' by exact Hr. unfold ss in He. rewrite es_on in He by (rewrite len_il; auto).
  rewrite nth_il in He by assumption. apply in_map_iff in He. destruct He as (j & <- & Hj). cbn [nbr_edge e_idx].
  apply (kept_lt types rc L owner needed_mpi ranks SP (lr r) (lr_in r Hr) i j); [|exact Hj]. apply in_seq. lia.
Qed.
Lemma ss_wf r : (r < P)%nat -> sys_wf m (ss r) (nall r).
Proof.
  intros Hr. apply (rank_wf types rc L owner HL O Hown needed_mpi ranks SP (lr r) (lr_in r Hr) (fun j => j) (ilist (lr r)) (fun i => il_need r i Hr) m (nall r) SW_S).
  intros ii j Hi Hj. apply (kept_lt types rc L owner needed_mpi ranks SP (lr r) (lr_in r Hr) (nth ii (ilist (lr r)) 0%nat) j); [|exact Hj].
  apply il_need; [exact Hr|]. apply nth_In, Hi.
Qed.
Lemma ss_nloc r : (r < P)%nat -> (length (ss r) <= nall r)%nat.
Proof. intros Hr. rewrite len_ss by exact Hr. lia. Qed.

(** tags tell local atoms apart *)
Lemma tags_local r i r' i' : (r < P)%nat -> (i < nlocal (lr r))%nat -> (r' < P)%nat -> (i' < nlocal (lr r'))%nat -> tag (lr r) i = tag (lr r') i' -> (r, i) = (r', i').
Proof.
  intros Hr Hi Hr' Hi' E.
  assert (ND : NoDup (flat_map (fun r => map (gl r) (seq 0 (length (ss r)))) (seq 0 P))) by (eapply Permutation_NoDup; [symmetry; apply ss_part|apply seq_NoDup]).
  replace (flat_map (fun r => map (gl r) (seq 0 (length (ss r)))) (seq 0 P)) with
    (map (fun z => gl (fst z) (snd z)) (flat_map (fun r => map (pair r) (seq 0 (length (ss r)))) (seq 0 P))) in ND
    by (rewrite map_flat_map; apply flat_map_ext_in; intros; rewrite map_map; reflexivity).
  apply (NoDup_perm_map _ _ ND).
  - apply in_flat_map. exists r. split; [apply in_seq; lia|]. apply in_map, in_seq. rewrite len_ss by exact Hr. lia.
  - apply in_flat_map. exists r'. split; [apply in_seq; lia|]. apply in_map, in_seq. rewrite len_ss by exact Hr'. lia.
  - cbn [fst snd]. unfold gl. rewrite E. reflexivity.
Qed.
Lemma tag_in r j : (r < P)%nat -> (j < nall r)%nat -> In (tag (lr r) j) (local_tags L).
Proof. intros Hr Hj. apply (tag_LT types rc L owner needed_mpi ranks SP _ (lr_in r Hr)). exact Hj. Qed.
Lemma own_gl r j : (r < P)%nat -> (j < nall r)%nat -> exists r' i', own (r, j) = (r', i') /\ (r' < P)%nat /\ (i' < nlocal (lr r'))%nat /\ tag (lr r') i' = tag (lr r) j.
Proof.
  intros Hr Hj. assert (Hz : In (r, j) (atoms size)) by (apply atoms_in; auto).
  pose proof (co_own _ _ _ _ (ms_plan _ _ _ MS) _ Hz) as HO. pose proof (ms_tag _ _ _ MS _ Hz) as HT.
  destruct (own (r, j)) as [r' i']. apply locs_in in HO. destruct HO as [O1 O2]. exists r', i'. rewrite !tag_at_eq in HT by assumption. auto.
Qed.
Lemma own_eqb r i r' j : (r < P)%nat -> (i < nlocal (lr r))%nat -> (r' < P)%nat -> (j < nall r')%nat -> slot_eqb (own (r', j)) (r, i) = (gl r' j =? gl r i)%nat.
Proof.
  intros Hr Hi Hr' Hj. destruct (own_gl r' j Hr' Hj) as (r1 & i1 & E & Hr1 & Hi1 & T). rewrite E.
  destruct (slot_eqb_spec (r1, i1) (r, i)) as [Es|Ne].
  - injection Es as -> ->. symmetry. apply Nat.eqb_eq. unfold gl. rewrite T. reflexivity.
  - symmetry. apply Nat.eqb_neq. intros Eg. apply Ne. apply tags_local; auto. rewrite T. apply (gslot_inj types L owner HL O); [apply tag_in; auto|apply tag_in; auto; lia|exact Eg].
Qed.

Section Step.
Variable fl : ev.
Hypothesis Hva : vflag_atom fl = false.
Variable ps : list (proc RNum).
Hypothesis Hps : map (fun q => pr_l q) ps = ranks.
Hypothesis Hbl : forall q, In q ps -> bl (pr_b q).
Hypothesis Hacc : forall q, In q ps -> acc_ok (pr_l q) (pr_a q).

Lemma ps_len : length ps = P.
Proof. rewrite <- Hps, map_length. reflexivity. Qed.
Lemma ps_l r q : nth_error ps r = Some q -> (r < P)%nat /\ pr_l q = lr r.
Proof.
  intros H. assert (Hr : (r < P)%nat) by (rewrite <- ps_len; apply nth_error_Some; congruence). split; [exact Hr|].
  pose proof (lr_err r Hr) as E. rewrite <- Hps, nth_error_map, H in E. cbn in E. congruence.
Qed.

(** before the first communication *)
Lemma step1 : exists qs, each (fun q => ' (b, p) <- mpi_begin (N:=RNum) sph m rc types (pr_l q) (pr_b q) (pr_p q) ;; Some (mkProc (pr_l q) b p (pr_a q))) ps = Some qs /\
  length qs = P /\ forall r q, nth_error qs r = Some q -> (r < P)%nat /\ pr_l q = lr r /\ (exists p, nth_error ps r = Some p /\ pr_a q = pr_a p) /\
    begun sph m P0 P1 live (ss r) (pr_b q) (pr_p q) (tab (length (ss r)) (zE m (ss r))) (eb (ss r) 3 (zF m (ss r))) /\
    p_node_i (pr_p q) = ilist (lr r) /\ length (p_H1 (pr_p q)) = (nall r * Wd)%nat /\ nread (length (ss r)) (p_H1 (pr_p q)) LMs K (pH1 sph m P0 (ss r)).
Proof.
  destruct (each_ok (fun q => ' (b, p) <- mpi_begin (N:=RNum) sph m rc types (pr_l q) (pr_b q) (pr_p q) ;; Some (mkProc (pr_l q) b p (pr_a q)))
    (fun r p q => pr_l q = lr r /\ pr_a q = pr_a p /\ begun sph m P0 P1 live (ss r) (pr_b q) (pr_p q) (tab (length (ss r)) (zE m (ss r))) (eb (ss r) 3 (zF m (ss r))) /\
    p_node_i (pr_p q) = ilist (lr r) /\ length (p_H1 (pr_p q)) = (nall r * Wd)%nat /\ nread (length (ss r)) (p_H1 (pr_p q)) LMs K (pH1 sph m P0 (ss r))) ps) as (qs & E & Hlen & HQ).
  - intros r p Hp. destruct (ps_l r p Hp) as [Hr El]. rewrite El.
    destruct (mpi_begin_ok sph Hsph m P0 P1 live W Wz (lr r) rc types (proj1 (rank_ok r Hr)) (ss_wf r Hr) (pr_b p) (pr_p p) (il_r r Hr)) as (b' & p' & E1 & E2 & E3 & E4 & E5).
    { apply Hbl. eapply nth_error_In; eauto. }
    rewrite E1. cbn [bind]. eexists. split; [reflexivity|]. cbn [pr_l pr_a pr_b pr_p]. auto 10.
  - exists qs. split; [exact E|]. rewrite ps_len in Hlen. split; [exact Hlen|]. intros r q Hq.
    assert (Hr : (r < P)%nat) by (rewrite <- Hlen; apply nth_error_Some; congruence). split; [exact Hr|].
    destruct (nth_error ps r) as [p|] eqn:Ep; [|apply nth_error_None in Ep; rewrite ps_len in Ep; lia].
    destruct (HQ r p q Ep Hq) as (A1 & A2 & A3). split; [exact A1|]. split; [eauto|exact A3].
Qed.

(** the features of the atoms of a process are those of the serial system *)
Definition mH (r j : nat) : nat -> nat -> RNum := pH1 sph m P0 S (gl r j).
Lemma step2 : exists hs (H : nat -> nat -> nat -> nat -> RNum), H = mH /\
  (forall r i e LM k, (r < P)%nat -> (i < length (ss r))%nat -> In e (es (ss r) i) -> (LM < LMs)%nat -> (k < K)%nat -> H r (e_idx e) LM k = pH1 sph m P0 S (gl r (e_idx e)) LM k) /\
  (forall r i k, (r < P)%nat -> (i < length (ss r))%nat -> (k < K)%nat -> H r i 0%nat k = pH1 sph m P0 S (gl r i) 0%nat k) /\
  exists qs, (
    ps <- each (fun q => ' (b, p) <- mpi_begin (N:=RNum) sph m rc types (pr_l q) (pr_b q) (pr_p q) ;; Some (mkProc (pr_l q) b p (pr_a q))) ps ;;
    hs <- forward_comm (N:=RNum) Wd gs (map (fun q => p_H1 (pr_p q)) ps) ;;
    ps <- each (fun '(q, h) => ' (b, p) <- mpi_middle (N:=RNum) m (inum (pr_l q)) (pr_b q) (with_H1 (pr_p q) h) ;;
                       Some (mkProc (pr_l q) b p (pr_a q))) (combine ps hs) ;;
    hs <- reverse_comm (N:=RNum) Wd gs (map (fun q => p_H1_adj (pr_p q)) ps) ;; Some (combine ps hs)) = Some (combine qs hs) /\
  length qs = P /\ length hs = P /\ 
  (forall r h, nth_error hs r = Some h -> (r < P)%nat /\ nread (length (ss r)) h LMs K (fun i => qH1 sph m P0 P1 fg S (gl r i))) /\
  forall r q, nth_error qs r = Some q -> (r < P)%nat /\ pr_l q = lr r /\ (exists p, nth_error ps r = Some p /\ pr_a q = pr_a p) /\
    begun sph m P0 P1 live (ss r) (pr_b q) (pr_p q) (tab (length (ss r)) (hE sph m P1 fe (ss r) (H r))) (eb (ss r) 3 (gF2 sph m P1 fg (ss r) (H r))) /\
    p_node_i (pr_p q) = ilist (lr r).
Proof.
  destruct step1 as (qs1 & E1 & Len1 & H1). rewrite E1. cbn [bind].
  set (hs1 := map (fun q => p_H1 (pr_p q)) qs1).
  assert (HK : (1 <= K)%nat) by apply (mw_K _ W).
  assert (N1 : forall r, (r < P)%nat -> exists q, nth_error qs1 r = Some q).
  { intros r Hr. destruct (nth_error qs1 r) as [q|] eqn:E; [eauto|]. apply nth_error_None in E. lia. }
  assert (A1 : arrays_ok Wd size (hs1 : list (list R))).
  { split; [unfold hs1; rewrite !map_length; exact Len1|]. rewrite map_length. intros r Hr. rewrite size_nth by exact Hr. destruct (N1 r Hr) as (q & Hq).
    assert (En : @eq (list R) (nth r hs1 []) (p_H1 (pr_p q))) by (apply nth_error_nth; unfold hs1; rewrite nth_error_map, Hq; reflexivity).
    etransitivity; [apply (f_equal (@length R)), En|]. apply (H1 r q Hq). }
  destruct (forward_ok (N:=RNum) Wd nzero size own _ gs hs1 (ms_plan _ _ _ MS) A1) as (hs2 & E2 & A2 & F2 & _).
  rewrite E2. cbn [bind].
  remember mH as H eqn:EH.
  assert (HV : forall r j LM k, (r < P)%nat -> (j < nall r)%nat -> (LM < LMs)%nat -> (k < K)%nat -> H r j LM k = pH1 sph m P0 S (gl r j) LM k) by (subst H; reflexivity).
  assert (HA : forall r j LM k, (r < P)%nat -> (j < nall r)%nat -> (LM < LMs)%nat -> (k < K)%nat -> at_slot (A:=RNum) Wd nzero hs2 (r, j) (LM * K + k) = H r j LM k).
  { intros r j LM k Hr Hj HLM Hk. subst H. unfold mH. rewrite F2 by (try apply atoms_in; auto; nia).
    destruct (own_gl r j Hr Hj) as (r' & i' & E & Hr' & Hi' & T). rewrite E. unfold gl. rewrite <- T. fold (gl r' i').
    destruct (N1 r' Hr') as (q & Hq). destruct (H1 r' q Hq) as (_ & _ & _ & _ & _ & _ & NR).
    unfold at_slot. cbn [fst snd]. assert (En : @eq (list R) (nth r' hs1 []) (p_H1 (pr_p q))) by (apply nth_error_nth; unfold hs1; rewrite nth_error_map, Hq; reflexivity).
    etransitivity; [apply (f_equal (fun a : list R => nth _ a _)), En|].
    rewrite <- len_ss in Hi' by exact Hr'.
    etransitivity; [|apply (pH1_0 sph m P0 S (ss r') (gl r') (fun i => ss_ty r' i Hr'))].
    - apply nth_error_nth. apply (NR i' LM k); auto.
    - intros i Hi. apply Hes0 with (psi := gl r'). { intros; apply ss_es; auto. } exact Hi.
    - exact Hi'. }
  assert (Len2 : length hs2 = P) by (destruct A2 as [A2 _]; rewrite map_length in A2; exact A2).
  destruct (each_ok (fun '(q, h) => ' (b, p) <- mpi_middle (N:=RNum) m (inum (pr_l q)) (pr_b q) (with_H1 (pr_p q) h) ;; Some (mkProc (pr_l q) b p (pr_a q)))
    (fun r qh q => pr_l q = lr r /\ pr_a q = pr_a (fst qh) /\
      begun sph m P0 P1 live (ss r) (pr_b q) (pr_p q) (tab (length (ss r)) (hE sph m P1 fe (ss r) (H r))) (eb (ss r) 3 (gF2 sph m P1 fg (ss r) (H r))) /\
      p_node_i (pr_p q) = ilist (lr r) /\ p_H1_adj (pr_p q) = gH1l sph m P1 fg (ss r) (H r) (nall r)) (combine qs1 hs2)) as (qs2 & E3 & Len3 & Q3).
  { intros r [q h] Hqh. rewrite nth_error_combine in Hqh. destruct (nth_error qs1 r) as [q'|] eqn:Eq; [|discriminate]. destruct (nth_error hs2 r) as [h'|] eqn:Eh; [|discriminate].
    injection Hqh as -> ->. destruct (H1 r q Eq) as (Hr & B1 & _ & B2 & B3 & B4 & B5). rewrite B1, inum_r by exact Hr.
    assert (Hh : h = nth r hs2 []) by (symmetry; apply nth_error_nth; exact Eh).
    destruct (mpi_middle_ok sph m P0 P1 live fe fg (ss r) W (nall r) (ss_nloc r Hr) (ss_wf r Hr) (ld_ro f F) (pr_b q) (pr_p q) h (H r) B2) as (b' & p' & C1 & C2 & C3 & C4).
    - rewrite Hh. destruct A2 as [_ A2]. rewrite map_length in A2. rewrite A2, size_nth by exact Hr. reflexivity.
    - intros i LM k p Hi HLM Hk ->. rewrite <- HA by assumption. unfold at_slot. cbn [fst snd]. rewrite <- Hh. apply rd_some. rewrite Hh. destruct A2 as [_ A2]. rewrite map_length in A2. specialize (A2 r Hr). rewrite size_nth in A2 by exact Hr.
      change (carrier RNum) with R in *. rewrite A2. assert (LM * K + k < Wd)%nat by nia. nia.
    - rewrite C1. cbn [bind]. eexists. split; [reflexivity|]. cbn [pr_l pr_a pr_b pr_p fst]. rewrite C3. auto 10. }
  rewrite E3. cbn [bind].
  assert (LenC : length (combine qs1 hs2) = P) by (rewrite combine_length; lia).
  assert (Q4 : forall r q, nth_error qs2 r = Some q -> (r < P)%nat /\ pr_l q = lr r /\ (exists p, nth_error ps r = Some p /\ pr_a q = pr_a p) /\
      begun sph m P0 P1 live (ss r) (pr_b q) (pr_p q) (tab (length (ss r)) (hE sph m P1 fe (ss r) (H r))) (eb (ss r) 3 (gF2 sph m P1 fg (ss r) (H r))) /\
      p_node_i (pr_p q) = ilist (lr r) /\ p_H1_adj (pr_p q) = gH1l sph m P1 fg (ss r) (H r) (nall r)).
  { intros r q Hq. assert (Hr : (r < P)%nat) by (rewrite <- LenC, <- Len3; apply nth_error_Some; congruence). split; [exact Hr|].
    destruct (nth_error (combine qs1 hs2) r) as [[q0 h0]|] eqn:Ec; [|apply nth_error_None in Ec; lia].
    destruct (Q3 r (q0, h0) q Ec Hq) as (C1 & C2 & C3). split; [exact C1|]. split; [|exact C3].
    rewrite nth_error_combine in Ec. destruct (nth_error qs1 r) as [q'|] eqn:Eq; [|discriminate]. destruct (nth_error hs2 r) as [h'|] eqn:Eh; [|discriminate].
    injection Ec as -> ->. destruct (H1 r q0 Eq) as (_ & _ & (p & B1 & B2) & _). exists p. split; [exact B1|]. rewrite C2. exact B2. }
  set (hs3 := map (fun q => p_H1_adj (pr_p q)) qs2).
  assert (N2 : forall r, (r < P)%nat -> exists q, nth_error qs2 r = Some q).
  { intros r Hr. destruct (nth_error qs2 r) as [q|] eqn:E; [eauto|]. apply nth_error_None in E. lia. }
  assert (V3 : forall r, (r < P)%nat -> nth r (hs3 : list (list R)) [] = gH1l sph m P1 fg (ss r) (H r) (nall r)).
  { intros r Hr. destruct (N2 r Hr) as (q & Hq). destruct (Q4 r q Hq) as (_ & _ & _ & _ & _ & C). rewrite <- C. apply nth_error_nth. unfold hs3. rewrite nth_error_map, Hq. reflexivity. }
  assert (A3 : arrays_ok Wd size (hs3 : list (list R))).
  { split; [unfold hs3; rewrite !map_length; lia|]. rewrite map_length. intros r Hr. rewrite size_nth by exact Hr. etransitivity; [apply (f_equal (@length R)), V3, Hr|].
    unfold gH1l. etransitivity; [apply length_adds|]. apply length_cube. }
  destruct (reverse_ok Wd size own _ gs hs3 (ms_plan _ _ _ MS) A3) as (hs4 & E4 & A4 & R4).
  rewrite E4. cbn [bind].
  assert (Len4 : length hs4 = P) by (destruct A4 as [A4 _]; rewrite map_length in A4; exact A4).
  exists hs4, H. split; [reflexivity|]. split; [intros; apply HV; auto; eapply kept_ss; eauto|]. split.
  { intros r i k Hr Hi Hk. apply HV; auto; [|unfold num_LM; nia]. pose proof (ss_nloc r Hr). lia. }
  exists qs2. split; [reflexivity|]. split; [lia|]. split; [exact Len4|]. split.
  2:{ intros r q Hq. destruct (Q4 r q Hq) as (C1 & C2 & C3 & C4 & C5 & C6). auto 10. }
  intros r h Hh. assert (Hr : (r < P)%nat) by (rewrite <- Len4; apply nth_error_Some; congruence). split; [exact Hr|].
  intros i LM k p Hi HLM Hk ->. 
  assert (Eh : nth r hs4 [] = h) by (apply nth_error_nth; exact Hh).
  assert (Hi' : (i < nlocal (lr r))%nat) by (rewrite len_ss in Hi; auto).
  assert (Hp : (LM * K + k < Wd)%nat) by nia.
  destruct A4 as [_ A4]. rewrite map_length in A4. pose proof (A4 r Hr) as A4r. rewrite size_nth, Eh in A4r by exact Hr.
  pose proof (R4 (r, i) (LM * K + k)%nat (proj2 (locs_in r i) (conj Hr Hi')) Hp) as V. 
  change (nth (i * Wd + (LM * K + k)) (nth r hs4 []) 0 = total (map (fun z => at_slot (A:=R) Wd 0 hs3 z (LM * K + k)) (owned size own (r, i)))) in V. rewrite Eh in V.
  change (carrier RNum) with R in *.
  etransitivity; [apply (@rd_some R h (i * Wd + (LM * K + k)) 0); change (carrier RNum) with R; rewrite A4r; nia|]. apply (f_equal (@Some R)). rewrite V. rewrite total_rl. unfold owned. rewrite rl_filter, atoms_rl.
  etransitivity; [|apply (adjoint_sum sph m W P0 P1 fg S P ss gl gl ss_lt ss_ty ss_es ss_part (fun r => nall r) H (fun r i _ _ => eq_refl) ss_nloc kept_ss)]; auto.
  - apply rl_ext. intros r' Hr'. apply in_seq in Hr'. apply rl_ext. intros j Hj. apply in_seq in Hj. rewrite own_eqb by (auto; lia).
    destruct (gl r' j =? gl r i)%nat; [|reflexivity]. unfold at_slot. cbn [fst snd]. rewrite V3 by lia. unfold at_. rewrite RNum_zero. reflexivity.
  - intros; apply HV; auto; eapply kept_ss; eauto.
  - intros r' i' k' Hr' Hj' Hk'. apply HV; auto; [|unfold num_LM; nia]. pose proof (ss_nloc r' Hr'). lia.
  - apply (sw_idx _ _ _ SW_S).
  - apply ss_lt; auto.
Qed.

Notation FS := (pF sph m P0 P1 fg S).
Lemma in_epairs (s : sys RNum) p : In p (epairs s) -> (fst p < length s)%nat /\ In (snd p) (es s (fst p)).
Proof.
  intros H. unfold epairs in H. apply in_flat_map in H. destruct H as (i & H1 & H2). apply in_seq in H1. apply in_map_iff in H2. destruct H2 as (e & <- & H2). cbn [fst snd]. split; [lia|exact H2].
Qed.

(** the forces a process computes *)
Definition mFr (r : nat) : nat -> edge RNum -> nat -> RNum := rrF sph m P0 (ss r) (fun i => qH1 sph m P0 P1 fg S (gl r i)) (gF2 sph m P1 fg (ss r) (mH r)).
Lemma mpi_step : exists qs (Fr : nat -> nat -> edge RNum -> nat -> RNum), mpi_run (N:=RNum) sph m rc types fl gs ps = Some qs /\ length qs = P /\
  (forall c (X : nat -> edge RNum -> R), (c < 3)%nat ->
    rl (seq 0 P) (fun r => rl (epairs (ss r)) (fun p => Fr r (fst p) (snd p) c * X (gl r (nth (fst p) (ilist (lr r)) 0%nat)) (re (gl r) (snd p)))) =
    rl (epairs S) (fun p => FS (fst p) (snd p) c * X (fst p) (snd p))) /\
  forall r q, nth_error qs r = Some q -> (r < P)%nat /\ pr_l q = lr r /\ bl (pr_b q) /\
    b_node_energies (pr_b q) = tab (nlocal (lr r)) (fun i => pE sph m P0 P1 fe S (gl r i)) /\
    exists p, nth_error ps r = Some p /\
      tallied types rc (lr r) (fun j => j) (fun j => j) (ilist (lr r)) fl (tab (nlocal (lr r)) (fun i => pE sph m P0 P1 fe S (gl r i))) (Fr r) (pr_a p) (pr_a q) /\
      tally (N:=RNum) fl (length (ss r)) (length (ss r)) (ilist (lr r)) (f_num_neigh (ss r)) (f_neigh_indices (ss r)) (f_xyz (ss r))
        (tab (nlocal (lr r)) (fun i => pE sph m P0 P1 fe S (gl r i))) (eb (ss r) 3 (mFr r)) (pr_a p) = Some (pr_a q).
Proof.
  destruct step2 as (hs & H & EH & HH & HH0 & qs & E & Len & Lenh & Hh & Hq).
  set (Fr := fun r => rrF sph m P0 (ss r) (fun i => qH1 sph m P0 P1 fg S (gl r i)) (gF2 sph m P1 fg (ss r) (H r))).
  assert (FrE : Fr = mFr) by (unfold Fr; rewrite EH; reflexivity).
  destruct (each_ok (fun '(q, h) => ' (b, p, a) <- mpi_end (N:=RNum) m fl (inum (pr_l q)) (pr_b q) (with_H1_adj (pr_p q) h) (pr_a q) ;; Some (mkProc (pr_l q) b p a))
    (fun r qh q => pr_l q = lr r /\ bl (pr_b q) /\ b_node_energies (pr_b q) = tab (nlocal (lr r)) (fun i => pE sph m P0 P1 fe S (gl r i)) /\
       exists p, nth_error ps r = Some p /\
      tallied types rc (lr r) (fun j => j) (fun j => j) (ilist (lr r)) fl (tab (nlocal (lr r)) (fun i => pE sph m P0 P1 fe S (gl r i))) (Fr r) (pr_a p) (pr_a q) /\
      tally (N:=RNum) fl (length (ss r)) (length (ss r)) (ilist (lr r)) (f_num_neigh (ss r)) (f_neigh_indices (ss r)) (f_xyz (ss r))
        (tab (nlocal (lr r)) (fun i => pE sph m P0 P1 fe S (gl r i))) (eb (ss r) 3 (mFr r)) (pr_a p) = Some (pr_a q)) (combine qs hs)) as (qs' & E' & Len' & HQ).
  { intros r [q h] Hqh. rewrite nth_error_combine in Hqh. destruct (nth_error qs r) as [q'|] eqn:Eq; [|discriminate]. destruct (nth_error hs r) as [h'|] eqn:Eh; [|discriminate].
    injection Hqh as -> ->. destruct (Hq r q Eq) as (Hr & A1 & (p & A2 & A3) & A4 & A5). destruct (Hh r h Eh) as (_ & A6).
    assert (EE : tab (length (ss r)) (hE sph m P1 fe (ss r) (H r)) = tab (nlocal (lr r)) (fun i => pE sph m P0 P1 fe S (gl r i))).
    { rewrite len_ss by exact Hr. apply tab_ext. intros i Hi. rewrite <- len_ss in Hi by exact Hr. 
      apply (hE_1 sph m W P0 P1 fe S (ss r) (gl r) (gl r) (fun i => ss_ty r i Hr) (fun i => ss_es r i Hr) (H r)); eauto. }
    rewrite EE in A4.
    destruct (mpi_end_ok sph m P0 P1 live (ss r) W (nall r) (ss_wf r Hr) fl (pr_b q) (pr_p q) (pr_a q) h _ _ _ A4 A6) as (b' & B1 & B2 & B3 & B4).
    rewrite A1, inum_r by exact Hr. rewrite B4. fold (Fr r).
    assert (AO : acc_ok (lr r) (pr_a p)). { destruct (ps_l r p A2) as [_ El]. rewrite <- El. apply Hacc. eapply nth_error_In; eauto. }
    destruct (tally_tallied types rc (lr r) (fun j => j) (fun j => j) (ilist (lr r)) fl (length (ss r)) (nall r)
      (tab (nlocal (lr r)) (fun i => pE sph m P0 P1 fe S (gl r i))) (Fr r) (pr_a p) Hva) as (a' & T1 & T2).
    - rewrite length_tab, len_ss by exact Hr. lia.
    - rewrite (ao_e _ _ AO), len_ss by exact Hr. lia.
    - apply (ao_v _ _ AO).
    - apply (ao_f _ _ AO).
    - intros i Hi. rewrite il_r in Hi by exact Hr. apply in_seq in Hi. lia.
    - intros i j Hi Hj. apply (kept_lt types rc L owner needed_mpi ranks SP (lr r) (lr_in r Hr) i j); [apply il_need; auto|exact Hj].
    - rewrite A3, A5. unfold ss in T1 |- *. rewrite length_on in *.
      replace (f_neigh_indices (sys_on types rc (lr r) (fun j => j) (ilist (lr r)))) with (map (fun p => (fun j : nat => j) (snd p)) (kpairs (lr r) rc (ilist (lr r)))) by (symmetry; apply ix_on).
      rewrite T1. cbn [bind]. eexists. split; [reflexivity|]. cbn [pr_l pr_b pr_a]. split; [reflexivity|]. split; [exact B3|]. split; [exact B1|].
      exists p. split; [exact A2|]. split; [|rewrite <- FrE; exact T1]. rewrite firstn_all2 in T2; [exact T2|]. rewrite length_tab, len_ss by exact Hr. lia. }
  exists qs', Fr. split; [|split; [rewrite Len', combine_length; lia|split]].
  - unfold mpi_run. cbv zeta. 
    destruct (each _ ps) as [ps1|] eqn:E1; [|discriminate E]. cbn [bind] in E |- *.
    destruct (forward_comm _ _ _) as [hs1|] eqn:E2; [|discriminate E]. cbn [bind] in E |- *.
    destruct (each _ (combine ps1 hs1)) as [ps2|] eqn:E3; [|discriminate E]. cbn [bind] in E |- *.
    destruct (reverse_comm _ _ _) as [hs2|] eqn:E4; [|discriminate E]. cbn [bind] in E |- *.
    injection E as E. etransitivity; [|exact E']. exact (f_equal (each _) E).
  - intros c X Hc. etransitivity; [|symmetry; apply (ranks_sum S P ss gl gl ss_es ss_part)].
    apply rl_ext. intros r Hr. apply in_seq in Hr. apply rl_ext. intros p Hp. apply in_epairs in Hp. destruct Hp as [Hi He]. cbn [fst snd].
    rewrite nth_il by (try (rewrite <- len_ss by lia); lia).
    apply (f_equal (fun x => x * _)). rewrite pF_rrF. unfold Fr.
    apply (rrF_0 sph m P0 S (ss r) (gl r) (fun i => ss_ty r i ltac:(lia))); [|exact Hi|symmetry; apply strip_re|reflexivity|].
    + intros i Hi'. apply Hes0 with (psi := gl r). { intros; apply ss_es; [lia|auto]. } exact Hi'.
    + rewrite (gF2_1 sph m W P0 P1 fg S (ss r) (gl r) (gl r) (fun i => ss_ty r i ltac:(lia)) (fun i => ss_es r i ltac:(lia)) (H r)); auto.
      * intros; apply HH with (i := i); auto; lia.
      * intros; apply HH0; auto; lia.
  - intros r q Hq'. assert (Hr : (r < P)%nat). { assert (r < length qs')%nat by (apply nth_error_Some; congruence). rewrite Len', combine_length in H0. lia. } split; [exact Hr|].
    destruct (nth_error (combine qs hs) r) as [qh|] eqn:Ec; [|apply nth_error_None in Ec; rewrite combine_length in Ec; lia]. apply (HQ r qh q Ec Hq').
Qed.
End Step.
End Mpi.
