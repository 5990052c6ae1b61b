(** Over the reals an atom without neighbours gets exactly the tabulated energy of its species. *)
From Coq Require Import List Arith ZArith Reals Lia Lra Permutation.
From Verif Require Import Base BaseLemmas Instances RSums BlasLemmas MpModel MpSpec MpProofs MpR MlpModel MlpProofs MaceModel Sys SysLoops
  MaceGrid MacePure MaceStages1 MaceStages2 MaceStages4 MaceStages6 MacePipe MaceSpec MaceLoad MaceFlat MaceThms RList MaceInert.
Import ListNotations.
Local Open Scope R_scope.

Lemma nfold_zero {A} (l : list A) (g : A -> RNum) (a : RNum) : (forall x, In x l -> g x = 0) -> nfold (N:=RNum) l g a = a.
Proof.
  revert a; induction l as [|x l IH]; intros a H; [reflexivity|]. unfold nfold. cbn [fold_left].
  rewrite H by (simpl; auto). change (@nadd RNum a 0) with (a + 0). rewrite Rplus_0_r. apply IH. intros; apply H; simpl; auto.
Qed.
Lemma nsum_zero n (g : nat -> RNum) : (forall q, (q < n)%nat -> g q = 0) -> nsum (N:=RNum) n g = 0.
Proof.
  induction n as [|n IH]; intros H; [reflexivity|]. cbn [nsum]. rewrite IH, H by (intros; try apply H; lia).
  rring.
Qed.

Lemma poly_zero cs ms (x : list R) : (forall m, In m ms -> m <> []) -> (forall q, nth q x 0 = 0) -> poly cs ms x = 0.
Proof.
  intros Hm Hx. unfold poly. revert cs. induction ms as [|m ms IH]; intros [|c cs]; cbn [combine map fold_right]; auto.
  rewrite IH by (intros; apply Hm; simpl; auto). cbn [fst snd].
  assert (E : mono x m = 0).
  { destruct m as [|i m]; [exfalso; apply (Hm []); simpl; auto|]. unfold mono. cbn [map fold_right]. rewrite Hx. ring. }
  rewrite E. ring.
Qed.

Lemma first_terms_in seen cs ms : forall m, In m (snd (first_terms seen cs ms)) -> In m ms.
Proof.
  revert seen cs. induction ms as [|x ms IH]; intros seen [|c cs] m; cbn [first_terms]; try (intros []).
  destruct (in_dec _ x seen).
  - intros H. right. eapply IH; eauto.
  - specialize (IH (x :: seen) cs m). destruct (first_terms (x :: seen) cs ms) as [cs' ms'].
    intros [<-|H]; [left; auto|right; auto].
Qed.

Notation zs n := (@repeat (carrier RNum) 0 n).
Lemma map_zeros (act : RNum -> RNum) n : act 0 = 0 -> map act (zs n) = zs n.
Proof. intros E. induction n; cbn [repeat map]; [reflexivity|]. rewrite E, IHn. reflexivity. Qed.
Lemma mv_zeros (W : list (list RNum)) n : mv W (zs n) = zs (length W).
Proof.
  unfold mv. induction W as [|r W IH]; [reflexivity|]. cbn [map length repeat]. rewrite IH. f_equal.
  unfold rowdot. apply nsum_zero. intros q _. rewrite nth_repeat. change (@nzero RNum) with 0. rring.
Qed.

Section Iso.
Variable sph : nat -> RNum -> RNum -> RNum -> list RNum * list RNum.
Hypothesis Hsph : sph_ok sph.
Variable srt : list (list (list nat)) -> list (list (list nat)).
Hypothesis Hsrt : forall l, Permutation l (srt l).
Variable f : mace_file RNum.
Hypothesis F : file_ok f.
Notation m := (ldm f).
Notation T := (length (f_atomic_numbers f)).
Notation K := (f_num_channels f).
Notation lms := ((f_l_max f + 1) * (f_l_max f + 1))%nat.
Notation LMs := ((f_L_max f + 1) * (f_L_max f + 1))%nat.

Lemma mkp_zero cs ms x : monos_ok lms ms -> length cs = length ms -> length x = lms -> (forall q, nth q x 0 = 0) ->
  pval (mkp (N:=RNum) srt f cs ms) x = 0.
Proof.
  intros Hm Hl Hx H0. destruct (mkp_ok srt Hsrt f cs ms Hm Hl) as (E & _).
  rewrite (built_pval srt Hsrt lms cs ms Hm Hl _ x E Hx).
  pose proof (first_terms_in [] cs ms) as Hi. destruct (first_terms [] cs ms) as [cs' ms']. cbn [snd] in Hi.
  apply poly_zero; auto. intros q Hq. unfold monos_ok in Hm. rewrite Forall_forall in Hm. apply (Hm q). auto.
Qed.

Lemma ldp0_zero q x : (q < T * LMs * K)%nat -> length x = lms -> (forall q, nth q x 0 = 0) -> pval (ldp0 srt f q) x = 0.
Proof.
  intros Hq Hx H0. destruct (ldp0_live srt Hsrt f F q Hq) as [_ Hlt].
  assert (Hin : In (ldp0 srt f q) (ldP0 srt f)) by (apply nth_In; exact Hlt).
  unfold ldP0 in Hin. apply in_flat_map in Hin. destruct Hin as (a & Ha & Hin). apply in_seq in Ha.
  apply in_flat_map in Hin. destruct Hin as (lm & Hlm & Hin). apply in_seq in Hlm.
  apply in_map_iff in Hin. destruct Hin as (k & <- & Hk). apply in_seq in Hk.
  destruct (fo_M0 _ F a lm k) as [M1 M2]; try lia. apply mkp_zero; auto.
Qed.
Lemma ldp1_zero q x : (q < T * K)%nat -> length x = lms -> (forall q, nth q x 0 = 0) -> pval (ldp1 srt f q) x = 0.
Proof.
  intros Hq Hx H0. destruct (ldp1_live srt Hsrt f F q Hq) as [_ Hlt].
  assert (Hin : In (ldp1 srt f q) (ldP1 srt f)) by (apply nth_In; exact Hlt).
  unfold ldP1 in Hin. apply in_flat_map in Hin. destruct Hin as (a & Ha & Hin). apply in_seq in Ha.
  apply in_map_iff in Hin. destruct Hin as (k & <- & Hk). apply in_seq in Hk.
  destruct (fo_M1 _ F a k) as [M1 M2]; try lia. apply mkp_zero; auto.
Qed.

Lemma ldfe_zero : ldfe f (zs K) = 0.
Proof.
  unfold ldfe, out_of, ldWs. cbn [length Nat.sub Wl nth].
  rewrite (fwd_step _ _ _ (act_g (f_readout_2_scale_factor f))). cbn [fwd].
  unfold Wl. cbn [nth]. rewrite mv_zeros, map_zeros, mv_zeros; [reflexivity|].
  unfold act_g. rring.
Qed.

Lemma tab_zeros n (g : nat -> RNum) : (forall q, (q < n)%nat -> g q = 0) -> tab n g = zs n.
Proof.
  intros H. apply list_eq_nth with (d := 0); [rewrite length_tab, repeat_length; auto|].
  intros p Hp. rewrite length_tab in Hp. rewrite nth_tab, nth_repeat by auto. auto.
Qed.

Lemma div0 (x : RNum) : @ndiv RNum 0 x = 0.
Proof. rring. Qed.

Variable s : sys RNum.
Variable i : nat.
Hypothesis Hi : (i < length s)%nat.
Hypothesis He : es s i = [].
Hypothesis Ht : (ty s i < T)%nat.

Notation P0 := (ldp0 srt f).
Notation P1 := (ldp1 srt f).

Lemma iso_A0 lm k : pA0 sph m s i lm k = 0.
Proof.
  unfold pA0, odivs, divs. assert (E : mulW0 m s (phi0 m s (R0v m s) (Yv sph m)) i lm k = 0).
  { unfold mulW0. apply nsum_zero. intros q _. unfold phi0. rewrite He. cbn [nfold fold_left nfold]. change (@nzero RNum) with 0. rring. }
  destruct (m_A0_scaled m); rewrite E; auto using div0.
Qed.
Lemma nth_tab0 n (g : nat -> RNum) q : (forall q, g q = 0) -> nth q (tab n g) 0 = 0.
Proof.
  intros H. destruct (lt_dec q n); [rewrite nth_tab by auto; auto|]. apply nth_overflow. rewrite length_tab. lia.
Qed.
Lemma iso_M0 L k : (L < LMs)%nat -> (k < K)%nat -> pM0 sph m P0 s i L k = 0.
Proof.
  intros HL Hk. unfold pM0, m0. apply ldp0_zero.
  - cbn [ldm m_num_channels]. unfold num_LM. cbn [ldm m_L_max]. nia.
  - unfold xcol. rewrite length_tab. reflexivity.
  - intros q. apply nth_tab0. intros. apply iso_A0.
Qed.
Lemma iso_H1 L k : (L < LMs)%nat -> pH1 sph m P0 s i L k = 0.
Proof.
  intros HL. unfold pH1, mulH1. apply nsum_zero. intros q Hq. rewrite iso_M0 by auto. rring.
Qed.
Lemma iso_P1r c k : pP1r sph m P0 s i c k = 0.
Proof. unfold pP1r, phi1r. rewrite He. reflexivity. Qed.
Lemma iso_P1 a k : pP1 sph m P0 s i a k = 0.
Proof.
  unfold pP1, phi1. apply nfold_zero. intros p _. rewrite iso_P1r. rring.
Qed.
Lemma iso_A1 lm k : pA1 sph m P0 s i lm k = 0.
Proof.
  unfold pA1, odivs, divs. assert (E : a1raw m (pP1 sph m P0 s) i lm k = 0).
  { unfold a1raw. apply nsum_zero. intros q _. rewrite iso_P1. rring. }
  destruct (m_A1_scaled m); rewrite E; auto using div0.
Qed.
Lemma iso_M1 k : (k < K)%nat -> pM1 sph m P0 P1 s i k = 0.
Proof.
  intros Hk. unfold pM1, m1. apply ldp1_zero.
  - cbn [ldm m_num_channels]. nia.
  - unfold xcol. rewrite length_tab. reflexivity.
  - intros q. apply nth_tab0. intros. apply iso_A1.
Qed.
Lemma iso_H2 k : pH2 sph m P0 P1 s i k = 0.
Proof.
  unfold pH2, h2. rewrite !nsum_zero; [rring| |]; intros q Hq.
  - rewrite iso_M1 by auto. rring.
  - rewrite iso_H1 by nia. rring.
Qed.
Lemma iso_E : resE sph srt f s i = nth (ty s i) (f_atomic_energies f) 0.
Proof.
  unfold resE, pE, en. rewrite nfold_zero.
  - rewrite (tab_zeros _ (pH2 sph m P0 P1 s i)) by (intros; apply iso_H2).
    change (m_num_channels m) with K. rewrite ldfe_zero. unfold zE. rewrite He.
    destruct (m_has_zbl m); cbn [nfold fold_left nadd RNum]; change (@nzero RNum) with 0; unfold at_; cbn [ldm m_atomic_energies];
      change (@nzero RNum) with 0; rring.
  - intros k _. rewrite iso_H1 by nia. rring.
Qed.
End Iso.

Section Thm.
Variable sph : nat -> RNum -> RNum -> RNum -> list RNum * list RNum.
Hypothesis Hsph : sph_ok sph.
Variable srt : list (list (list nat)) -> list (list (list nat)).
Hypothesis Hsrt : forall l, Permutation l (srt l).
Variable f : mace_file RNum.
Hypothesis F : file_ok f.

Lemma lemma_C09_value x i t : input_ok f x -> rd (i_node_types x) i = Some t -> rd (i_num_neigh x) i = Some 0%nat ->
  exists m b0 b1, load_from_json srt f = Some (m, b0) /\ call sph m b0 x = Some b1 /\
    rd (b_node_energies b1) i = rd (f_atomic_energies f) t.
Proof.
  intros Hx Ht Hn. destruct (load_ok srt Hsrt f F) as (b0 & E & L).
  pose proof (flat_sys_of f x Hx) as Ex. set (s := sys_of x) in *.
  assert (Hx' : input_ok f (flat s)) by (rewrite Ex; exact Hx).
  assert (HtT : (t < length (f_atomic_numbers f))%nat) by (apply (io_ty _ _ Hx); eapply nth_error_In; exact Ht).
  destruct (call_flat sph Hsph srt f F b0 s L Hx') as (b1 & E1 & _ & A1 & _).
  rewrite Ex in E1. exists (ldm f), b0, b1. do 2 (split; [assumption|]). rewrite A1.
  rewrite <- Ex in Ht, Hn. cbn [flat i_node_types i_num_neigh i_neigh_indices] in Ht, Hn.
  assert (Hs : (i < length s)%nat) by (apply rd_lt in Ht; unfold f_node_types in Ht; rewrite map_length in Ht; exact Ht).
  rewrite (rd_ty s i Hs) in Ht. injection Ht as Ht. rewrite (rd_nn s i Hs) in Hn. injection Hn as Hn.
  rewrite rd_tab by auto. pose proof (fo_E0 _ F) as HE.
  rewrite (rd_some (f_atomic_energies f) t 0) by lia. f_equal. rewrite <- Ht.
  apply iso_E; auto.
  - destruct (es s i); [reflexivity|discriminate].
  - rewrite Ht. exact HtT.
Qed.
End Thm.
