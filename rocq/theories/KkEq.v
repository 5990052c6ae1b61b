(** The sums of the Kokkos kernels and the functions of MacePure.v, over R.  Used in proofs only. *)
From Coq Require Import List Arith ZArith Bool Lia Reals Lra.
From Verif Require Import Base BaseLemmas Segs BlasLemmas Instances RSums MpModel MpProofs MaceModel Sys SysLoops MaceGrid
  MacePure MaceStages1 MaceStages4 MaceStages6 MaceStages7 MaceStages8 MacePipe MaceHsrc.
From Verif Require Import KkHost KkWp KkK6.
Import ListNotations.
Local Open Scope R_scope.

Lemma nfold_R {A} (l : list A) (f : A -> R) (a : R) : nfold (N:=RNum) l f a = a + lsumR (map f l).
Proof.
  induction l as [|x l IH] using rev_ind; [cbn; ring|].
  rewrite nfold_snoc, IH, map_app, lsumR_app. cbn [map lsumR]. change (@nadd RNum) with Rplus.
  change (lsumR [f x]) with (f x + 0). match goal with |- @eq _ ?a ?b => change (@eq R a b) end. ring.
Qed.
Lemma lsumR_seq N (f : nat -> R) : lsumR (map f (seq 0 N)) = rsum N f.
Proof. apply (lsumR_tab N f). Qed.
Lemma nfold_seq N (f : nat -> R) a : nfold (N:=RNum) (seq 0 N) f a = a + rsum N f.
Proof. rewrite nfold_R, lsumR_seq. reflexivity. Qed.
Lemma nfold_filter N (p : nat -> bool) (f : nat -> R) a :
  nfold (N:=RNum) (filter p (seq 0 N)) f a = a + rsum N (fun x => if p x then f x else 0).
Proof.
  rewrite nfold_R. f_equal. rewrite <- lsumR_seq. induction (seq 0 N) as [|x l IH]; [reflexivity|].
  cbn [filter]. change (lsumR (map (fun x => if p x then f x else 0) (x :: l))) with ((if p x then f x else 0) + lsumR (map (fun x => if p x then f x else 0) l)).
  rewrite <- IH. destruct (p x); cbn [map]; [reflexivity|ring].
Qed.
Lemma nfold_grid A B (f : nat * nat -> R) a :
  nfold (N:=RNum) (flat_map (fun x => map (pair x) (seq 0 B)) (seq 0 A)) f a = a + rsum A (fun x => rsum B (fun k => f (x, k))).
Proof.
  rewrite nfold_R. f_equal. rewrite map_flat_map, lsumR_flat_map. etransitivity; [|apply lsumR_seq].
  f_equal. apply map_ext. intros x. rewrite map_map. apply lsumR_seq.
Qed.
Lemma nth_flat_seq {A} (f : nat -> list A) (len : nat -> nat) N l p d : (forall x, length (f x) = len x) -> (l < N)%nat -> (p < len l)%nat ->
  nth (lsum (map len (seq 0 l)) + p) (flat_map f (seq 0 N)) d = nth p (f l) d.
Proof.
  intros E Hl Hp. replace N with (l + S (N - l - 1))%nat by lia. rewrite seq_app, flat_map_app'. cbn [seq flat_map Nat.add].
  rewrite app_nth2 by (rewrite BaseLemmas.length_flat_map, (map_ext _ _ E); lia).
  rewrite BaseLemmas.length_flat_map, (map_ext _ _ E).
  replace (lsum (map len (seq 0 l)) + p - lsum (map len (seq 0 l)))%nat with p by lia.
  apply app_nth1. rewrite E. auto.
Qed.
Lemma lsum_const c l : lsum (map (fun _ : nat => c) (seq 0 l)) = (l * c)%nat.
Proof. induction l as [|l IH]; [reflexivity|]. rewrite seq_S, map_app, lsum_app, IH. cbn. lia. Qed.
(** splitting an edge-indexed position *)
Section Ef.
Variable s : sys RNum.
Definition eflat (c : nat) (g : nat -> edge RNum -> nat -> R) (x : nat) : R := g (ow s (x / c)) (eg s (x / c)) (x mod c).
Lemma eflat_at c g q p : (p < c)%nat -> eflat c g (q * c + p) = g (ow s q) (eg s q) p.
Proof.
  intros H. unfold eflat. rewrite Nat.div_add_l, Nat.div_small, Nat.add_0_r by lia.
  rewrite Nat.add_comm, Nat.mod_add, Nat.mod_small by lia. reflexivity.
Qed.
Lemma eflat_eq c g x q p : x = (q * c + p)%nat -> (p < c)%nat -> eflat c g x = g (ow s q) (eg s q) p.
Proof. intros -> H. apply eflat_at. auto. Qed.
Lemma rsum_es i (g : nat -> edge RNum -> R) : (i < length s)%nat ->
  rsum (length (es s i)) (fun j => g (ow s (eo s i + j)) (eg s (eo s i + j))) = rsum (length (es s i)) (fun j => g i (nth j (es s i) dE)).
Proof. intros Hi. apply rsum_ext. intros j Hj. rewrite ow_at, eg_at by auto. reflexivity. Qed.
Lemma nfold_esq i (g : nat -> edge RNum -> R) a : (i < length s)%nat ->
  nfold (N:=RNum) (es s i) (g i) a = a + rsum (length (es s i)) (fun j => g (ow s (eo s i + j)) (eg s (eo s i + j))).
Proof. intros Hi. rewrite rsum_es by auto. apply nfold_es. Qed.
Lemma rsum_epairs (g : nat -> edge RNum -> R) :
  rsum (length s) (fun i => rsum (length (es s i)) (fun j => g (ow s (eo s i + j)) (eg s (eo s i + j)))) =
  lsumR (map (fun p => g (fst p) (snd p)) (epairs s)).
Proof.
  unfold epairs. rewrite map_flat_map, lsumR_flat_map. etransitivity; [|symmetry; apply lsumR_seq].
  apply rsum_ext. intros i Hi. rewrite rsum_es by auto. rewrite map_map. cbn [fst snd].
  rewrite lsumR_rsum, map_length. apply rsum_ext. intros j Hj. rewrite (nth_indep _ 0 (g i dE)) by (rewrite map_length; auto).
  symmetry. apply (map_nth (g i)).
Qed.
End Ef.

Section Eq.
Variable mm : mace_model RNum.
Hypothesis W : mace_wf mm.
Variable s : sys RNum.
Notation n := (length s).
Notation K := (m_num_channels mm).
Notation L := (num_lm mm).
Notation M := (num_LM mm).
Notation nb i := (length (es s i)).
Notation NP := (length (paths mm)).
Notation H0 e k := (at_ (N:=RNum) (m_H0_weights mm) (e_type e * K + k)).

(** R0 with the weights of H0 and A0 multiplied in *)
Definition kR (Rf : nat -> edge RNum -> nat -> R) i (e : edge RNum) p : R :=
  rsum K (fun kp => W0 (N:=RNum) mm (ty s i) (p / K) (kp * K + p mod K) * (Rf i e (p / K * K + kp)%nat * H0 e kp)).
Lemma kR_at Rf i e l k : (k < K)%nat -> kR Rf i e (l * K + k) =
  rsum K (fun kp => W0 (N:=RNum) mm (ty s i) l (kp * K + k) * (Rf i e (l * K + kp)%nat * H0 e kp)).
Proof.
  intros H. unfold kR. rewrite Nat.div_add_l, Nat.div_small, Nat.add_0_r by lia.
  rewrite Nat.add_comm, Nat.mod_add, Nat.mod_small by lia. reflexivity.
Qed.
Lemma eq_A0 Rf Yf i lm k : (i < n)%nat -> (k < K)%nat ->
  rsum (nb i) (fun j => kR Rf (ow s (eo s i + j)) (eg s (eo s i + j)) (Nat.sqrt lm * K + k) * Yf (ow s (eo s i + j)) (eg s (eo s i + j)) lm) =
  mulW0 (N:=RNum) mm s (phi0 (N:=RNum) mm s Rf Yf) i lm k.
Proof.
  intros Hi Hk. unfold mulW0. refine (eq_trans _ (eq_sym (nsum_rsum K _))). unfold phi0.
  rewrite (rsum_ext K _ (fun q => rsum (nb i) (fun j => Rf i (nth j (es s i) dE) (Nat.sqrt lm * K + q)%nat * Yf i (nth j (es s i) dE) lm *
     H0 (nth j (es s i) dE) q * W0 (N:=RNum) mm (ty s i) (Nat.sqrt lm) (q * K + k)))).
  2:{ intros q Hq. rewrite nfold_es, RNum_zero, Rplus_0_l. symmetry. apply rsum_scal_r. }
  rewrite rsum_swap. rewrite (rsum_es s i (fun i e => kR Rf i e (Nat.sqrt lm * K + k) * Yf i e lm)) by auto.
  apply rsum_ext. intros j Hj. rewrite kR_at by auto. rewrite <- rsum_scal_r. apply rsum_ext. intros q Hq.
  match goal with |- @eq _ ?a ?b => change (@eq R a b) end. ring.
Qed.
Lemma eq_sc (f : nat -> edge RNum -> R) i : (i < n)%nat ->
  rsum (nb i) (fun j => f (ow s (eo s i + j)) (eg s (eo s i + j))) + 1 = nfold (N:=RNum) (es s i) (f i) (@none RNum).
Proof. intros Hi. rewrite nfold_esq by auto. rewrite RNum_one. ring. Qed.
Lemma eq_H1 (f : nat -> nat -> nat -> R) i lm k : 
  rsum K (fun q => f i lm q * WH1 (N:=RNum) mm (Nat.sqrt lm * K * K + (q * K + k))) = mulH1 (N:=RNum) mm f i lm k.
Proof. unfold mulH1. refine (eq_trans _ (eq_sym (nsum_rsum K _))). reflexivity. Qed.
Lemma eq_H1T (f : nat -> nat -> nat -> R) i lm k : 
  rsum K (fun q => f i lm q * WH1 (N:=RNum) mm (Nat.sqrt lm * K * K + (k * K + q))) = mulH1T (N:=RNum) mm f i lm k.
Proof. unfold mulH1T. refine (eq_trans _ (eq_sym (nsum_rsum K _))). apply rsum_ext. intros q Hq. apply Rmult_comm. Qed.
Lemma eq_P1r Rf Yf (H : nat -> nat -> nat -> R) i c k : (i < n)%nat ->
  rsum (nb i) (fun j => Rf (ow s (eo s i + j)) (eg s (eo s i + j)) (ple mm c * K + k)%nat * Yf (ow s (eo s i + j)) (eg s (eo s i + j)) (plm1 mm c) *
    H (e_idx (eg s (eo s i + j))) (plm2 mm c) k) = phi1r (N:=RNum) mm s Rf Yf H i c k.
Proof.
  intros Hi. unfold phi1r. rewrite (nfold_esq s i (fun i e => Rf i e (ple mm c * K + k)%nat * Yf i e (plm1 mm c) * H (e_idx e) (plm2 mm c) k)) by auto.
  rewrite RNum_zero, Rplus_0_l. reflexivity.
Qed.
Notation ncg := (length (m_Phi1_clebsch_gordan mm)).
Lemma eq_P1 (f : nat -> nat -> nat -> R) i x k :
  scat (cgl mm) (fun p => cgC (N:=RNum) mm p * f i (cgr mm p) k) ncg x = phi1 (N:=RNum) mm f i x k.
Proof. unfold phi1, scat. rewrite nfold_filter, RNum_zero, Rplus_0_l. reflexivity. Qed.
Lemma eq_P1T (f : nat -> nat -> nat -> R) i x k :
  scat (cgr mm) (fun p => cgC (N:=RNum) mm p * f i (cgl mm p) k) ncg x = phi1T (N:=RNum) mm f i x k.
Proof. unfold phi1T, scat. rewrite nfold_filter, RNum_zero, Rplus_0_l. reflexivity. Qed.
Lemma eq_A1 (f : nat -> nat -> nat -> R) i lm k :
  rsum (mult mm (Nat.sqrt lm) * K) (fun p => f i (moff mm (Nat.sqrt lm) + (lm - Nat.sqrt lm * Nat.sqrt lm) * mult mm (Nat.sqrt lm) + p / K)%nat (p mod K) *
    W1 (N:=RNum) mm (Nat.sqrt lm) (p * K + k)) = a1raw (N:=RNum) mm f i lm k.
Proof. unfold a1raw. cbv zeta. exact (eq_sym (nsum_rsum _ _)). Qed.
Lemma eq_A1T (f : nat -> nat -> nat -> R) i l mu e k : (l <= m_l_max mm)%nat -> (mu < 2 * l + 1)%nat -> (e < mult mm l)%nat -> (k < K)%nat ->
  rA1f (N:=RNum) mm f i (moff mm l + mu * mult mm l + e) k = rsum K (fun q => f i (l * l + mu)%nat q * W1 (N:=RNum) mm l ((e * K + k) * K + q)).
Proof.
  intros Hl Hm He Hk. unfold rA1f, rA1, at_.
  replace ((moff mm l + mu * mult mm l + e) * K + k)%nat with (lsum (map (fun l => (2 * l + 1) * (mult mm l * K))%nat (seq 0 l)) + (mu * (mult mm l * K) + (e * K + k)))%nat.
  2:{ assert (E : lsum (map (fun l => (2 * l + 1) * (mult mm l * K))%nat (seq 0 l)) = (moff mm l * K)%nat).
      { unfold moff. rewrite <- lsum_mulr. f_equal. apply map_ext. intros; lia. }
      rewrite E. nia. }
  assert (B : (e * K + k < mult mm l * K)%nat) by nia.
  rewrite (nth_flat_seq _ (fun l => (2 * l + 1) * (mult mm l * K))%nat).
  - pose proof (nth_flat_seq (fun mu => tab (mult mm l * K) (fun p => nsum (N:=RNum) K (fun q => nmul (W1 (N:=RNum) mm l (p * K + q)) (f i (l * l + mu)%nat q))))
      (fun _ => mult mm l * K)%nat (2 * l + 1) mu (e * K + k) (@nzero RNum)) as G.
    rewrite lsum_const in G. etransitivity; [apply G; auto; intros; apply length_tab|].
    rewrite nth_tab by auto. refine (eq_trans (nsum_rsum K _) _). apply rsum_ext. intros q Hq. apply Rmult_comm.
  - intros x. rewrite length_flat_map_const with (c := (mult mm x * K)%nat) by (intros; apply length_tab). rewrite seq_length. reflexivity.
  - lia.
  - nia.
Qed.
Lemma row_ex x : (x < m_num_lme mm)%nat -> exists l mu e, (l <= m_l_max mm)%nat /\ (mu < 2 * l + 1)%nat /\ (e < mult mm l)%nat /\ x = (moff mm l + mu * mult mm l + e)%nat.
Proof.
  rewrite <- (moff_all mm W). intros H.
  assert (G : forall N, (x < moff mm N)%nat -> exists l mu e, (l < N)%nat /\ (mu < 2 * l + 1)%nat /\ (e < mult mm l)%nat /\ x = (moff mm l + mu * mult mm l + e)%nat).
  { induction N as [|N IH]; intros HN; [cbn in HN; lia|]. rewrite moff_S in HN. destruct (lt_dec x (moff mm N)) as [C|C].
    - destruct (IH C) as (l & mu & e & A & B & D & E). exists l, mu, e. repeat split; auto; lia.
    - assert (0 < mult mm N)%nat by nia. exists N, ((x - moff mm N) / mult mm N)%nat, ((x - moff mm N) mod mult mm N)%nat.
      repeat split; auto.
      + apply Nat.div_lt_upper_bound; nia.
      + apply Nat.mod_upper_bound. lia.
      + pose proof (Nat.div_mod_eq (x - moff mm N) (mult mm N)). nia. }
  destruct (G _ H) as (l & mu & e & A & B & D & E). exists l, mu, e. repeat split; auto. lia.
Qed.

(** ** forces *)
Lemma eq_F0 Rf Rd Yf Yd (Aa : nat -> nat -> nat -> R) F i (e : edge RNum) a :
  F i e a - rsum L (fun lm => rsum K (fun k => kR Rd i e (Nat.sqrt lm * K + k) * Aa i lm k) * (comp (N:=RNum) e a / e_r e) * Yf i e lm
     + rsum K (fun k => kR Rf i e (Nat.sqrt lm * K + k) * Aa i lm k) * Yd i e (a * L + lm)%nat) =
  fold0 (N:=RNum) mm Rf Rd Yf Yd (mulW0T (N:=RNum) mm s Aa) F i e a.
Proof.
  unfold fold0, lmk. rewrite nfold_grid. unfold Rminus. rewrite <- rsum_opp. f_equal. apply rsum_ext. intros lm Hlm.
  assert (G : forall (Rx : nat -> edge RNum -> nat -> R), rsum K (fun k => kR Rx i e (Nat.sqrt lm * K + k) * Aa i lm k) =
    rsum K (fun k => mulW0T (N:=RNum) mm s Aa i lm k * (Rx i e (Nat.sqrt lm * K + k)%nat * H0 e k))).
  { intros Rx.
    rewrite (rsum_ext K (fun k => kR Rx i e (Nat.sqrt lm * K + k) * Aa i lm k) (fun k => rsum K (fun kp =>
       W0 (N:=RNum) mm (ty s i) (Nat.sqrt lm) (kp * K + k) * Aa i lm k * (Rx i e (Nat.sqrt lm * K + kp)%nat * H0 e kp)))).
    2:{ intros k Hk. rewrite kR_at by auto. rewrite <- rsum_scal_r. apply rsum_ext. intros kp _. ring. }
    rewrite rsum_swap. apply rsum_ext. intros kp Hkp. rewrite rsum_scal_r. apply (f_equal (fun z => z * _)).
    unfold mulW0T. exact (eq_sym (nsum_rsum K _)). }
  rewrite !G, !Rmult_assoc, <- !rsum_scal_r, <- rsum_plus, <- rsum_opp. apply rsum_ext. intros k Hk.
  unfold f0term. cbn [nmul nopp nadd ndiv RNum].
  match goal with |- @eq _ ?x ?y => change (@eq R x y) end. unfold Rdiv. ring.
Qed.
Lemma eq_F1 Rf Rd Yf Yd (H dP : nat -> nat -> nat -> R) F i (e : edge RNum) a :
  F i e a - rsum NP (fun c => rsum K (fun k => Rd i e (ple mm c * K + k)%nat * H (e_idx e) (plm2 mm c) k * dP i c k) * comp (N:=RNum) e a / e_r e * Yf i e (plm1 mm c)
     + rsum K (fun k => Rf i e (ple mm c * K + k)%nat * H (e_idx e) (plm2 mm c) k * dP i c k) * Yd i e (a * L + plm1 mm c)%nat) =
  fold1 (N:=RNum) mm Rf Rd Yf Yd H dP F i e a.
Proof.
  unfold fold1, pck. rewrite nfold_grid. unfold Rminus. rewrite <- rsum_opp. f_equal. apply rsum_ext. intros c Hc.
  unfold Rdiv. rewrite !Rmult_assoc, <- !rsum_scal_r, <- rsum_plus, <- rsum_opp. apply rsum_ext. intros k Hk.
  unfold f1term. cbn [nmul nopp nadd ndiv RNum].
  match goal with |- @eq _ ?x ?y => change (@eq R x y) end. unfold Rdiv. ring.
Qed.
Variable nH : nat.
Hypothesis Hix : forall i e, (i < n)%nat -> In e (es s i) -> (e_idx e < nH)%nat.
Lemma eq_hadd (Ha : nat -> nat -> nat -> R) Rf Yf (dP : nat -> nat -> nat -> R) jj LM k : (jj < nH)%nat -> (LM < M)%nat -> (k < K)%nat ->
  Ha jj LM k + rsum n (fun i => rsum (nb i) (fun j => rsum NP (fun x =>
     if (e_idx (eg s (eo s i + j)) =? jj)%nat then (if (plm2 mm x =? LM)%nat then
        Rf (ow s (eo s i + j)) (eg s (eo s i + j)) (ple mm x * K + k)%nat * Yf (ow s (eo s i + j)) (eg s (eo s i + j)) (plm1 mm x) * dP (ow s (eo s i + j)) x k
     else 0) else 0))) =
  at_ (N:=RNum) (adds (cube nH M K Ha) (hadds (N:=RNum) mm s Rf Yf dP)) (jj * (M * K) + (LM * K + k)).
Proof.
  intros Hj HL Hk. refine (eq_trans _ (eq_sym (hadds_nth (N:=RNum) mm W s nH Hix Ha Rf Yf dP jj LM k Hj HL Hk))).
  rewrite nfold_R. f_equal.
  rewrite (rsum_epairs s (fun i e => rsum NP (fun x => if (e_idx e =? jj)%nat then (if (plm2 mm x =? LM)%nat then
        Rf i e (ple mm x * K + k)%nat * Yf i e (plm1 mm x) * dP i x k else 0) else 0))).
  unfold hsrc. rewrite map_flat_map, lsumR_flat_map. f_equal. apply map_ext. intros [i e]. cbn [fst snd].
  destruct (e_idx e =? jj)%nat.
  - rewrite map_map. unfold csel. pose proof (nfold_filter NP (fun c => (plm2 mm c =? LM)%nat)
      (fun x => Rf i e (ple mm x * K + k)%nat * Yf i e (plm1 mm x) * dP i x k) 0) as G.
    rewrite nfold_R, !Rplus_0_l in G. symmetry. exact G.
  - cbn [map lsumR]. apply rsum_0. auto.
Qed.
(** ** the rest *)
Lemma eq_h2 (H Mx : nat -> nat -> R) i k :
  rsum K (fun q => WHH (N:=RNum) mm (ty s i) (q * K + k) * H i q) + rsum K (fun q => WHM (N:=RNum) mm (q * K + k) * Mx i q) = h2 (N:=RNum) mm s H Mx i k.
Proof. unfold h2. refine (f_equal2 Rplus _ _); exact (eq_sym (nsum_rsum _ _)). Qed.
Lemma eq_rm0 (g : nat -> nat -> nat -> nat -> R) (Ma : nat -> nat -> nat -> R) i lm k :
  rsum M (fun LM => g i LM lm k * Ma i LM k) = rm0 (N:=RNum) mm g Ma i lm k.
Proof. unfold rm0. rewrite nfold_seq, RNum_zero, Rplus_0_l. reflexivity. Qed.
Lemma eq_dot (f g : nat -> nat -> nat -> R) i :
  rsum (L * K) (fun p => f i (p / K)%nat (p mod K) * g i (p / K)%nat (p mod K)) = dotlk (N:=RNum) mm f g i.
Proof. exact (eq_sym (nsum_rsum _ _)). Qed.
End Eq.
