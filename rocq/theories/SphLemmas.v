(** Proofs about the spherical harmonics. *)
From Coq Require Import List Arith ZArith Lia Reals Lra.
From Verif Require Import Base BaseLemmas Instances RSums SphModel SphSpec.
Import ListNotations.
Local Open Scope nat_scope.

Section Fill.
Context {N : Num}.
Variable sph : nat -> N -> N -> N -> list N.
Hypothesis Hlen : sphericart_len sph.

Definition sample (L : nat) (xyz : list N) (i : nat) : list N :=
  sph L (nth (3*i) xyz nzero) (nth (3*i+1) xyz nzero) (nth (3*i+2) xyz nzero).

Lemma compute_len L xyz n : length xyz = 3 * n -> length (sph_compute sph L xyz) = n * ((L+1)*(L+1)).
Proof.
  intros H. unfold sph_compute. rewrite H, Nat.mul_comm, Nat.div_mul by lia.
  rewrite (length_flat_map_const _ _ ((L+1)*(L+1))). { rewrite seq_length. reflexivity. }
  intros; apply Hlen.
Qed.

Lemma compute_nth L xyz n i p : length xyz = 3 * n -> i < n -> p < (L+1)*(L+1) ->
  nth (i * ((L+1)*(L+1)) + p) (sph_compute sph L xyz) nzero = nth p (sample L xyz i) nzero.
Proof.
  intros H Hi Hp. apply nth_error_nth. unfold sph_compute.
  assert (En : length xyz / 3 = n). { rewrite H, Nat.mul_comm, Nat.div_mul; lia. }
  rewrite En.
  erewrite nth_error_flat_map_const with (x := i) (c := (L+1)*(L+1)).
  - apply nth_error_nth'. unfold sample. rewrite Hlen. exact Hp.
  - intros; apply Hlen.
  - rewrite (nth_error_nth' _ 0) by (rewrite seq_length; lia). rewrite seq_nth by lia. reflexivity.
  - exact Hp.
Qed.

Definition entry (v : nat -> N) (l k : nat) : cx :=
  if k <? l then cmulr (rsubc (v (2*l-k)) (cmulr cimag (v k))) (ndiv none (nsqrt (nlit 2 1)))
  else if k =? l then cofr (v l)
  else cmulr (raddc (v k) (cmulr cimag (v (2*l-k)))) (nmul (npowi (nlit (-1) 1) (Z.of_nat k - Z.of_nat l)) (ndiv none (nsqrt (nlit 2 1)))).

Lemma rdZ_pos {A} (a : list A) z i d : z = Z.of_nat i -> i < length a -> rdZ a z = Some (nth i a d).
Proof.
  intros -> H. unfold rdZ. destruct (Z.ltb_spec (Z.of_nat i) 0); [lia|]. rewrite Nat2Z.id. apply rd_some, H.
Qed.

Lemma wrZ_pos {A} (a : list A) z i v : z = Z.of_nat i -> i < length a -> wrZ a z v = Some (upd a i v).
Proof.
  intros -> H. unfold wrZ. destruct (Z.ltb_spec (Z.of_nat i) 0); [lia|]. rewrite Nat2Z.id. apply wr_some, H.
Qed.

Lemma lk_lt L l k : l <= L -> k < 2*l+1 -> l*l+k < (L+1)*(L+1).
Proof. intros. nia. Qed.

Definition filled (L n : nat) (xyz : list N) (p : nat) (C : list cx) : Prop :=
  length C = n * ((L+1)*(L+1)) /\
  forall i l k, i < n -> l <= L -> k < 2*l+1 -> i * ((L+1)*(L+1)) + (l*l + k) < p ->
    nth (i * ((L+1)*(L+1)) + (l*l + k)) C (nzero,nzero) = entry (fun q => nth (l*l+q) (sample L xyz i) nzero) l k.

Lemma pos_inj L i i' l l' k k' : l <= L -> l' <= L -> k < 2*l+1 -> k' < 2*l'+1 ->
  i * ((L+1)*(L+1)) + (l*l + k) = i' * ((L+1)*(L+1)) + (l'*l' + k') -> i = i' /\ l = l' /\ k = k'.
Proof.
  intros H H' Hk Hk' E.
  pose proof (lk_lt L l k H Hk). pose proof (lk_lt L l' k' H' Hk').
  assert (i = i') by nia. subst i'. assert (l = l') by nia. subst l'. lia.
Qed.

Lemma filled_step L n xyz i l k C v : i < n -> l <= L -> k < 2*l+1 ->
  filled L n xyz (i * ((L+1)*(L+1)) + (l*l + k)) C ->
  v = entry (fun q => nth (l*l+q) (sample L xyz i) nzero) l k ->
  filled L n xyz (i * ((L+1)*(L+1)) + (l*l + S k)) (upd C (i * ((L+1)*(L+1)) + (l*l + k)) v).
Proof.
  intros Hi Hl Hk [HC HF] ->. split; [rewrite length_upd; exact HC|].
  intros i' l' k' Hi' Hl' Hk' Hp.
  rewrite nth_upd by (rewrite HC; pose proof (lk_lt L l k Hl Hk); nia).
  destruct (Nat.eqb_spec (i * ((L+1)*(L+1)) + (l*l + k)) (i' * ((L+1)*(L+1)) + (l'*l' + k'))) as [E|E].
  - destruct (pos_inj L _ _ _ _ _ _ Hl Hl' Hk Hk' E) as [? [? ?]]. subst.
    reflexivity.
  - apply HF; try assumption. lia.
Qed.

Lemma filled_more L n xyz p q C : p = q -> filled L n xyz p C -> filled L n xyz q C.
Proof. intros ->. auto. Qed.

Lemma complex_fill L n xyz : length xyz = 3 * n ->
  exists C, sphericart_complex sph L xyz = Some C /\ filled L n xyz (n * ((L+1)*(L+1))) C.
Proof.
  intros H. unfold sphericart_complex.
  assert (En : length xyz / 3 = n). { rewrite H, Nat.mul_comm, Nat.div_mul; lia. }
  rewrite En. pose proof (compute_len L xyz n H) as HL.
  set (SR := sph_compute sph L xyz) in *.
  edestruct (for_inv (fun i C => filled L n xyz (i * ((L+1)*(L+1))) C) n) as [C [E HC]]; [ | | exists C; split; [exact E|exact HC]].
  { split. { rewrite repeat_length. ring. } intros; lia. }
  intros i C Hi HC. cbv beta.
  edestruct (for_inv (fun l C => filled L n xyz (i * ((L+1)*(L+1)) + l*l) C) (L+1)) as [C' [E HC']]; cycle 2.
  { exists C'; split; [exact E|]. eapply filled_more; [|exact HC']. ring. }
  { eapply filled_more; [|exact HC]. ring. }
  clear C HC. intros l C Hl HC. cbv beta. assert (HlL : l <= L) by lia.
  edestruct (for_inv (fun k C => filled L n xyz (i * ((L+1)*(L+1)) + (l*l + k)) C) (2*l+1)) as [C' [E HC']]; cycle 2.
  { exists C'; split; [exact E|]. eapply filled_more; [|exact HC']. ring. }
  { eapply filled_more; [|exact HC]. ring. }
  clear C HC. intros k C Hk HC. cbv beta.
  assert (Hin : forall q, q < 2*l+1 -> i * ((L+1)*(L+1)) + (l*l + q) < n * ((L+1)*(L+1))).
  { intros q Hq. pose proof (lk_lt L l q HlL Hq). nia. }
  assert (Hrd : forall q z, q < 2*l+1 -> z = Z.of_nat (i * ((L+1)*(L+1)) + (l*l+q)) ->
    rdZ SR z = Some (nth (l*l+q) (sample L xyz i) nzero)).
  { intros q z Hq Hz. erewrite rdZ_pos with (d := nzero); [|exact Hz|rewrite HL; auto].
    rewrite <- (compute_nth L xyz n i (l*l+q) H Hi (lk_lt L l q HlL Hq)). reflexivity. }
  assert (Hwr : forall z v, z = Z.of_nat (i * ((L+1)*(L+1)) + (l*l+k)) ->
    wrZ C z v = Some (upd C (i * ((L+1)*(L+1)) + (l*l+k)) v)).
  { intros z v Hz. apply wrZ_pos; [exact Hz|]. destruct HC as [-> _]. auto. }
  destruct (Z.ltb_spec (Z.of_nat k - Z.of_nat l) 0) as [Hm|Hm].
  - rewrite (Hrd (2*l-k)) by nia. rewrite (Hrd k) by nia. cbn [bind]. rewrite Hwr by nia.
    eexists; split; [reflexivity|]. apply filled_step; try assumption.
    unfold entry. destruct (Nat.ltb_spec k l); [reflexivity|lia].
  - destruct (Z.eqb_spec (Z.of_nat k - Z.of_nat l) 0) as [Hz|Hz].
    + rewrite (Hrd l) by nia. cbn [bind]. rewrite Hwr by nia.
      eexists; split; [reflexivity|]. apply filled_step; try assumption.
      unfold entry. destruct (Nat.ltb_spec k l); [lia|]. destruct (Nat.eqb_spec k l); [reflexivity|lia].
    + rewrite (Hrd k) by nia. rewrite (Hrd (2*l-k)) by nia. cbn [bind]. rewrite Hwr by nia.
      eexists; split; [reflexivity|]. apply filled_step; try assumption.
      unfold entry. destruct (Nat.ltb_spec k l); [lia|]. destruct (Nat.eqb_spec k l); [lia|reflexivity].
Qed.

(** the single-harmonic function, when the values do not depend on l_max *)
Hypothesis Hst : sphericart_stable sph.

Lemma real_one L l k m x y z : l <= L -> k < 2*l+1 -> m = (Z.of_nat k - Z.of_nat l)%Z ->
  sphericart_real_sph_harm sph (Z.of_nat l) m x y z = Some (nth (l*l+k) (sph L x y z) nzero).
Proof.
  intros Hl Hk ->. unfold sphericart_real_sph_harm.
  destruct (Z.leb_spec 0 (Z.of_nat l)); [|lia]. rewrite Nat2Z.id.
  assert (B : l*l+k < (l+1)*(l+1)) by nia.
  erewrite rdZ_pos with (i := l*l+k) (d := nzero); [|nia|rewrite Hlen; exact B].
  f_equal. apply nth_error_nth. rewrite (Hst l L) by (assumption || lia).
  apply nth_error_nth'. rewrite Hlen. nia.
Qed.
End Fill.

Local Open Scope R_scope.
Lemma pow_sq m : powerRZ (-1) m * powerRZ (-1) m = 1.
Proof. rewrite <- powerRZ_mult. replace (-1 * -1) with 1 by ring. apply powerRZ_R1. Qed.

Lemma sign_pow m : powerRZ (-1) m = sign m.
Proof.
  unfold sign. destruct (Z.Even_or_Odd m) as [[q ->]|[q ->]].
  - replace (Z.even (2*q)) with true by (symmetry; apply Z.even_spec; exists q; reflexivity).
    replace (2*q)%Z with (q+q)%Z by ring. rewrite powerRZ_add by lra. apply pow_sq.
  - replace (Z.even (2*q+1)) with false
      by (rewrite Z.even_add, (proj2 (Z.even_spec (2*q))); [reflexivity|exists q; reflexivity]).
    replace (2*q)%Z with (q+q)%Z by ring. rewrite !powerRZ_add, pow_sq by lra. simpl. ring.
Qed.

Lemma sign_sq m : sign m * sign m = 1.
Proof. rewrite <- sign_pow. apply pow_sq. Qed.

Lemma sign_opp m : sign (- m) = sign m.
Proof. unfold sign. rewrite Z.even_opp. reflexivity. Qed.

Ltac toR := cbn [nmul nadd ndiv nsub nopp npowi nlit nsqrt RNum carrier]; lazymatch goal with |- @eq _ ?a ?b => change (@eq R a b) end.

Section RealPart.
Variable sph : nat -> R -> R -> R -> list R.

Definition rval (L : nat) (xyz : list R) (i l : nat) (m : Z) : R := nth (lm L 0 l m) (sample (N:=RNum) sph L xyz i) 0.

Lemma lm_pos L i l k : (k < 2*l+1)%nat -> lm L i l (Z.of_nat k - Z.of_nat l) = (i * ((L+1)*(L+1)) + (l*l + k))%nat.
Proof. intros H. unfold lm. nia. Qed.

Hypothesis Hlen : sphericart_len (N:=RNum) sph.

(** the entry in terms of degree and order *)
Definition centry (v : Z -> R) (m : Z) : R * R :=
  if (m <? 0)%Z then (v (- m)%Z / sqrt 2, - v m / sqrt 2)
  else if (m =? 0)%Z then (v 0%Z, 0)
  else (sign m * v m / sqrt 2, sign m * v (- m)%Z / sqrt 2).

Lemma entry_R L xyz i l k : (k < 2*l+1)%nat ->
  entry (N:=RNum) (fun q => nth (l*l+q) (sample (N:=RNum) sph L xyz i) (@nzero RNum)) l k = centry (rval L xyz i l) (Z.of_nat k - Z.of_nat l).
Proof.
  intros Hk. unfold entry, centry, rval.
  assert (P : forall q m, (q < 2*l+1)%nat -> m = (Z.of_nat q - Z.of_nat l)%Z ->
     nth (l*l+q) (sample (N:=RNum) sph L xyz i) (@nzero RNum) = nth (lm L 0 l m) (sample (N:=RNum) sph L xyz i) 0).
  { intros q m Hq ->. rewrite (lm_pos L 0 l q Hq). rewrite RNum_zero. reflexivity. }
  destruct (Nat.ltb_spec k l) as [H|H].
  - destruct (Z.ltb_spec (Z.of_nat k - Z.of_nat l) 0); [|lia].
    rewrite (P (2*l-k)%nat (- (Z.of_nat k - Z.of_nat l))%Z), (P k (Z.of_nat k - Z.of_nat l)%Z) by lia.
    unfold cmulr, rsubc, cmulr, cimag. cbn [fst snd]. rewrite ?RNum_zero, ?RNum_one.
    apply f_equal2; toR; unfold Rdiv; ring.
  - destruct (Z.ltb_spec (Z.of_nat k - Z.of_nat l) 0); [lia|].
    destruct (Nat.eqb_spec k l) as [E|E].
    + destruct (Z.eqb_spec (Z.of_nat k - Z.of_nat l) 0); [|lia].
      rewrite (P l 0%Z) by lia. unfold cofr. rewrite RNum_zero. reflexivity.
    + destruct (Z.eqb_spec (Z.of_nat k - Z.of_nat l) 0); [lia|].
      rewrite (P (2*l-k)%nat (- (Z.of_nat k - Z.of_nat l))%Z), (P k (Z.of_nat k - Z.of_nat l)%Z) by lia.
      rewrite <- sign_pow.
      unfold cmulr, raddc, cmulr, cimag. cbn [fst snd]. rewrite ?RNum_zero, ?RNum_one.
      apply f_equal2; toR; unfold Rdiv; ring.
Qed.

Lemma complex_R L n xyz : length xyz = (3 * n)%nat ->
  exists C, sphericart_complex (N:=RNum) sph L xyz = Some C /\ length C = (n * ((L+1)*(L+1)))%nat /\
    forall i l m, (i < n)%nat -> (l <= L)%nat -> (- Z.of_nat l <= m <= Z.of_nat l)%Z ->
      nth (lm L i l m) C (0, 0) = centry (rval L xyz i l) m.
Proof.
  intros H. destruct (complex_fill (N:=RNum) sph Hlen L n xyz H) as [C [E [HC HF]]].
  exists C. split; [exact E|]. split; [exact HC|].
  intros i l m Hi Hl Hm.
  set (k := Z.to_nat (m + Z.of_nat l)). assert (Hk : (k < 2*l+1)%nat) by (unfold k; lia).
  assert (Em : m = (Z.of_nat k - Z.of_nat l)%Z) by (unfold k; lia).
  rewrite Em, lm_pos, <- entry_R by assumption.
  etransitivity; [|apply HF; try assumption].
  - rewrite RNum_zero. reflexivity.
  - pose proof (lk_lt L l k Hl Hk). nia.
Qed.

Lemma centry_conj v m : centry v (- m) = times (sign m) (conj (centry v m)).
Proof.
  unfold centry, times, conj.
  destruct (Z.ltb_spec m 0); destruct (Z.ltb_spec (- m) 0); try lia.
  - destruct (Z.eqb_spec (- m) 0); [lia|]. cbn [fst snd]. rewrite sign_opp, Z.opp_involutive.
    apply f_equal2; unfold Rdiv; ring.
  - destruct (Z.eqb_spec m 0); [lia|]. cbn [fst snd]. rewrite Z.opp_involutive.
    apply f_equal2; unfold Rdiv; rewrite ?Ropp_mult_distr_r, <- ?Rmult_assoc, sign_sq; ring.
  - destruct (Z.eqb_spec (- m) 0); [|lia]. destruct (Z.eqb_spec m 0); [|lia]. subst m. cbn. apply f_equal2; ring.
Qed.

Lemma abs2_centry v m : abs2 (centry v m) = (v m * v m + v (- m)%Z * v (- m)%Z) / 2.
Proof.
  assert (Q : / sqrt 2 * / sqrt 2 = / 2). { rewrite <- Rinv_mult, sqrt_sqrt by lra. reflexivity. }
  unfold abs2, centry. destruct (Z.ltb_spec m 0); [|destruct (Z.eqb_spec m 0)]; cbn [fst snd]; unfold Rdiv.
  - rewrite <- Q. ring.
  - subst m. cbn. field.
  - pose proof (sign_sq m) as S.
    transitivity ((sign m * sign m) * (v m * v m + v (-m)%Z * v (-m)%Z) * (/ sqrt 2 * / sqrt 2)); [ring|].
    rewrite S, Q. ring.
Qed.

Lemma sum_m_rsum l f : sum_m l f = rsum (2*l+1) (fun k => f (Z.of_nat k - Z.of_nat l)%Z).
Proof.
  unfold sum_m. generalize (fun k : nat => f (Z.of_nat k - Z.of_nat l)%Z) as g. intros g.
  change (lsumR (tab (2*l+1) g) = rsum (2*l+1) g). apply lsumR_tab.
Qed.

Lemma rsum_rev n f : rsum n f = rsum n (fun i => f (n - 1 - i)%nat).
Proof.
  induction n as [|n IH]; [reflexivity|].
  rewrite (rsum_shift n (fun i => f (S n - 1 - i)%nat)).
  replace (S n - 1 - 0)%nat with n by lia.
  rewrite (rsum_ext n (fun i => f (S n - 1 - S i)%nat) (fun i => f (n - 1 - i)%nat)) by (intros; f_equal; lia).
  rewrite <- IH. cbn. ring.
Qed.

Lemma sum_m_opp l f : sum_m l (fun m => f (- m)%Z) = sum_m l f.
Proof.
  rewrite !sum_m_rsum. rewrite (rsum_rev _ (fun k => f (Z.of_nat k - Z.of_nat l)%Z)).
  apply rsum_ext. intros i Hi. f_equal. lia.
Qed.

Lemma sum_m_ext l f g : (forall m, (- Z.of_nat l <= m <= Z.of_nat l)%Z -> f m = g m) -> sum_m l f = sum_m l g.
Proof. intros H. rewrite !sum_m_rsum. apply rsum_ext. intros i Hi. apply H. lia. Qed.

Lemma centry_norm v l : sum_m l (fun m => abs2 (centry v m)) = sum_m l (fun m => v m * v m).
Proof.
  rewrite (sum_m_ext l _ (fun m => (v m * v m + v (- m)%Z * v (- m)%Z) / 2)) by (intros; apply abs2_centry).
  pose proof (sum_m_opp l (fun m => v m * v m)) as O. cbv beta in O. rewrite sum_m_rsum in O |- *.
  rewrite (sum_m_rsum l (fun m => v m * v m)) in O |- *.
  unfold Rdiv. rewrite rsum_scal_r, rsum_plus, O. field.
Qed.

Hypothesis Hst : sphericart_stable (N:=RNum) sph.
Lemma single_R L n xyz i l m : length xyz = (3*n)%nat -> (i < n)%nat -> (l <= L)%nat -> (- Z.of_nat l <= m <= Z.of_nat l)%Z ->
  sphericart_sph_harm (N:=RNum) sph (Z.of_nat l) m (nth (3*i) xyz 0) (nth (3*i+1) xyz 0) (nth (3*i+2) xyz 0)
  = Some (centry (rval L xyz i l) m).
Proof.
  intros HX Hi Hl Hm.
  assert (P : forall q, (- Z.of_nat l <= q <= Z.of_nat l)%Z ->
    sphericart_real_sph_harm (N:=RNum) sph (Z.of_nat l) q (nth (3*i) xyz 0) (nth (3*i+1) xyz 0) (nth (3*i+2) xyz 0)
    = Some (rval L xyz i l q)).
  { intros q Hq. rewrite (real_one (N:=RNum) sph Hlen Hst L l (Z.to_nat (q + Z.of_nat l)) q) by lia.
    unfold rval, sample. rewrite RNum_zero. f_equal. f_equal. unfold lm. nia. }
  unfold sphericart_sph_harm, centry.
  destruct (Z.ltb_spec m 0).
  - rewrite !P by lia. cbn [bind]. unfold cmulr, rsubc, cmulr, cimag. cbn [fst snd]. rewrite ?RNum_zero, ?RNum_one.
    f_equal. apply f_equal2; toR; unfold Rdiv; ring.
  - destruct (Z.eqb_spec m 0).
    + subst m. rewrite !P by lia. cbn [bind]. unfold cofr. rewrite RNum_zero. reflexivity.
    + rewrite !P by lia. cbn [bind]. rewrite <- sign_pow. unfold cmulr, raddc, cmulr, cimag. cbn [fst snd].
      rewrite ?RNum_zero, ?RNum_one. f_equal.
      apply f_equal2; toR; unfold Rdiv; ring.
Qed.

End RealPart.
