(** Running the second layer on the leading nodes of longer arrays: whatever a stage computes on arrays that end with the last of those
    nodes, it computes on longer arrays as well, and what lies behind is left alone. *)
From Coq Require Import List Arith ZArith Lia Bool.
From Verif Require Import Base BaseLemmas SplineModel MpModel MlpModel BlasModel ZblModel MaceModel.
Import ListNotations.

Lemma rd_app {A} (l x : list A) i v : rd l i = Some v -> rd (l ++ x) i = Some v.
Proof. unfold rd. intros H. rewrite nth_error_app1; [exact H|]. apply nth_error_Some. rewrite H. discriminate. Qed.
Lemma upd_app {A} (l x : list A) i v : i < length l -> upd (l ++ x) i v = upd l i v ++ x.
Proof. revert i. induction l as [|a l IH]; intros i Hi; [cbn in Hi; lia|]. destruct i; cbn [upd app]; [reflexivity|]. cbn [length] in Hi. rewrite IH by lia. reflexivity. Qed.
Lemma wr_app {A} (l x : list A) i v l' : wr l i v = Some l' -> wr (l ++ x) i v = Some (l' ++ x).
Proof.
  unfold wr. destruct (Nat.ltb_spec i (length l)); [|discriminate]. intros E. injection E as <-. rewrite app_length. destruct (Nat.ltb_spec i (length l + length x)); [|lia].
  rewrite upd_app by assumption. reflexivity.
Qed.
Lemma addto_app {N : Num} (l x : list N) i v l' : addto l i v = Some l' -> addto (l ++ x) i v = Some (l' ++ x).
Proof. unfold addto. intros H. apply bind_some_inv in H. destruct H as (a & E & H). rewrite (rd_app _ _ _ _ E). cbn [bind]. apply wr_app. exact H. Qed.
Lemma subto_app {N : Num} (l x : list N) i v l' : subto l i v = Some l' -> subto (l ++ x) i v = Some (l' ++ x).
Proof. unfold subto. intros H. apply bind_some_inv in H. destruct H as (a & E & H). rewrite (rd_app _ _ _ _ E). cbn [bind]. apply wr_app. exact H. Qed.
Lemma for_from_hom {A C} (h : A -> C) (g : nat -> A -> option A) (g' : nat -> C -> option C) n : (forall i a b, g i a = Some b -> g' i (h a) = Some (h b)) ->
  forall i a b, for_from n i g a = Some b -> for_from n i g' (h a) = Some (h b).
Proof.
  intros Hg. induction n as [|n IH]; intros i a b; cbn [for_from]; [congruence|]. intros H. apply bind_some_inv in H. destruct H as (c & E & H).
  rewrite (Hg _ _ _ E). cbn [bind]. eauto.
Qed.
Lemma for_hom {A C} (h : A -> C) (g : nat -> A -> option A) (g' : nat -> C -> option C) n a b : for_ n g a = Some b -> (forall i a b, g i a = Some b -> g' i (h a) = Some (h b)) ->
  for_ n g' (h a) = Some (h b).
Proof. unfold for_. intros H Hg. eapply for_from_hom; eauto. Qed.
Lemma for_range_hom {A C} (h : A -> C) (g : nat -> A -> option A) (g' : nat -> C -> option C) lo hi a b : for_range lo hi g a = Some b -> (forall i a b, g i a = Some b -> g' i (h a) = Some (h b)) ->
  for_range lo hi g' (h a) = Some (h b).
Proof. unfold for_range. intros H Hg. eapply for_from_hom; eauto. Qed.
Lemma resize_pre {A} (d : A) old n n' : n <= n' -> exists x, resize d old n' = resize d old n ++ x.
Proof.
  intros H. unfold resize. destruct (Nat.le_gt_cases n (length old)) as [L|L].
  - exists (firstn (n' - n) (skipn n old) ++ repeat d (n' - length old)). replace (n - length old) with 0 by lia. cbn [repeat]. rewrite app_nil_r, app_assoc. f_equal.
    rewrite <- (firstn_skipn n (firstn n' old)), firstn_firstn. replace (Nat.min n n') with n by lia. f_equal. rewrite firstn_skipn_comm. f_equal. f_equal. lia.
  - exists (repeat d (n' - n)). rewrite !firstn_all2 by lia. rewrite <- app_assoc, <- repeat_app. f_equal. f_equal. lia.
Qed.
Lemma resize_id {A} (d : A) l n : length l = n -> resize d l n = l.
Proof. intros <-. unfold resize. rewrite firstn_all, Nat.sub_diag. apply app_nil_r. Qed.

(** one statement of a stage; [hl] acts on a loop state that is an array, [hp] on an array with a counter *)
Ltac dp := repeat match goal with w : (_ * _)%type |- _ => destruct w end; cbn beta iota in *.
Ltac stp hl hp :=
  cbn beta iota zeta in *;
  match goal with
  | H : (if ?b then _ else None) = Some _ |- _ => destruct b; [|discriminate H]
  | H : bind ?e _ = Some _ |- bind _ _ = Some _ =>
      let E := fresh "E" in let v := fresh "v" in
      destruct e as [v|] eqn:E; [|discriminate H]; cbn [bind] in H |- *;
      first [ lazymatch goal with |- bind ?e' _ = Some _ =>
                first [ rewrite E
                      | rewrite (rd_app _ _ _ _ E)
                      | rewrite (wr_app _ _ _ _ _ E)
                      | rewrite (addto_app _ _ _ _ _ E)
                      | rewrite (subto_app _ _ _ _ _ E)
                      | loop hl hp E e e' ] end; cbn [bind]
            | idtac ]; dp
  | H : ?e = Some _ |- ?e' = Some _ =>
      first [ exact H
            | exact (rd_app _ _ _ _ H)
            | exact (wr_app _ _ _ _ _ H)
            | exact (addto_app _ _ _ _ _ H)
            | exact (subto_app _ _ _ _ _ H)
            | (injection H; intros; subst; reflexivity)
            | loop1 hl hp H e e' ]
  end
with loop hl hp E e e' :=
  let h := lazymatch type of e with option (list _) => hl | option (list _ * nat) => hp | option ?T => constr:(fun x : T => x) end in
  let X := fresh "X" in
  lazymatch e' with
  | for_ _ ?g' _ => pose proof (for_hom h _ g' _ _ _ E) as X
  | for_range _ _ ?g' _ => pose proof (for_range_hom h _ g' _ _ _ _ E) as X
  end; cbn beta iota in X; rewrite X; [clear X|clear X E; intros ? ? ?; dp; intros ?; repeat stp hl hp]
with loop1 hl hp E e e' :=
  let h := lazymatch type of e with option (list _) => hl | option (list _ * nat) => hp | option ?T => constr:(fun x : T => x) end in
  let X := fresh "X" in
  lazymatch e' with
  | for_ _ ?g' _ => pose proof (for_hom h _ g' _ _ _ E) as X
  | for_range _ _ ?g' _ => pose proof (for_range_hom h _ g' _ _ _ _ E) as X
  end; cbn beta iota in X; apply X; clear X E; intros ? ? ?; dp; intros ?; repeat stp hl hp.

Section Mono.
Context {N : Num}.
Variable m : mace_model N.

Lemma compute_ZBL_app (z : ZBL N) n nt nn ty an r xyz ne nf xnt xnn xty xr xxyz x ne' nf' :
  compute_ZBL z n nt nn ty an r xyz ne nf = Some (ne', nf') ->
  compute_ZBL z n (nt ++ xnt) (nn ++ xnn) (ty ++ xty) an (r ++ xr) (xyz ++ xxyz) ne (nf ++ x) = Some (ne', nf' ++ x).
Proof.
  unfold compute_ZBL. intros H. apply bind_some_inv in H. destruct H as ([[a b] k] & E & H). injection H as <- <-.
  match type of E with for_ _ ?g _ = _ => match goal with |- context [for_ n ?g' _] =>
    assert (X := for_hom (fun '(ne, nf, k) => (ne, nf ++ x, k)) g g' n _ _ E) end end.
  cbn beta iota in X. rewrite X; [reflexivity|]. clear X E. intros i [[u v] w] [[u' v'] w'] H.
  repeat stp (fun l : list N => l) (fun p : list N * nat => p).
  match type of H with for_ _ ?g _ = _ => match goal with |- for_ ?n ?g' _ = _ =>
    apply (for_hom (fun '(ne, nf, k) => (ne, nf ++ x, k)) g g' n _ _ H) end end.
  clear H. intros jj [[? ?] ?] [[? ?] ?] H. repeat stp (fun l : list N => l) (fun p : list N * nat => p).
Qed.



Lemma css_evaluate_derivs_app (sp : @spline_set N) r v vb d db xv xd v' d' :
  css_evaluate_derivs sp r v vb d db = Some (v', d') -> css_evaluate_derivs sp r (v ++ xv) vb (d ++ xd) db = Some (v' ++ xv, d' ++ xd).
Proof.
  unfold css_evaluate_derivs. intros H. cbv zeta in *.
  do 4 stp (fun l : list N => l ++ xv) (fun p : list N * nat => p). repeat stp (fun l : list N => l ++ xd) (fun p : list N * nat => p).
Qed.
Lemma compute_R1_app n nt nn ty r oR oRd xnt xnn xty xr R1 R1d :
  compute_R1 m n nt nn ty r oR oRd = Some (R1, R1d) ->
  exists xR xRd, compute_R1 m n (nt ++ xnt) (nn ++ xnn) (ty ++ xty) (r ++ xr) oR oRd = Some (R1 ++ xR, R1d ++ xRd).
Proof.
  unfold compute_R1. intros H. apply bind_some_inv in H. destruct H as (s0 & E0 & H). rewrite E0. cbn [bind]. cbv zeta in *.
  rewrite !length_resize, app_length in *.
  destruct (resize_pre nzero oR (length r * css_num s0) ((length r + length xr) * css_num s0)) as (xR & ->); [nia|].
  destruct (resize_pre nzero oRd (length r * css_num s0) ((length r + length xr) * css_num s0)) as (xRd & ->); [nia|].
  exists xR, xRd. apply bind_some_inv in H. destruct H as ([[a b] k] & E & H). injection H as <- <-.
  match type of E with for_ _ ?g _ = _ => match goal with |- context [for_ n ?g' _] =>
    assert (X := for_hom (fun '(a, b, k) => (a ++ xR, b ++ xRd, k)) g g' n _ _ E) end end.
  cbn beta iota in X. rewrite X; [reflexivity|]. clear X E. intros i [[u v] w] [[u' v'] w'] H. do 2 stp (fun l : list N => l) (fun p : list N * nat => p).
  match type of H with for_ _ ?g _ = _ => match goal with |- for_ ?n ?g' _ = _ =>
    apply (for_hom (fun '(a, b, k) => (a ++ xR, b ++ xRd, k)) g g' n _ _ H) end end.
  clear H. intros jj [[? ?] ?] [[? ?] ?] H. do 4 stp (fun l : list N => l) (fun p : list N * nat => p).
  apply bind_some_inv in H. destruct H as ([p q] & E5 & H). rewrite (css_evaluate_derivs_app _ _ _ _ _ _ xR xRd _ _ E5). cbn [bind]. injection H as <- <- <-. reflexivity.
Qed.
Lemma compute_Phi1_app n nn ni Y R1 H1 oP oQ xnn xni xR r : compute_Phi1 m n nn ni Y R1 H1 oP oQ = Some r ->
  compute_Phi1 m n (nn ++ xnn) (ni ++ xni) Y (R1 ++ xR) H1 oP oQ = Some r.
Proof. unfold compute_Phi1. intros H. cbv zeta in *. repeat stp (fun l : list N => l) (fun p : list N * nat => p). Qed.
Lemma compute_A1_scaled_app n nt nn ty r A1 xnt xnn xty xr A : compute_A1_scaled m n nt nn ty r A1 = Some A ->
  compute_A1_scaled m n (nt ++ xnt) (nn ++ xnn) (ty ++ xty) (r ++ xr) A1 = Some A.
Proof. unfold compute_A1_scaled. intros H. destruct (negb (m_A1_scaled m)); [exact H|]. cbv zeta in *. repeat stp (fun l : list N => l) (fun p : list N * nat => p). Qed.
Lemma compute_M1_app n nt A1 P1 oM oG xnt r : compute_M1 m n nt A1 P1 oM oG = Some r -> compute_M1 m n (nt ++ xnt) A1 P1 oM oG = Some r.
Proof. unfold compute_M1. intros H. cbv zeta in *. repeat stp (fun l : list N => l) (fun p : list N * nat => p). Qed.
Lemma compute_H2_app n nt H1 M1 o xnt r : compute_H2 m n nt H1 M1 o = Some r -> compute_H2 m n (nt ++ xnt) H1 M1 o = Some r.
Proof. unfold compute_H2. intros H. cbv zeta in *. repeat stp (fun l : list N => l) (fun p : list N * nat => p). Qed.
Lemma compute_readouts_app n nt H1 H2 ro ne o1 o2 xnt r : compute_readouts m n nt H1 H2 ro ne o1 o2 = Some r -> compute_readouts m n (nt ++ xnt) H1 H2 ro ne o1 o2 = Some r.
Proof. unfold compute_readouts. intros H. cbv zeta in *. repeat stp (fun l : list N => l) (fun p : list N * nat => p). Qed.
Lemma reverse_H2_app n nt b H1 M1 H2a o1 o2 xnt r : reverse_H2 m n nt b H1 M1 H2a o1 o2 = Some r -> reverse_H2 m n (nt ++ xnt) b H1 M1 H2a o1 o2 = Some r.
Proof. unfold reverse_H2. intros H. cbv zeta in *. repeat stp (fun l : list N => l) (fun p : list N * nat => p). Qed.
Lemma reverse_A1_scaled_app n nt nn ty xyz r A1 nf Aa xnt xnn xty xxyz xr x nf' Aa' : length nf = length xyz -> length x = length xxyz ->
  reverse_A1_scaled m n nt nn ty xyz r false A1 nf Aa = Some (nf', Aa') ->
  reverse_A1_scaled m n (nt ++ xnt) (nn ++ xnn) (ty ++ xty) (xyz ++ xxyz) (r ++ xr) false A1 (nf ++ x) Aa = Some (nf' ++ x, Aa').
Proof.
  intros L1 L2. unfold reverse_A1_scaled. intros H. destruct (negb (m_A1_scaled m)); [injection H as <- <-; reflexivity|]. cbv zeta in *.
  rewrite !resize_id in * by (rewrite ?app_length; lia).
  apply bind_some_inv in H. destruct H as ([[a b] k] & E & H). injection H as <- <-.
  match type of E with for_ _ ?g _ = _ => match goal with |- context [for_ n ?g' _] =>
    assert (X := for_hom (fun '(a, b, k) => (a ++ x, b, k)) g g' n _ _ E) end end.
  cbn beta iota in X. rewrite X; [reflexivity|]. clear X E. intros i [[u v] w] [[u' v'] w'] H.
  do 4 stp (fun l : list N => l) (fun p : list N * nat => p).
  stp (fun l : list N => l) (fun '((l, k) : list N * nat) => (l ++ x, k)).
  repeat stp (fun l : list N => l) (fun p : list N * nat => p).
Qed.
Lemma reverse_Phi1_app n nn ni xyz r Y Yg R1 R1d H1 P1 dP oP nf Ha xnn xni xxyz xr xR xRd x P' nf' Ha' : length nf = length xyz -> length x = length xxyz ->
  reverse_Phi1 m n nn ni xyz r false false Y Yg R1 R1d H1 P1 dP oP nf Ha = Some (P', nf', Ha') ->
  reverse_Phi1 m n (nn ++ xnn) (ni ++ xni) (xyz ++ xxyz) (r ++ xr) false false Y Yg (R1 ++ xR) (R1d ++ xRd) H1 P1 dP oP (nf ++ x) Ha = Some (P', nf' ++ x, Ha').
Proof.
  intros L1 L2. unfold reverse_Phi1. intros H. cbv zeta in *.
  do 2 stp (fun l : list N => l) (fun p : list N * nat => p).
  rewrite (resize_id nzero nf) in H by lia. rewrite (resize_id nzero (nf ++ x)) by (rewrite !app_length; lia).
  stp (fun l : list N => l ++ x) (fun '((l, k) : list N * nat) => (l ++ x, k)).
  repeat stp (fun l : list N => l) (fun p : list N * nat => p).
Qed.
End Mono.
