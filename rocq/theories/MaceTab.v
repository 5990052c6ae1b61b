(** The radial tables of a loaded model, row by row, over the reals. *)
From Coq Require Import List Arith ZArith Lia Bool Reals Lra.
From Verif Require Import Base BaseLemmas Segs Instances SplineModel SplineProofs MpModel MlpModel ZblModel MaceModel MaceSpec MaceSpec2 Sys SysLoops
  MacePure MaceStages1 MacePipe MaceLoad MaceFlat ExportSpec ExportProofs.
Import ListNotations.

Section Gen.
Context {N : Num}.

Lemma splset_coef (h : N) vs ds n (r : N) q p : (q < 4)%nat -> (p < length vs)%nat -> (cell (splset h vs ds n) r < n - 1)%nat ->
  coef (splset h vs ds n) r q p = hco h (srow vs p) (srow ds p) q (cell (splset h vs ds n) r).
Proof.
  intros Hq Hp Hc. set (i := cell (splset h vs ds n) r) in *. unfold coef, at_. cbn [css_c css_num splset]. fold i.
  apply nth_error_nth.
  replace ((4 * i + q) * length vs + p)%nat with (i * (4 * length vs) + (q * length vs + p))%nat by lia.
  rewrite (nth_error_flat_map_const _ _ (4 * length vs) i (q * length vs + p) i).
  - rewrite hset_tab. rewrite (nth_error_nth' _ nzero) by (rewrite length_tab; nia). rewrite nth_tab by nia.
    rewrite set_part_at by auto. reflexivity.
  - intros. rewrite hset_tab, length_tab. reflexivity.
  - rewrite (nth_error_nth' _ 0%nat) by (rewrite seq_length; auto). rewrite seq_nth by auto. reflexivity.
  - nia.
Qed.
End Gen.

Local Open Scope R_scope.

Lemma setv_csv (h : R) vs ds n r p : in_set (splset (N:=RNum) h vs ds n) r -> (p < length vs)%nat -> length (nth p vs []) = n ->
  setv (N:=RNum) (splset (N:=RNum) h vs ds n) r p = csv (N:=RNum) (spl (N:=RNum) h (nth p vs []) (nth p ds [])) r /\
  setd (N:=RNum) (splset (N:=RNum) h vs ds n) r p = csd (N:=RNum) (spl (N:=RNum) h (nth p vs []) (nth p ds [])) r.
Proof.
  intros Hin Hp Hn. unfold in_set in Hin. cbn [css_h css_nodes splset] in Hin.
  set (S := splset (N:=RNum) h vs ds n).
  assert (Hc : ntrunc (ndiv r h) = Z.of_nat (cell S r)).
  { unfold cell. cbn [S css_h splset]. rewrite Z2Nat.id by lia. reflexivity. }
  assert (Hlt : (cell S r < n - 1)%nat) by lia.
  destruct (cs_all_ok (N:=RNum) h (nth p vs []) (nth p ds []) r (cell S r) Hc) as (_ & E & _); [lia|].
  assert (Hco : forall q, (q < 4)%nat -> coef S r q p = hco (N:=RNum) h (vfun (nth p vs [])) (vfun (nth p ds [])) q (cell S r)).
  { intros q Hq. apply (splset_coef (N:=RNum) h vs ds n r q p Hq Hp Hlt). }
  unfold csv, csd. rewrite E. unfold setv, setd, locx. rewrite !Hco by lia.
  unfold SplineProofs.pval, pder. change (css_h S) with h. generalize (cell S r). intros i.
  generalize (hco (N:=RNum) h (vfun (nth p vs [])) (vfun (nth p ds [])) 0 i) (hco (N:=RNum) h (vfun (nth p vs [])) (vfun (nth p ds [])) 1 i)
    (hco (N:=RNum) h (vfun (nth p vs [])) (vfun (nth p ds [])) 2 i) (hco (N:=RNum) h (vfun (nth p vs [])) (vfun (nth p ds [])) 3 i).
  rewrite !RNum_ofZ. cbn [nadd nmul nsub RNum carrier]. intros a b c d. split; ring.
Qed.

Lemma tyij_upairs {N : Num} (m : mace_model N) t u : (t < length (m_atomic_numbers m))%nat -> (u < length (m_atomic_numbers m))%nat ->
  nth_error (upairs (length (m_atomic_numbers m))) (tyij m t u) = Some (Nat.min t u, Nat.max t u).
Proof.
  intros Ht Hu. unfold tyij. destruct (Nat.leb_spec t u).
  - rewrite upairs_nth by lia. do 2 f_equal; lia.
  - rewrite upairs_nth by lia. do 2 f_equal; lia.
Qed.

Lemma spline_zero_cs (h : R) vs ds r : (1 <= length vs)%nat -> length ds = length vs -> spline_zero (N:=RNum) h vs ds r ->
  csv (N:=RNum) (spl (N:=RNum) h vs ds) r = 0 /\ csd (N:=RNum) (spl (N:=RNum) h vs ds) r = 0.
Proof.
  intros H1 H2 (s & E & Ev). rewrite (make_spline_spec (N:=RNum)) in E by auto. injection E as <-. unfold csv, csd. rewrite Ev.
  rewrite RNum_zero. auto.
Qed.
