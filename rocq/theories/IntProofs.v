(** Proofs for C90. *)
From Coq Require Import List Arith ZArith Lia Bool.
From Verif Require Import Base BaseLemmas SplineModel SplineProofs MaceModel MaceSpec MaceStages1 MaceLoad IntModel IntSpec.
Import ListNotations.

Local Notation LIM := 2147483648%Z.
Definition ev (e : option Z) (v : Z) : Prop := e = Some v /\ (0 <= v)%Z.
Lemma int32_ok z : (0 <= z < LIM)%Z -> int32 z = Some z.
Proof. intros H. unfold int32. rewrite (proj2 (Z.leb_le _ _)), (proj2 (Z.ltb_lt _ _)) by lia. reflexivity. Qed.
Lemma int32_no z : (LIM <= z)%Z -> int32 z = None.
Proof. intros H. unfold int32. rewrite (proj2 (Z.ltb_ge _ _)) by lia. rewrite andb_false_r. reflexivity. Qed.
Lemma ev_I k : (Z.of_nat k < LIM)%Z -> ev (I k) (Z.of_nat k).
Proof. intros H. split; [apply int32_ok; lia|lia]. Qed.
Lemma ev_mul a b u v : ev a u -> ev b v -> (u * v < LIM)%Z -> ev (imul a b) (u * v).
Proof. intros [-> Hu] [-> Hv] H. cbn [imul bind]. unfold imul. cbn [bind]. split; [apply int32_ok; nia|nia]. Qed.
Lemma ev_add a b u v : ev a u -> ev b v -> (u + v < LIM)%Z -> ev (iadd a b) (u + v).
Proof. intros [-> Hu] [-> Hv] H. unfold iadd. cbn [bind]. split; [apply int32_ok; lia|lia]. Qed.
Lemma vals_nil : vals [] = Some tt.
Proof. reflexivity. Qed.
Lemma vals_cons e l v : ev e v -> vals l = Some tt -> vals (e :: l) = Some tt.
Proof. intros [-> _] H. exact H. Qed.
Lemma bind_tt {B} (e : option unit) (k : unit -> option B) r : e = Some tt -> k tt = r -> bind e k = r.
Proof. intros -> H. exact H. Qed.
Lemma rd_bind {A B} (l : list A) i (k : A -> option B) r : i < length l -> (forall v, In v l -> k v = r) -> bind (rd l i) k = r.
Proof. intros Hi H. unfold rd. destruct (nth_error l i) eqn:E; [|apply nth_error_None in E; lia]. cbn [bind]. apply H. exact (nth_error_In _ _ E). Qed.
Lemma loop_ok n body : (forall i, i < n -> body i = Some tt) -> loop n body = Some tt.
Proof. intros H. unfold loop. apply (for_trace (fun _ => tt)); auto. Qed.
Lemma run_ok n body ij E : ij + n <= E -> (Z.of_nat E < LIM)%Z -> (forall q, ij <= q < ij + n -> body q = Some tt) -> run n body ij = Some (ij + n).
Proof.
  intros H HE Hb. unfold run. apply (for_trace (fun k => ij + k)); [lia|reflexivity|]. intros k Hk. rewrite Hb by lia. cbn [bind].
  destruct (ev_add (I (ij + k)) (I 1) (Z.of_nat (ij + k)) (Z.of_nat 1)) as [-> _]; [apply ev_I; lia|apply ev_I; lia|lia|]. cbn [bind]. f_equal. lia.
Qed.
Lemma firstn_sum (nn : list nat) i : i < length nn -> list_sum (firstn (S i) nn) = list_sum (firstn i nn) + nth i nn 0.
Proof. revert i. induction nn as [|a nn IH]; intros i Hi; cbn [length] in Hi; [lia|]. destruct i as [|i]; [cbn; lia|]. specialize (IH i ltac:(lia)). rewrite !firstn_cons. cbn [nth]. unfold list_sum in *. cbn [fold_right]. lia. Qed.
Lemma firstn_sum_le (nn : list nat) i : list_sum (firstn i nn) <= list_sum nn.
Proof. rewrite <- (firstn_skipn i nn) at 2. rewrite list_sum_app. lia. Qed.
Lemma edges_gen n nn (body : nat -> nat -> option nat) : length nn = n ->
  (forall i ij, i < n -> ij + nth i nn 0 <= list_sum nn -> body i ij = Some (ij + nth i nn 0)) -> for_ n body 0 = Some (list_sum nn).
Proof.
  intros L H. apply (for_trace (fun k => list_sum (firstn k nn))); [reflexivity|rewrite firstn_all2 by lia; reflexivity|]. intros k Hk.
  rewrite firstn_sum by lia. apply H; [exact Hk|]. rewrite <- firstn_sum by lia. apply firstn_sum_le.
Qed.
Lemma edges_ok n nn body E : length nn = n -> list_sum nn = E -> (Z.of_nat E < LIM)%Z -> (forall i ij, i < n -> ij < E -> body i ij = Some tt) -> edges n nn body = Some tt.
Proof.
  intros L LE HE Hb. unfold edges. rewrite (edges_gen n nn); [reflexivity|exact L|]. intros i ij Hi Hij. unfold rd. rewrite (nth_error_nth' nn 0) by lia. cbn [bind].
  apply (run_ok _ _ _ E); [lia|exact HE|]. intros q Hq. apply Hb; lia.
Qed.

Lemma up (a b : Z) : (0 <= a -> 1 <= b -> a <= a * b)%Z.
Proof. nia. Qed.
Lemma upl (a b : Z) : (0 <= a -> 1 <= b -> a <= b * a)%Z.
Proof. nia. Qed.
Ltac lin := solve [repeat match goal with H : context [Z.mul ?a ?b] |- _ => clear H | H : context [Nat.mul ?a ?b] |- _ => clear H | H : forall _, _ |- _ => clear H end; lia].
Ltac pos := solve [repeat first [assumption | apply Zle_0_nat | apply Z.mul_nonneg_nonneg | apply Z.add_nonneg_nonneg | discriminate | lin]].
Ltac mono := match goal with
  | |- (?a <= ?a)%Z => apply Z.le_refl
  | |- (?a * ?b <= ?A * ?b)%Z => apply Z.mul_le_mono_nonneg_r; [pos|mono]
  | |- (_ <= ?Y * ?k)%Z => apply Z.le_trans with Y; [mono|apply up; [pos|lin]]
  | |- _ => assumption
  | |- _ => lin end.
Ltac bnd := first [assumption | lin | match goal with H : (_ < LIM)%Z |- _ => apply Z.le_lt_trans with (2 := H); solve [mono] end | lia].
Ltac exs := repeat first [apply ev_mul | apply ev_add | apply ev_I].
Ltac ck := repeat (eapply vals_cons; [exs; try solve [bnd]|]); try apply vals_nil.

Lemma isub_ok (mm l : nat) : (Z.of_nat l * Z.of_nat l + Z.of_nat l < LIM)%Z -> (Z.of_nat l * Z.of_nat l + Z.of_nat mm < LIM)%Z ->
  exists v, iadd (iadd (imul (I l) (I l)) (I l)) (isub (I mm) (I l)) = Some v.
Proof.
  intros H H'. assert (Q : (0 <= Z.of_nat l * Z.of_nat l)%Z) by nia.
  destruct (ev_add (imul (I l) (I l)) (I l) (Z.of_nat l * Z.of_nat l) (Z.of_nat l)) as [E _]; [apply ev_mul; [apply ev_I; lia|apply ev_I; lia|lia]|apply ev_I; lia|lia|].
  rewrite E. destruct (ev_I l ltac:(lia)) as [E1 _]. destruct (ev_I mm ltac:(lia)) as [E2 _]. unfold isub. rewrite E1, E2. unfold iadd. cbn [bind].
  assert (X : forall z, (- LIM <= z < LIM)%Z -> int32 z = Some z). { intros z Hz. unfold int32. rewrite (proj2 (Z.leb_le _ _)), (proj2 (Z.ltb_lt _ _)) by lia. reflexivity. }
  rewrite X by lia. cbn [bind]. rewrite X by lia. eexists. reflexivity.
Qed.
Lemma count_le l (ls : list nat) : (2 * l + 1) * count_occ Nat.eq_dec ls l <= list_sum (map (fun l => 2 * l + 1) ls).
Proof. induction ls as [|a ls IH]; [cbn; lia|]. cbn [count_occ map]. change (list_sum ((2 * a + 1) :: map (fun l => 2 * l + 1) ls)) with ((2 * a + 1) + list_sum (map (fun l => 2 * l + 1) ls)). destruct (Nat.eq_dec a l) as [->|]; lia. Qed.

Section Fns.
Context {N : Num}.
Variable m : mace_model N.
Variable x : input N.
Notation n := (i_num_nodes x).
Notation nn := (i_num_neigh x).
Notation E := (list_sum nn).
Notation KK := (m_num_channels m).
Notation T := (length (m_atomic_numbers m)).
Notation P := (length (m_Phi1_l m)).
Definition widths := map (fun q => (2 * nth q (m_Phi1_l1 m) 0 + 1) * (2 * nth q (m_Phi1_l2 m) 0 + 1)) (seq 0 P).
Local Open Scope Z_scope.
Hypothesis hn : (1 <= n)%nat.
Hypothesis hK : (1 <= KK)%nat.
Hypothesis L1 : (length (i_node_types x) = n)%nat.
Hypothesis L2 : (length nn = n)%nat.
Hypothesis L3 : (length (i_neigh_indices x) = E)%nat.
Hypothesis L4 : (length (i_neigh_types x) = E)%nat.
Hypothesis L5 : (length (i_xyz x) = 3 * E)%nat.
Hypothesis R1 : forall t, In t (i_node_types x) -> (t < T)%nat.
Hypothesis R2 : forall t, In t (i_neigh_types x) -> (t < T)%nat.
Hypothesis R3 : forall t, In t (i_neigh_indices x) -> (t < n)%nat.
Hypothesis R4 : forall p, (p < length (m_Phi1_clebsch_gordan m))%nat -> (nth p (m_Phi1_lme m) 0 < m_num_lme m)%nat.
Hypothesis R5 : forall p, (p < length (m_Phi1_clebsch_gordan m))%nat -> (nth p (m_Phi1_lelm1lm2 m) 0 < m_num_lelm1lm2 m)%nat.
Hypothesis L6 : (length (m_Phi1_clebsch_gordan m) <= length (m_Phi1_lme m))%nat.
Hypothesis L7 : (length (m_Phi1_clebsch_gordan m) <= length (m_Phi1_lelm1lm2 m))%nat.
Hypothesis L8 : (P <= length (m_Phi1_l1 m))%nat.
Hypothesis L9 : (P <= length (m_Phi1_l2 m))%nat.
Hypothesis R6 : forall q, (q < P)%nat -> (nth q (m_Phi1_l1 m) 0 <= m_l_max m)%nat.
Hypothesis R7 : forall q, (q < P)%nat -> (nth q (m_Phi1_l2 m) 0 <= m_L_max m)%nat.
Hypothesis R8 : forall l, In l (m_Phi1_l m) -> (l <= m_l_max m)%nat.
Hypothesis W1 : m_num_lme m = list_sum (map (fun l => 2 * l + 1) (m_Phi1_l m))%nat.
Hypothesis W2 : m_num_lelm1lm2 m = list_sum widths.
Notation zn := (Z.of_nat n). Notation zE := (Z.of_nat E). Notation zK := (Z.of_nat KK). Notation zT := (Z.of_nat T). Notation zP := (Z.of_nat P).
Notation lm := (Z.of_nat (num_lm m)). Notation LM := (Z.of_nat (num_LM m)).
Notation l_ := (Z.of_nat (m_l_max m)). Notation L_ := (Z.of_nat (m_L_max m)).
Hypothesis B1 : zE * lm * 3 < LIM.
Hypothesis B2 : zE * (l_ + 1) * zK < LIM.
Hypothesis B3 : zE * zP * zK < LIM.
Hypothesis B4 : zn * lm * zK < LIM.
Hypothesis B5 : zn * LM * zK < LIM.
Hypothesis B6 : zn * LM * lm * zK < LIM.
Hypothesis B7 : zn * Z.of_nat (m_num_lelm1lm2 m) * zK < LIM.
Hypothesis B8 : zn * Z.of_nat (m_num_lme m) * zK < LIM.
Hypothesis B9 : zT * zK < LIM.
Hypothesis B10 : zT * LM * zK < LIM.
Hypothesis B11 : (L_ + 1) * zK * zK < LIM.
Hypothesis B12 : zT * (zT + 1) / 2 < LIM.

Lemma hlm : lm = (l_ + 1) * (l_ + 1).
Proof. unfold num_lm. lia. Qed.
Lemma hLM : LM = (L_ + 1) * (L_ + 1).
Proof. unfold num_LM. lia. Qed.
Lemma plm : 1 <= lm.
Proof. rewrite hlm. nia. Qed.
Lemma pLM : 1 <= LM.
Proof. rewrite hLM. nia. Qed.
Lemma cn : zn < LIM. Proof. pose proof plm. pose proof hn. pose proof hK. bnd. Qed.
Lemma clm : lm < LIM. Proof. pose proof plm. apply Z.le_lt_trans with (2 := B4). replace (zn * lm * zK) with (lm * (zn * zK)) by ring. apply up; nia. Qed.
Lemma cLM : LM < LIM. Proof. pose proof pLM. apply Z.le_lt_trans with (2 := B5). replace (zn * LM * zK) with (LM * (zn * zK)) by ring. apply up; nia. Qed.
Lemma cK : zK < LIM. Proof. pose proof plm. apply Z.le_lt_trans with (2 := B4). replace (zn * lm * zK) with (zK * (zn * lm)) by ring. apply up; nia. Qed.
Lemma clmK : lm * zK < LIM. Proof. pose proof plm. apply Z.le_lt_trans with (2 := B4). replace (zn * lm * zK) with (lm * zK * zn) by ring. apply up; nia. Qed.
Lemma cLMK : LM * zK < LIM. Proof. pose proof pLM. apply Z.le_lt_trans with (2 := B5). replace (zn * LM * zK) with (LM * zK * zn) by ring. apply up; nia. Qed.
Lemma cnK : zn * zK < LIM. Proof. pose proof plm. apply Z.le_lt_trans with (2 := B4). replace (zn * lm * zK) with (zn * zK * lm) by ring. apply up; nia. Qed.
Lemma clmeK : Z.of_nat (m_num_lme m) * zK < LIM. Proof. apply Z.le_lt_trans with (2 := B8). replace (zn * Z.of_nat (m_num_lme m) * zK) with (Z.of_nat (m_num_lme m) * zK * zn) by ring. apply up; nia. Qed.
Lemma clelK : Z.of_nat (m_num_lelm1lm2 m) * zK < LIM. Proof. apply Z.le_lt_trans with (2 := B7). replace (zn * Z.of_nat (m_num_lelm1lm2 m) * zK) with (Z.of_nat (m_num_lelm1lm2 m) * zK * zn) by ring. apply up; nia. Qed.
Lemma cT : zT < LIM. Proof. apply Z.le_lt_trans with (2 := B9). apply up; lia. Qed.
Lemma cE3 : 3 * zE < LIM. Proof. pose proof plm. apply Z.le_lt_trans with (2 := B1). replace (zE * lm * 3) with (3 * zE * lm) by ring. apply up; nia. Qed.
Lemma cl : l_ + 1 <= lm. Proof. rewrite hlm. nia. Qed.
Lemma cL : L_ + 1 <= LM. Proof. rewrite hLM. nia. Qed.
Lemma lsq l : (l < m_l_max m + 1)%nat -> Z.of_nat l * Z.of_nat l + 2 * Z.of_nat l + 1 <= lm.
Proof. intros H. rewrite hlm. nia. Qed.
Lemma Lsq l : (l < m_L_max m + 1)%nat -> Z.of_nat l * Z.of_nat l + 2 * Z.of_nat l + 1 <= LM.
Proof. intros H. rewrite hLM. nia. Qed.
Ltac facts := pose proof plm; pose proof pLM; pose proof cn; pose proof clm; pose proof cLM; pose proof cK; pose proof clmK; pose proof cLMK; pose proof cnK; pose proof clmeK; pose proof clelK; pose proof cE3; pose proof cT; pose proof cl; pose proof cL; pose proof hn; pose proof hK.

Lemma flat (i a w : Z) : 0 <= i < a -> 0 <= w -> forall c, 0 <= c <= w -> i * w + c <= a * w.
Proof. intros. nia. Qed.

Lemma ZBL_ok : i_ZBL x = Some tt.
Proof. facts. unfold i_ZBL. apply (edges_ok _ _ _ E); [exact L2|reflexivity|lia|]. intros i ij Hi Hij. ck. Qed.
Lemma Y_ok : i_Y m x = Some tt.
Proof.
  facts. unfold i_Y. destruct (length (i_xyz x) =? 0)%nat; [reflexivity|]. rewrite L5. replace (3 * E / 3)%nat with E by (rewrite Nat.mul_comm, Nat.div_mul by lia; reflexivity).
  pose proof B1 as B1'. replace (zE * lm * 3) with (3 * zE * lm) in B1' by ring.
  apply bind_tt; [ck|]. apply bind_tt; [apply loop_ok; intros i Hi; ck|]. apply loop_ok. intros i Hi. apply loop_ok. intros l Hl.
  assert (Q : 3 * Z.of_nat i * lm + 2 * lm + Z.of_nat l < LIM). { apply Z.le_lt_trans with (2 := B1'). replace (3 * Z.of_nat i * lm + 2 * lm + Z.of_nat l) with ((3 * Z.of_nat i + 2) * lm + Z.of_nat l) by ring. apply flat; lia. }
  assert (0 <= 3 * Z.of_nat i * lm) by pos. ck.
Qed.
Lemma type_ok ti tj : (ti < T)%nat -> (tj < T)%nat -> ev (i_type_ij T ti tj) (Z.of_nat (if ti <=? tj then ti * (2 * T - ti - 1) / 2 + tj else tj * (2 * T - tj - 1) / 2 + ti)%nat).
Proof.
  intros Ha Hb. unfold i_type_ij. apply ev_I. apply Z.lt_trans with (2 := B12). replace (zT * (zT + 1) / 2) with (Z.of_nat (T * (T + 1) / 2)) by (rewrite Nat2Z.inj_div, Nat2Z.inj_mul, Nat2Z.inj_add; reflexivity).
  apply inj_lt. destruct (ti <=? tj)%nat eqn:Q; [apply Nat.leb_le in Q; apply pair_index_lt; lia|apply Nat.leb_gt in Q; apply pair_index_lt; lia].
Qed.
Lemma R_ok sets s0 : rd sets 0 = Some s0 -> zE * Z.of_nat (css_num s0) < LIM -> i_R m x sets = Some tt.
Proof.
  intros H0 Hb. facts. unfold i_R. rewrite H0. cbn [bind]. apply (edges_ok _ _ _ E); [exact L2|reflexivity|lia|]. intros i ij Hi Hij.
  apply rd_bind; [lia|]. intros ti Hti. apply rd_bind; [lia|]. intros tj Htj. eapply vals_cons; [apply type_ok; auto|].
  assert (Z.of_nat (css_num s0) < LIM). { apply Z.le_lt_trans with (2 := Hb). apply upl; lia. } ck.
Qed.
Lemma scaled_ok b : i_scaled m x b = Some tt.
Proof.
  facts. unfold i_scaled. destruct b; [|reflexivity]. apply bind_tt.
  - apply (edges_ok _ _ _ E); [exact L2|reflexivity|lia|]. intros i ij Hi Hij. apply rd_bind; [lia|]. intros ti Hti. apply rd_bind; [lia|]. intros tj Htj. eapply vals_cons; [apply type_ok; auto|apply vals_nil].
  - apply loop_ok. intros i Hi. ck.
Qed.
Lemma reverse_scaled_ok b : i_reverse_scaled m x b = Some tt.
Proof.
  facts. unfold i_reverse_scaled. destruct b; [|reflexivity]. rewrite (edges_gen n nn); [reflexivity|exact L2|]. intros i ij Hi Hij.
  apply rd_bind; [lia|]. intros ti Hti. apply bind_tt; [ck|]. unfold rd at 1. rewrite (nth_error_nth' nn 0%nat) by lia. cbn [bind].
  rewrite (run_ok _ _ _ E); [|lia|lia|]. 2: { intros q Hq. apply rd_bind; [lia|]. intros tj Htj. eapply vals_cons; [apply type_ok; auto|apply vals_nil]. }
  cbn [bind]. unfold isub. destruct (ev_I (ij + nth i nn 0)%nat ltac:(lia)) as [-> _]. destruct (ev_I (nth i nn 0)%nat ltac:(lia)) as [-> _]. cbn [bind]. rewrite int32_ok by lia. cbn [bind].
  replace (ij + nth i nn 0 - nth i nn 0)%nat with ij by lia. apply (run_ok _ _ _ E); [lia|lia|]. intros q Hq. apply rd_bind; [lia|]. intros tj Htj. eapply vals_cons; [apply type_ok; auto|]. ck.
Qed.
Lemma dense_ok i l : (i < n)%nat -> (l < m_l_max m + 1)%nat ->
  vals [imul (imul (I l) (I l)) (I KK); imul (iadd (imul (I i) (I (num_lm m))) (imul (I l) (I l))) (I KK); iadd (imul (I 2) (I l)) (I 1)] = Some tt.
Proof.
  intros Hi Hl. facts. pose proof (lsq l Hl). assert (0 <= Z.of_nat l * Z.of_nat l) by pos. assert (Z.of_nat l * Z.of_nat l <= lm) by lia. assert (0 <= Z.of_nat i * lm) by pos.
  assert (Q : Z.of_nat i * lm + Z.of_nat l * Z.of_nat l <= zn * lm) by (apply flat; lia). assert (zn * lm < LIM) by bnd. ck.
Qed.
Lemma edge_l_ok ij l : (ij < E)%nat -> (l < m_l_max m + 1)%nat -> exists v, ev (iadd (imul (imul (I ij) (iadd (I (m_l_max m)) (I 1))) (I KK)) (imul (I l) (I KK))) v.
Proof.
  intros Hij Hl. facts. eexists.
  assert (Q : Z.of_nat ij * (l_ + 1) * zK + Z.of_nat l * zK < LIM).
  { apply Z.le_lt_trans with (2 := B2). replace (Z.of_nat ij * (l_ + 1) * zK + Z.of_nat l * zK) with ((Z.of_nat ij * (l_ + 1) + Z.of_nat l) * zK) by ring. apply Z.mul_le_mono_nonneg_r; [lia|]. apply flat; lia. }
  assert (0 <= Z.of_nat l * zK) by pos. assert (0 <= Z.of_nat ij * (l_ + 1) * zK) by (pos).
  assert (Z.of_nat ij * (l_ + 1) < LIM) by bnd.
  exs; bnd.
Qed.
Lemma A0_ok : i_A0 m x = Some tt.
Proof.
  facts. unfold i_A0. apply bind_tt; [ck|]. apply bind_tt; [apply loop_ok; intros i Hi; apply bind_tt; [ck|]; apply loop_ok; intros l Hl; apply dense_ok; assumption|].
  apply (edges_ok _ _ _ E); [exact L2|reflexivity|lia|]. intros i ij Hi Hij. apply rd_bind; [lia|]. intros tj Htj. apply R2 in Htj. apply bind_tt; [ck|].
  apply loop_ok. intros l Hl. destruct (edge_l_ok ij l Hij Hl) as [v Hv]. apply bind_tt; [eapply vals_cons; [exact Hv|apply vals_nil]|]. apply loop_ok. intros mm Hmm.
  pose proof (lsq l Hl). assert (0 <= Z.of_nat l * Z.of_nat l) by pos. assert (Z.of_nat l * Z.of_nat l <= lm) by lia. destruct (isub_ok mm l) as [w Hw]; [lia|lia|]. cbn [vals]. rewrite Hw. cbn [bind].
  change (vals [imul (I (l * l + mm)) (I KK)] = Some tt). assert (Z.of_nat (l * l + mm) <= lm) by lia. ck.
Qed.
Lemma reverse_A0_ok : i_reverse_A0 m x = Some tt.
Proof.
  facts. unfold i_reverse_A0. apply bind_tt; [apply loop_ok; intros i Hi; apply bind_tt; [ck|]; apply loop_ok; intros l Hl; apply dense_ok; assumption|].
  pose proof B1 as B1'. replace (zE * lm * 3) with (zE * 3 * lm) in B1' by ring.
  apply (edges_ok _ _ _ E); [exact L2|reflexivity|lia|]. intros i ij Hi Hij. apply rd_bind; [lia|]. intros tj Htj. apply R2 in Htj. apply bind_tt; [ck|].
  assert (3 * lm < LIM). { apply Z.le_lt_trans with (2 := B1'). apply Z.mul_le_mono_nonneg_r; lia. }
  apply loop_ok. intros l Hl. destruct (edge_l_ok ij l Hij Hl) as [v Hv]. apply bind_tt; [eapply vals_cons; [exact Hv|apply vals_nil]|]. apply loop_ok. intros mm Hmm.
  pose proof (lsq l Hl). assert (0 <= Z.of_nat l * Z.of_nat l) by pos. assert (Z.of_nat l * Z.of_nat l <= lm) by lia. destruct (isub_ok mm l) as [w Hw]; [lia|lia|]. cbn [vals]. rewrite Hw. cbn [bind].
  change (vals [iadd (I (num_lm m)) (I (l * l + mm)); iadd (imul (I 2) (I (num_lm m))) (I (l * l + mm)); imul (I (l * l + mm)) (I KK)] = Some tt). assert (Z.of_nat (l * l + mm) + 1 <= lm) by lia. generalize dependent (l * l + mm)%nat. intros v0 Hv0. assert (Z.of_nat v0 < lm) by lia. ck.
Qed.
Lemma M0_ok : i_M0 m x = Some tt.
Proof.
  facts. unfold i_M0. pose proof B6 as B6'. replace (zn * LM * lm * zK) with (zn * zK * LM * lm) in B6' by ring.
  pose proof B6 as B6''. replace (zn * LM * lm * zK) with (zn * LM * zK * lm) in B6'' by ring.
  assert (zn * zK * LM < LIM) by (replace (zn * zK * LM) with (zn * LM * zK) by ring; exact B5).
  apply bind_tt; [ck|]. apply loop_ok. intros i Hi. apply rd_bind; [lia|]. intros ti Hti. apply R1 in Hti. apply bind_tt; [ck|].
  apply loop_ok. intros a Ha. apply loop_ok. intros k Hk.
  assert (Q : Z.of_nat (a * KK + k) + 1 <= LM * zK) by (pose proof (flat (Z.of_nat a) LM zK ltac:(lia) ltac:(lia) (Z.of_nat k + 1) ltac:(lia)); lia).
  assert (Q2 : Z.of_nat ti * LM * zK + Z.of_nat (a * KK + k) < LIM).
  { apply Z.le_lt_trans with (2 := B10). replace (Z.of_nat ti * LM * zK) with (Z.of_nat ti * (LM * zK)) by ring. replace (zT * LM * zK) with (zT * (LM * zK)) by ring. apply flat; lia. }
  assert (0 <= Z.of_nat ti * LM * zK) by pos. assert (Z.of_nat ti * LM < LIM) by bnd.
  assert (Q3 : Z.of_nat a * lm * zK < LIM). { apply Z.le_lt_trans with (2 := B6). replace (zn * LM * lm * zK) with (LM * lm * zK * zn) by ring. mono. }
  assert (Q4 : Z.of_nat a * lm < LIM). { apply Z.le_lt_trans with (2 := Q3). mono. }
  cbv zeta. ck.
Qed.
Lemma H1_ok : i_H1 m x = Some tt.
Proof.
  facts. unfold i_H1. apply loop_ok. intros i Hi. apply loop_ok. intros l Hl. pose proof (Lsq l Hl). assert (0 <= Z.of_nat l * Z.of_nat l) by pos. assert (Z.of_nat l * Z.of_nat l <= LM) by lia. assert (0 <= Z.of_nat i * LM) by pos.
  assert (Q : Z.of_nat i * LM + Z.of_nat l * Z.of_nat l <= zn * LM) by (apply flat; lia). assert (zn * LM < LIM) by bnd. ck.
Qed.
Lemma paths_ok body : (forall a c s, (a < num_lm m)%nat -> (c < num_LM m)%nat -> (s < m_num_lelm1lm2 m)%nat -> body a c s = Some tt) -> zP * zK < LIM -> i_paths m body = Some tt.
Proof.
  intros Hb HP. facts. unfold i_paths. rewrite (edges_gen P widths); [reflexivity|unfold widths; rewrite map_length, seq_length; reflexivity|].
  intros q s Hq Hs. assert (NW : nth q widths 0%nat = ((2 * nth q (m_Phi1_l1 m) 0 + 1) * (2 * nth q (m_Phi1_l2 m) 0 + 1))%nat).
  { pose (g := fun q => ((2 * nth q (m_Phi1_l1 m) 0 + 1) * (2 * nth q (m_Phi1_l2 m) 0 + 1))%nat). change (nth q (map g (seq 0 P)) 0%nat = g q). rewrite (nth_indep _ 0%nat (g 0%nat)) by (rewrite map_length, seq_length; exact Hq). rewrite map_nth, seq_nth by exact Hq. reflexivity. }
  rewrite NW in *. rewrite <- W2 in Hs. unfold rd. rewrite (nth_error_nth' (m_Phi1_l1 m) 0%nat) by lia. cbn [bind]. rewrite (nth_error_nth' (m_Phi1_l2 m) 0%nat) by lia. cbn [bind].
  pose proof (R6 q Hq) as A1. pose proof (R7 q Hq) as A2. set (l1 := nth q (m_Phi1_l1 m) 0%nat) in *. set (l2 := nth q (m_Phi1_l2 m) 0%nat) in *.
  pose proof (lsq l1 ltac:(lia)) as Q1. pose proof (Lsq l2 ltac:(lia)) as Q2. assert (0 <= Z.of_nat l1 * Z.of_nat l1) by pos. assert (0 <= Z.of_nat l2 * Z.of_nat l2) by pos.
  apply bind_tt; [ck|].
  set (w := (2 * l2 + 1)%nat) in *. apply (for_trace (fun a => (s + a * w)%nat)); [lia|reflexivity|]. intros a Ha.
  apply (for_trace (fun c => (s + a * w + c)%nat)); [lia|lia|]. intros c Hc.
  assert (S1 : (s + a * w + c < s + (2 * l1 + 1) * w)%nat) by (pose proof (Nat.mul_le_mono_r (S a) (2 * l1 + 1) w ltac:(lia)); lia).
  rewrite Hb; [|lia|subst w; lia|lia]. cbn [bind]. assert (Z.of_nat (m_num_lelm1lm2 m) < LIM). { apply Z.le_lt_trans with (2 := clelK). apply up; lia. }
  apply bind_tt; [ck|]. f_equal. lia.
Qed.
Lemma cPK ij : (ij < E)%nat -> zP * zK < LIM.
Proof. intros H. apply Z.le_lt_trans with (2 := B3). replace (zE * zP * zK) with (zP * zK * zE) by ring. apply up; [pos|lia]. Qed.
Lemma cg_ok p : (p < length (m_Phi1_clebsch_gordan m))%nat -> (rd (m_Phi1_lme m) p = Some (nth p (m_Phi1_lme m) 0%nat) /\ rd (m_Phi1_lelm1lm2 m) p = Some (nth p (m_Phi1_lelm1lm2 m) 0%nat)).
Proof. intros H. split; unfold rd; apply nth_error_nth'; lia. Qed.
Lemma Phi1_ok s0 : rd (m_spl_set_1 m) 0 = Some s0 -> zE * Z.of_nat (css_num s0) < LIM -> i_Phi1 m x = Some tt.
Proof.
  intros H0 Hb. facts. unfold i_Phi1. rewrite H0. cbn [bind].
  assert (zn * Z.of_nat (m_num_lelm1lm2 m) < LIM) by bnd. assert (zn * Z.of_nat (m_num_lme m) < LIM) by bnd.
  assert (Z.of_nat (m_num_lelm1lm2 m) < LIM) by bnd. assert (Z.of_nat (m_num_lme m) < LIM) by bnd.
  apply bind_tt; [ck|]. apply bind_tt; [apply loop_ok; intros i Hi; ck|]. apply bind_tt.
  - apply (edges_ok _ _ _ E); [exact L2|reflexivity|lia|]. intros i ij Hi Hij. apply rd_bind; [lia|]. intros j Hj. apply R3 in Hj. pose proof (cPK ij Hij).
    assert (Z.of_nat (css_num s0) < LIM). { apply Z.le_lt_trans with (2 := Hb). apply upl; lia. }
    assert (zE * lm < LIM) by bnd. apply bind_tt; [ck|]. apply paths_ok; [|assumption]. intros a c s Ha Hc Hs. ck.
  - apply bind_tt; [ck|]. apply loop_ok. intros i Hi. apply bind_tt; [ck|]. apply loop_ok. intros p Hp. destruct (cg_ok p Hp) as [-> ->]. cbn [bind]. pose proof (R4 p Hp). pose proof (R5 p Hp). ck.
Qed.
Lemma reverse_Phi1_ok s0 : rd (m_spl_set_1 m) 0 = Some s0 -> zE * Z.of_nat (css_num s0) < LIM -> i_reverse_Phi1 m x = Some tt.
Proof.
  intros H0 Hb. facts. unfold i_reverse_Phi1. rewrite H0. cbn [bind].
  assert (zn * Z.of_nat (m_num_lelm1lm2 m) < LIM) by bnd. assert (zn * Z.of_nat (m_num_lme m) < LIM) by bnd.
  assert (Z.of_nat (m_num_lelm1lm2 m) < LIM) by bnd. assert (Z.of_nat (m_num_lme m) < LIM) by bnd.
  pose proof B1 as B1'. replace (zE * lm * 3) with (zE * 3 * lm) in B1' by ring.
  apply bind_tt; [|apply bind_tt].
  - apply loop_ok. intros i Hi. apply bind_tt; [ck|]. apply loop_ok. intros p Hp. destruct (cg_ok p Hp) as [-> ->]. cbn [bind]. pose proof (R4 p Hp). pose proof (R5 p Hp). ck.
  - apply (edges_ok _ _ _ E); [exact L2|reflexivity|lia|]. intros i ij Hi Hij. apply rd_bind; [lia|]. intros j Hj. apply R3 in Hj. pose proof (cPK ij Hij).
    assert (Z.of_nat (css_num s0) < LIM). { apply Z.le_lt_trans with (2 := Hb). apply upl; lia. }
    assert (zE * lm < LIM) by bnd. assert (3 * lm < LIM). { apply Z.le_lt_trans with (2 := B1'). apply Z.mul_le_mono_nonneg_r; lia. }
    apply bind_tt; [ck|]. apply paths_ok; [|assumption]. intros a c s Ha Hc Hs. ck.
  - apply (edges_ok _ _ _ E); [exact L2|reflexivity|lia|]. intros i ij Hi Hij. apply rd_bind; [lia|]. intros j Hj. apply R3 in Hj. pose proof (cPK ij Hij).
    assert (Z.of_nat (css_num s0) < LIM). { apply Z.le_lt_trans with (2 := Hb). apply upl; lia. }
    assert (zE * lm < LIM) by bnd. apply bind_tt; [ck|]. apply paths_ok; [|assumption]. intros a c s Ha Hc Hs. ck.
Qed.
Lemma A1_ok b : i_A1 m x b = Some tt.
Proof.
  facts. unfold i_A1. assert (zn * Z.of_nat (m_num_lme m) < LIM) by bnd. assert (Z.of_nat (m_num_lme m) < LIM) by bnd.
  apply bind_tt; [destruct b; [ck|reflexivity]|]. apply bind_tt; [apply loop_ok; intros q Hq; apply rd_bind; [exact Hq|]; intros l Hl; apply R8 in Hl; pose proof (lsq l ltac:(lia)); assert (0 <= Z.of_nat l * Z.of_nat l) by pos; ck|].
  apply bind_tt; [ck|]. apply loop_ok. intros i Hi. apply bind_tt; [ck|]. apply loop_ok. intros l Hl. pose proof (lsq l Hl). assert (0 <= Z.of_nat l * Z.of_nat l) by pos. assert (Z.of_nat l * Z.of_nat l <= lm) by lia.
  pose proof (count_le l (m_Phi1_l m)) as C. rewrite <- W1 in C. set (e := count_occ Nat.eq_dec (m_Phi1_l m) l) in *. cbv zeta.
  assert (C' : (2 * Z.of_nat l + 1) * Z.of_nat e <= Z.of_nat (m_num_lme m)) by lia. assert (Ce : Z.of_nat e <= Z.of_nat (m_num_lme m)) by (apply Z.le_trans with (2 := C'); apply upl; lia).
  assert (C2 : (Z.of_nat 2 * Z.of_nat l + Z.of_nat 1) * Z.of_nat e <= Z.of_nat (m_num_lme m)) by exact C'. assert (C3 : Z.of_nat 2 * Z.of_nat l + Z.of_nat 1 <= lm) by lia. assert (C4 : (Z.of_nat 2 * Z.of_nat l + Z.of_nat 1) * Z.of_nat e < LIM) by (apply Z.le_lt_trans with (1 := C2); assumption). ck.
Qed.
Lemma M1_first : zn * zK * lm * zK < LIM -> i_M1 m x = Some tt.
Proof.
  intros Hb. facts. unfold i_M1. assert (Hc : zn * zK * lm < LIM) by bnd. apply bind_tt; [ck|]. apply loop_ok. intros i Hi. apply rd_bind; [lia|]. intros ti Hti. apply R1 in Hti.
  apply bind_tt; [ck|]. apply loop_ok. intros k Hk. assert (Z.of_nat ti * zK + Z.of_nat k < LIM). { apply Z.le_lt_trans with (2 := B9). apply flat; lia. }
  assert (0 <= Z.of_nat ti * zK) by pos. ck.
Qed.
Lemma M1_none : LIM <= zn * zK * lm * zK -> i_M1 m x = None.
Proof.
  intros Hb. facts. unfold i_M1. assert (Hc : zn * zK * lm < LIM) by (replace (zn * zK * lm) with (zn * lm * zK) by ring; exact B4).
  assert (Q : imul (imul (imul (I n) (I KK)) (I (num_lm m))) (I KK) = None).
  { destruct (ev_mul (imul (I n) (I KK)) (I (num_lm m)) (zn * zK) lm) as [E1 _]; [apply ev_mul; [apply ev_I; lia|apply ev_I; lia|lia]|apply ev_I; lia|exact Hc|].
    rewrite E1. destruct (ev_I KK ltac:(lia)) as [E2 _]. rewrite E2. unfold imul. cbn [bind]. apply int32_no. exact Hb. }
  cbn [vals]. rewrite Q. destruct (imul (I n) (I KK)); reflexivity.
Qed.
Lemma H2_ok b : i_H2 m x b = Some tt.
Proof. facts. unfold i_H2. apply bind_tt; [destruct b; [ck|reflexivity]|]. apply loop_ok. intros i Hi. ck. Qed.
Lemma readouts_ok : i_readouts m x = Some tt.
Proof.
  facts. unfold i_readouts. apply loop_ok. intros i Hi. apply bind_tt; [ck|]. apply loop_ok. intros k Hk.
  assert (Q1 : Z.of_nat i * LM * zK + Z.of_nat k < LIM). { apply Z.le_lt_trans with (2 := B5). apply (flat (Z.of_nat i * LM) (zn * LM) zK); [split; [pos|apply Z.mul_lt_mono_pos_r; lia]|lia|lia]. }
  assert (Q2 : Z.of_nat i * zK + Z.of_nat k < LIM). { apply Z.le_lt_trans with (2 := cnK). apply flat; lia. }
  assert (0 <= Z.of_nat i * zK) by pos. assert (0 <= Z.of_nat i * LM * zK) by pos. ck.
Qed.
Lemma reverse_M1_ok : i_reverse_M1 m x = Some tt.
Proof.
  facts. unfold i_reverse_M1. apply loop_ok. intros i Hi. apply bind_tt; [ck|]. apply loop_ok. intros a Ha.
  assert (Q : Z.of_nat i * lm + Z.of_nat a <= zn * lm) by (apply flat; lia). assert (zn * lm < LIM) by bnd. assert (0 <= Z.of_nat i * lm) by pos. ck.
Qed.
Lemma reverse_M0_ok : i_reverse_M0 m x = Some tt.
Proof.
  facts. unfold i_reverse_M0. assert (zn * LM * lm < LIM) by bnd. apply loop_ok. intros i Hi. apply bind_tt; [ck|]. apply loop_ok. intros a Ha. apply bind_tt; [ck|]. apply loop_ok. intros c Hc.
  assert (Q3 : Z.of_nat c * lm * zK < LIM). { apply Z.le_lt_trans with (2 := B6). replace (zn * LM * lm * zK) with (LM * lm * zK * zn) by ring. mono. }
  assert (Q4 : Z.of_nat c * lm < LIM). { apply Z.le_lt_trans with (2 := Q3). mono. } ck.
Qed.

Lemma compute_iff s0 s1 : rd (m_spl_set_0 m) 0 = Some s0 -> rd (m_spl_set_1 m) 0 = Some s1 -> css_num s0 = ((m_l_max m + 1) * KK)%nat -> css_num s1 = (P * KK)%nat ->
  (i_compute m x = Some tt <-> zn * zK * lm * zK < LIM).
Proof.
  intros E0 E1 C0 C1. assert (Q0 : zE * Z.of_nat (css_num s0) < LIM) by (rewrite C0; replace (zE * Z.of_nat ((m_l_max m + 1) * KK)) with (zE * (l_ + 1) * zK) by lia; exact B2).
  assert (Q1 : zE * Z.of_nat (css_num s1) < LIM) by (rewrite C1; replace (zE * Z.of_nat (P * KK)) with (zE * zP * zK) by lia; exact B3).
  unfold i_compute. assert (Zb : (if m_has_zbl m then i_ZBL x else Some tt) = Some tt) by (destruct (m_has_zbl m); [apply ZBL_ok|reflexivity]).
  rewrite Zb, Y_ok, (R_ok _ s0 E0 Q0), A0_ok, !scaled_ok, M0_ok, H1_ok, (R_ok _ s1 E1 Q1), (Phi1_ok s1 E1 Q1), !A1_ok. cbn [bind]. split; intros H.
  - destruct (Z_lt_le_dec (zn * zK * lm * zK) LIM) as [|G]; [assumption|]. rewrite (M1_none G) in H. discriminate.
  - rewrite (M1_first H), !H2_ok, readouts_ok, reverse_M1_ok, !reverse_scaled_ok, (reverse_Phi1_ok s1 E1 Q1), reverse_M0_ok. cbn [bind]. apply reverse_A0_ok.
Qed.
End Fns.
