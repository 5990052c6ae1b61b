(** The theorems of PropertiesExportPoly.v, and lemmas for its examples.  Used in proofs only. *)
From Coq Require Import List Arith ZArith Lia Bool Reals Lra Permutation.
From Verif Require Import Base BaseLemmas Instances RSums RList MpModel MpSpec MpThms ExportPolyModel ExportPolySpec ExportPoly.
Import ListNotations.
Local Open Scope R_scope.

Lemma W_list_ok (Wt : list (list (list (list R))) * list (list (list R))) : length (fst Wt) = 2%nat ->
  exists Wl, W_list (N:=RNum) Wt = Some Wl /\ forall corr, (1 <= corr <= 3)%nat -> rd Wl corr = Some (order_weights 3 Wt corr).
Proof.
  destruct Wt as [ws wm]. cbn [fst]. intros H. destruct ws as [|a [|b [|c ws]]]; try discriminate H. exists [[]; b; a; wm]. split; [reflexivity|].
  intros corr Hc. assert (corr = 1 \/ corr = 2 \/ corr = 3)%nat as [->|[->| ->]] by lia; reflexivity.
Qed.
Definition Wl_of (Wt : list (list (list (list R))) * list (list (list R))) : list (list (list (list R))) := match W_list (N:=RNum) Wt with Some w => w | None => [] end.
Lemma Wl_of_ok Wt : length (fst Wt) = 2%nat -> W_list (N:=RNum) Wt = Some (Wl_of Wt) /\ forall corr, (1 <= corr <= 3)%nat -> rd (Wl_of Wt) corr = Some (order_weights 3 Wt corr).
Proof. intros H. destruct (W_list_ok Wt H) as (Wl & E & HW). unfold Wl_of. rewrite E. split; [reflexivity|exact HW]. Qed.
Lemma zz_nth mn an i z : NoDup mn -> (z < length mn)%nat -> nth z mn 0%nat = nth i an 0%nat -> zz mn an i = z.
Proof. intros HN Hz E. unfold zz. rewrite <- E, py_index_nth by assumption. reflexivity. Qed.

Lemma lemma_M0 : forall (K l_max L_max : nat) (mn an : list nat) (Um : nat -> nat -> nat * list R) (Wt : nat -> list (list (list (list R))) * list (list (list R))),
  let n := ((l_max + 1) * (l_max + 1))%nat in
  NoDup mn -> incl an mn ->
  (forall l, (l <= L_max)%nat -> length (fst (Wt l)) = 2%nat /\ shapes_ok (2 * l + 1) n 3 (length mn) K (Um l) (order_weights 3 (Wt l))) ->
  exists C M, export_M0 (N:=RNum) K l_max L_max 3 mn an Um Wt = Some (C, M) /\
    length C = length an /\ length M = ((L_max + 1) * (L_max + 1))%nat /\
    forall i z, (i < length an)%nat -> (z < length mn)%nat -> nth z mn 0%nat = nth i an 0%nat ->
    length (nth i C []) = ((L_max + 1) * (L_max + 1))%nat /\
    forall l row, (l <= L_max)%nat -> (row < 2 * l + 1)%nat ->
    length (nth (l * l + row) (nth i C []) []) = K /\
    forall k, (k < K)%nat ->
    poly_of n (nth k (nth (l * l + row) (nth i C []) []) []) (nth (l * l + row) M []) (contraction 3 n row (fun corr => cut (Um l corr)) (weight (order_weights 3 (Wt l)) z k)).
Proof.
  intros K l_max L_max mn an Um Wt n HN Hinc HS.
  pose proof (export_M0_ok K l_max L_max 3 mn an Um (fun l => order_weights 3 (Wt l)) Wt (fun l => Wl_of (Wt l)) Hinc (fun l Hl => proj2 (HS l Hl))
    (fun l Hl => proj1 (Wl_of_ok (Wt l) (proj1 (HS l Hl)))) (fun l corr Hl Hc => proj2 (Wl_of_ok (Wt l) (proj1 (HS l Hl))) corr Hc)) as E.
  do 2 eexists. split; [exact E|]. split; [apply length_tab|]. split; [apply length_tab|]. intros i z Hi Hz Ez.
  pose proof (zz_nth mn an i z HN Hz Ez) as Ezz. unfold CC. rewrite nth_tab by exact Hi. rewrite Ezz. split; [apply length_tab|].
  intros l row Hl Hrow. assert (Ht : (l * l + row < (L_max + 1) * (L_max + 1))%nat) by nia. rewrite nth_tab by exact Ht. split; [apply length_tab|].
  intros k Hk. unfold entry. rewrite nth_tab by exact Hk. unfold MM. rewrite nth_tab by exact Ht. replace (K =? 0)%nat with false by (symmetry; apply Nat.eqb_neq; lia).
  replace (0 <? length an)%nat with true by (symmetry; apply Nat.ltb_lt; lia). cbn [orb]. unfold tP, tK. rewrite sqrt_lm by exact Hrow. replace (l * l + row - l * l)%nat with row by lia. apply poly_of_Pk.
Qed.

Lemma lemma_M1 : forall (K l_max : nat) (mn an : list nat) (Um : nat -> nat * list R) (Wt : list (list (list (list R))) * list (list (list R))),
  let n := ((l_max + 1) * (l_max + 1))%nat in
  NoDup mn -> incl an mn -> length (fst Wt) = 2%nat -> shapes_ok 1 n 3 (length mn) K Um (order_weights 3 Wt) ->
  exists C M, export_M1 (N:=RNum) K l_max mn an Um Wt = Some (C, M) /\ length C = length an /\
    forall i z, (i < length an)%nat -> (z < length mn)%nat -> nth z mn 0%nat = nth i an 0%nat ->
    length (nth i C []) = K /\
    forall k, (k < K)%nat -> poly_of n (nth k (nth i C []) []) M (contraction 3 n 0 (fun corr => cut (Um corr)) (weight (order_weights 3 Wt) z k)).
Proof.
  intros K l_max mn an Um Wt n HN Hinc HWt HS. destruct (W_list_ok Wt HWt) as (Wl & EW & HW).
  pose proof (export_M1_ok K l_max mn an Um (order_weights 3 Wt) Wt Wl Hinc HS EW HW) as E.
  do 2 eexists. split; [exact E|]. split; [apply length_tab|]. intros i z Hi Hz Ez.
  pose proof (zz_nth mn an i z HN Hz Ez) as Ezz. unfold C1. rewrite nth_tab by exact Hi. rewrite Ezz. split; [apply length_tab|]. intros k Hk. rewrite nth_tab by exact Hk.
  unfold M1M. replace (0 <? length an)%nat with true by (symmetry; apply Nat.ltb_lt; lia). replace (0 <? K)%nat with true by (symmetry; apply Nat.ltb_lt; lia). cbn [andb orb]. apply poly_of_Pk.
Qed.

(** entries that are zero or larger than 1e-12 in magnitude are not changed *)
Lemma sum_ext n f g : (forall i, (i < n)%nat -> f i = g i) -> sum n f = sum n g.
Proof. intros H. unfold sum. f_equal. apply map_ext_in. intros i Hi. apply in_seq in Hi. apply H. lia. Qed.
Lemma cut_id (U : nat * list R) : no_small U -> cut U = U.
Proof.
  intros H. destruct U as [ne U]. unfold cut. cbn [fst snd]. f_equal. rewrite <- (map_id U) at 2. apply map_ext_in. intros u Hu. destruct (Rlt_dec _ _) as [_|Hn]; [reflexivity|].
  destruct (H u Hu) as [->|Hg]; [reflexivity|contradiction].
Qed.
Lemma contraction_cut correlation n row (U : nat -> nat * list R) W x : (forall corr, (1 <= corr <= correlation)%nat -> no_small (U corr)) ->
  contraction correlation n row (fun corr => cut (U corr)) W x = contraction correlation n row U W x.
Proof. intros H. unfold contraction. apply sum_ext. intros q Hq. cbv zeta. rewrite cut_id by (apply H; lia). reflexivity. Qed.

Lemma evaluated srt (Hsrt : forall l : list (list (list nat)), Permutation l (srt l)) n cs ms f x : poly_of n cs ms f -> length x = n ->
  exists p p', make_mpoly (N:=RNum) srt n cs ms = Some p /\ mp_evaluate (N:=RNum) p x = Some (p', f x).
Proof.
  intros (HL & Hok & HN & _ & Hf) Hx. destruct (lemma_C15 srt Hsrt n cs ms x Hok HN HL Hx) as (p & p' & E & E' & _). exists p, p'. split; [exact E|]. rewrite E', Hf. reflexivity.
Qed.
Lemma lemma_M0_eval : forall srt, (forall l : list (list (list nat)), Permutation l (srt l)) ->
  forall (K l_max L_max : nat) (mn an : list nat) (Um : nat -> nat -> nat * list R) (Wt : nat -> list (list (list (list R))) * list (list (list R))),
  let n := ((l_max + 1) * (l_max + 1))%nat in
  NoDup mn -> incl an mn ->
  (forall l, (l <= L_max)%nat -> length (fst (Wt l)) = 2%nat /\ shapes_ok (2 * l + 1) n 3 (length mn) K (Um l) (order_weights 3 (Wt l))) ->
  (forall l corr, (l <= L_max)%nat -> (1 <= corr <= 3)%nat -> no_small (Um l corr)) ->
  exists C M, export_M0 (N:=RNum) K l_max L_max 3 mn an Um Wt = Some (C, M) /\
    forall i z l row k x, (i < length an)%nat -> (z < length mn)%nat -> nth z mn 0%nat = nth i an 0%nat -> (l <= L_max)%nat -> (row < 2 * l + 1)%nat -> (k < K)%nat -> length x = n ->
    exists Ci Clm cs ms p p', nth_error C i = Some Ci /\ nth_error Ci (l * l + row) = Some Clm /\ nth_error Clm k = Some cs /\ nth_error M (l * l + row) = Some ms /\
      make_mpoly (N:=RNum) srt n cs ms = Some p /\
      mp_evaluate (N:=RNum) p x = Some (p', contraction 3 n row (Um l) (weight (order_weights 3 (Wt l)) z k) x).
Proof.
  intros srt Hsrt K l_max L_max mn an Um Wt n HN Hinc HS Hsm. destruct (lemma_M0 K l_max L_max mn an Um Wt HN Hinc HS) as (C & M & E & HC & HM & H). exists C, M. split; [exact E|].
  intros i z l row k x Hi Hz Ez Hl Hrow Hk Hx. destruct (H i z Hi Hz Ez) as [HCi H1]. destruct (H1 l row Hl Hrow) as [HCl H2]. specialize (H2 k Hk).
  assert (Ht : (l * l + row < (L_max + 1) * (L_max + 1))%nat) by nia. destruct (evaluated srt Hsrt _ _ _ _ x H2 Hx) as (p & p' & Ep & Ev).
  exists (nth i C []), (nth (l * l + row) (nth i C []) []), (nth k (nth (l * l + row) (nth i C []) []) []), (nth (l * l + row) M []), p, p'.
  repeat split; try (apply nth_error_nth'; lia). - exact Ep. - rewrite Ev, contraction_cut; [reflexivity|]. intros corr Hc. apply Hsm; assumption.
Qed.
Lemma lemma_M1_eval : forall srt, (forall l : list (list (list nat)), Permutation l (srt l)) ->
  forall (K l_max : nat) (mn an : list nat) (Um : nat -> nat * list R) (Wt : list (list (list (list R))) * list (list (list R))),
  let n := ((l_max + 1) * (l_max + 1))%nat in
  NoDup mn -> incl an mn -> length (fst Wt) = 2%nat -> shapes_ok 1 n 3 (length mn) K Um (order_weights 3 Wt) ->
  (forall corr, (1 <= corr <= 3)%nat -> no_small (Um corr)) ->
  exists C M, export_M1 (N:=RNum) K l_max mn an Um Wt = Some (C, M) /\
    forall i z k x, (i < length an)%nat -> (z < length mn)%nat -> nth z mn 0%nat = nth i an 0%nat -> (k < K)%nat -> length x = n ->
    exists Ci cs p p', nth_error C i = Some Ci /\ nth_error Ci k = Some cs /\ make_mpoly (N:=RNum) srt n cs M = Some p /\
      mp_evaluate (N:=RNum) p x = Some (p', contraction 3 n 0 Um (weight (order_weights 3 Wt) z k) x).
Proof.
  intros srt Hsrt K l_max mn an Um Wt n HN Hinc HWt HS Hsm. destruct (lemma_M1 K l_max mn an Um Wt HN Hinc HWt HS) as (C & M & E & HC & H). exists C, M. split; [exact E|].
  intros i z k x Hi Hz Ez Hk Hx. destruct (H i z Hi Hz Ez) as [HCi H2]. specialize (H2 k Hk).
  destruct (evaluated srt Hsrt _ _ _ _ x H2 Hx) as (p & p' & Ep & Ev).
  exists (nth i C []), (nth k (nth i C []) []), p, p'.
  repeat split; try (apply nth_error_nth'; lia). - exact Ep. - rewrite Ev, contraction_cut; [reflexivity|]. exact Hsm.
Qed.

(** ** other correlation orders *)
Lemma for_from_each {S} (body : nat -> S -> option S) : forall n i s s', for_from n i body s = Some s' -> forall k, (i <= k < i + n)%nat -> exists s1 s2, body k s1 = Some s2.
Proof.
  induction n as [|n IH]; intros i s s' E k Hk; [lia|]. cbn [for_from] in E. destruct (body i s) as [s1|] eqn:Eb; [|discriminate E]. cbn [bind] in E.
  destruct (Nat.eq_dec k i) as [->|Hne]; [exists s, s1; exact Eb|]. apply (IH _ _ _ E). lia.
Qed.
Lemma lemma_M0_low : forall (K l_max L_max correlation : nat) (mn an : list nat) (Um : nat -> nat -> nat * list R) (Wt : nat -> list (list (list (list R))) * list (list (list R))),
  an <> [] -> (correlation < 3)%nat -> length (fst (Wt 0%nat)) = (correlation - 1)%nat -> export_M0 (N:=RNum) K l_max L_max correlation mn an Um Wt = None.
Proof.
  intros K l_max L_max correlation mn an Um Wt Han Hc HW. destruct an as [|a an]; [contradiction|]. unfold export_M0. cbn [for_in]. destruct (py_index mn a) as [z|]; [|reflexivity]. cbn [bind].
  unfold for_. rewrite Nat.add_1_r. cbn [for_from]. destruct (U_sparse _ _ _ _) as [U|]; [|reflexivity]. cbn [bind].
  assert (E : W_list (N:=RNum) (Wt 0%nat) = None) by (unfold W_list; destruct (Wt 0%nat) as [[|w0 [|w1 ws]] wm]; cbn in HW; try reflexivity; lia). rewrite E. reflexivity.
Qed.
Lemma kadd_nonempty ks k : kadd ks k <> [].
Proof. unfold kadd. intros E. destruct (in_dec _ k ks) as [Hin|_]; [rewrite E in Hin; exact Hin|]. destruct ks; discriminate E. Qed.
Lemma lemma_M0_high : forall (K l_max L_max correlation : nat) (mn an : list nat) (Um : nat -> nat -> nat * list R) (Wt : nat -> list (list (list (list R))) * list (list (list R))),
  let n := ((l_max + 1) * (l_max + 1))%nat in
  an <> [] -> (0 < K)%nat -> (3 < correlation)%nat ->
  (forall corr, (1 <= corr <= correlation)%nat -> length (snd (Um 0%nat corr)) = (1 * n ^ corr * fst (Um 0%nat corr))%nat) ->
  (exists u, In u (snd (Um 0%nat 4%nat)) /\ 1 / 10 ^ 12 < Rabs u) ->
  export_M0 (N:=RNum) K l_max L_max correlation mn an Um Wt = None.
Proof.
  intros K l_max L_max correlation mn an Um Wt n Han HK Hc HU (u & Hu & Hug). destruct an as [|a an]; [contradiction|]. unfold export_M0. fold n. cbn [for_in]. destruct (py_index mn a) as [z|]; [|reflexivity]. cbn [bind].
  unfold for_ at 1. rewrite Nat.add_1_r. cbn [for_from]. change (2 * 0 + 1)%nat with 1%nat. rewrite (U_sparse_ok 1 n correlation (Um 0%nat) HU). cbn [bind]. destruct (W_list (Wt 0%nat)) as [Wl|] eqn:EW; [|reflexivity]. cbn [bind].
  assert (HW4 : rd Wl 4 = None).
  { unfold W_list in EW. destruct (Wt 0%nat) as [[|w0 [|w1 ws]] wm]; [discriminate EW|discriminate EW|]. cbn in EW. injection EW as <-. reflexivity. }
  unfold for_ at 1. cbn [for_from Nat.mul Nat.add]. destruct K as [|K]; [lia|]. unfold for_ at 1. cbn [for_from].
  destruct (P_lmk correlation _ Wl 0 z 0) as [P|] eqn:EP; [exfalso|reflexivity].
  unfold P_lmk, for_range in EP. destruct (for_from_each _ _ _ _ _ EP 4%nat ltac:(lia)) as (P1 & P2 & EP'). clear EP. rename EP' into EP.
  replace (rd ([] :: tab correlation (fun q => Uc 1 n (Um 0%nat) (q + 1))) 4) with (rd (tab correlation (fun q => Uc 1 n (Um 0%nat) (q + 1))) 3) in EP by reflexivity.
  rewrite rd_tab in EP by lia. cbn [bind] in EP. unfold Uc in EP. rewrite rd_tab in EP by lia. cbn [bind Nat.add] in EP. rewrite length_tab in EP.
  apply (In_nth _ _ 0) in Hu. destruct Hu as (j & Hj & Ej). rewrite HU in Hj by lia. set (ne := fst (Um 0%nat 4%nat)) in *. set (T := (n ^ 4)%nat) in *.
  assert (Hne : ne <> 0%nat) by (intros E; rewrite E in Hj; lia).
  pose proof (Nat.mod_upper_bound j ne Hne) as He. unfold for_ in EP. destruct (for_from_each _ _ _ _ _ EP (j mod ne)%nat ltac:(lia)) as (P3 & P4 & EP'). clear EP. rename EP' into EP.
  rewrite rd_tab in EP by exact He. cbn [bind] in EP.
  assert (Hx : forall c, (j / ne < c)%nat -> DD ne T n 4 (snd (Um 0%nat 4%nat)) 0 (j mod ne) c <> []).
  { induction c as [|c IH]; intros Hc'; [lia|]. rewrite DD_S. cbv zeta. intros E. destruct (kept _) eqn:Ek.
    - apply (f_equal (map fst)) in E. rewrite keys_add in E. exact (kadd_nonempty _ _ E).
    - destruct (Nat.eq_dec (j / ne) c) as [<-|Hd]; [|apply (IH ltac:(lia)); exact E]. replace ((0 * T + j / ne) * ne + j mod ne)%nat with j in Ek by (rewrite (Nat.div_mod j ne Hne) at 1; lia). rewrite Ej in Ek.
      pose proof (kept_cut u) as Hcut. rewrite Ek in Hcut. unfold cut1 in Hcut. destruct (Rlt_dec (1 / 10 ^ 12) (Rabs u)) as [_|Hn]; [|contradiction]. rewrite <- Hcut, Rabs_R0 in Hug. apply Rlt_not_le in Hug. apply Hug. apply Rlt_le. apply Rdiv_lt_0_compat; [lra|apply pow_lt; lra]. }
  specialize (Hx T). destruct (DD ne T n 4 (snd (Um 0%nat 4%nat)) 0 (j mod ne) T) as [|[key v] items].
  - apply Hx; [|reflexivity]. apply Nat.div_lt_upper_bound; [exact Hne|]. lia.
  - cbn [for_in] in EP. change (carrier RNum) with R in *. rewrite HW4 in EP. discriminate EP.
Qed.

(** ** layer 1 with correlation order 4 *)
Definition spike (corr : nat) : nat * list R := (1%nat, 1 :: repeat 0 (16 ^ corr - 1)).
Lemma length_spike corr : length (snd (spike corr)) = (1 * 16 ^ corr * fst (spike corr))%nat.
Proof. unfold spike. cbn [fst snd length]. rewrite repeat_length. pose proof (Nat.pow_nonzero 16 corr ltac:(lia)). lia. Qed.
Lemma no_small_spike corr : no_small (spike corr).
Proof.
  intros u Hu. unfold spike in Hu. cbn [snd] in Hu. destruct Hu as [<-|Hu]; [right|left; apply (repeat_spec _ _ _ Hu)]. rewrite Rabs_R1. apply (Rmult_lt_reg_r (10 ^ 12)); [apply pow_lt; lra|]. unfold Rdiv. rewrite Rmult_assoc, Rinv_l by (apply pow_nonzero; lra). replace (10 ^ 12) with 1000000000000 by ring. lra.
Qed.
Lemma vars_0 n corr x : vars n corr 0 x = nth 0 x 0 ^ corr.
Proof.
  unfold vars. rewrite (map_ext _ (fun _ => nth 0 x 0)).
  - generalize 0%nat at 2. induction corr as [|corr IH]; intros i; [reflexivity|]. cbn [seq map fold_right pow]. rewrite IH. reflexivity.
  - intros p. unfold digit. replace (0 / n ^ (corr - 1 - p))%nat with 0%nat; [f_equal; destruct n; [reflexivity|apply Nat.mod_0_l; lia]|]. symmetry. destruct (n ^ (corr - 1 - p))%nat; [reflexivity|apply Nat.div_0_l; lia].
Qed.
Lemma sum_spike corr x : sum (16 ^ corr) (fun c => nth ((0 * 16 ^ corr + c) * 1 + 0)%nat (snd (spike corr)) 0 * vars 16 corr c x) = nth 0 x 0 ^ corr.
Proof.
  rewrite sum_rl. pose proof (Nat.pow_nonzero 16 corr ltac:(lia)) as H. destruct (16 ^ corr)%nat as [|T] eqn:E; [contradiction|]. cbn [seq]. rewrite rl_cons, rl_0.
  - unfold spike. cbn [snd Nat.mul Nat.add nth]. rewrite vars_0. lra.
  - intros c Hc. apply in_seq in Hc. unfold spike. cbn [snd]. replace ((0 * S T + c) * 1 + 0)%nat with (S (c - 1)) by lia. cbn [nth]. rewrite nth_repeat. lra.
Qed.
Lemma contraction_spike correlation W x : contraction correlation 16 0 spike W x = sum correlation (fun q => W (q + 1)%nat 0%nat * nth 0 x 0 ^ (q + 1)).
Proof.
  unfold contraction. apply sum_ext. intros q _. cbv zeta. change (fst (spike (q + 1))) with 1%nat. unfold sum at 1. cbn [seq map fold_right]. rewrite sum_spike. lra.
Qed.
Definition bad_Wt : list (list (list (list R))) * list (list (list R)) := ([[[[0]]]; [[[7]]]; [[[5]]]], [[[0]]]).
Lemma bad_shapes : shapes_ok 1 16 4 1 1 spike (order_weights 4 bad_Wt).
Proof.
  split.
  - intros corr _. apply length_spike.
  - intros corr Hc. assert (corr = 1 \/ corr = 2 \/ corr = 3 \/ corr = 4)%nat as [->|[->|[->| ->]]] by lia; reflexivity.
  - intros corr z Hc Hz. assert (z = 0)%nat as -> by lia. assert (corr = 1 \/ corr = 2 \/ corr = 3 \/ corr = 4)%nat as [->|[->|[->| ->]]] by lia; reflexivity.
  - intros corr z eta Hc Hz He. assert (z = 0)%nat as -> by lia. change (fst (spike corr)) with 1%nat in He. assert (eta = 0)%nat as -> by lia. assert (corr = 1 \/ corr = 2 \/ corr = 3 \/ corr = 4)%nat as [->|[->|[->| ->]]] by lia; reflexivity.
Qed.
Lemma bad_export : exists C M, export_M1 (N:=RNum) 1 3 [1%nat] [1%nat] spike bad_Wt = Some (C, M) /\ forall x, poly (nth 0 (nth 0 C []) []) M x = 7 * nth 0 x 0.
Proof.
  assert (HS : shapes_ok 1 16 3 1 1 spike (fun corr => nth corr [[]; [[[7]]]; [[[0]]]; [[[0]]]] [])).
  { split.
    - intros corr _. apply length_spike.
    - intros corr Hc. assert (corr = 1 \/ corr = 2 \/ corr = 3)%nat as [->|[->| ->]] by lia; reflexivity.
    - intros corr z Hc Hz. assert (z = 0)%nat as -> by lia. assert (corr = 1 \/ corr = 2 \/ corr = 3)%nat as [->|[->| ->]] by lia; reflexivity.
    - intros corr z eta Hc Hz He. assert (z = 0)%nat as -> by lia. change (fst (spike corr)) with 1%nat in He. assert (eta = 0)%nat as -> by lia. assert (corr = 1 \/ corr = 2 \/ corr = 3)%nat as [->|[->| ->]] by lia; reflexivity. }
  pose proof (export_M1_ok 1 3 [1%nat] [1%nat] spike _ bad_Wt [[]; [[[7]]]; [[[0]]]; [[[0]]]] (incl_refl _) HS eq_refl) as E.
  do 2 eexists. split; [apply E; intros corr Hc; assert (corr = 1 \/ corr = 2 \/ corr = 3)%nat as [->|[->| ->]] by lia; reflexivity|].
  intros x. unfold C1, M1M. cbn [length Nat.ltb Nat.leb andb orb]. rewrite !nth_tab by lia. change ((3 + 1) * (3 + 1))%nat with 16%nat.
  destruct (poly_of_Pk 16 3 spike (fun corr => nth corr [[]; [[[7]]]; [[[0]]]; [[[0]]]] []) 0 0 0) as (_ & _ & _ & _ & Hp).
  change (zz [1%nat] [1%nat] 0) with 0%nat. rewrite Hp, contraction_cut by (intros; apply no_small_spike). rewrite contraction_spike. unfold sum. cbn [seq map fold_right Nat.add]. unfold weight. cbn [nth]. lra.
Qed.
Lemma lemma_M1_refuted : ~ (forall (correlation K : nat) (mn an : list nat) (Um : nat -> nat * list R) (Wt : list (list (list (list R))) * list (list (list R))) C M,
  NoDup mn -> incl an mn -> length (fst Wt) = (correlation - 1)%nat -> shapes_ok 1 16 correlation (length mn) K Um (order_weights correlation Wt) ->
  (forall corr, (1 <= corr <= correlation)%nat -> no_small (Um corr)) ->
  export_M1 (N:=RNum) K 3 mn an Um Wt = Some (C, M) ->
  forall i z k, (i < length an)%nat -> (z < length mn)%nat -> nth z mn 0%nat = nth i an 0%nat -> (k < K)%nat ->
  forall x, poly (nth k (nth i C []) []) M x = contraction correlation 16 0 Um (weight (order_weights correlation Wt) z k) x).
Proof.
  intros H. destruct bad_export as (C & M & E & Hp).
  assert (HN : NoDup [1%nat]) by (constructor; [intros []|constructor]).
  specialize (H 4%nat 1%nat [1%nat] [1%nat] spike bad_Wt C M HN (incl_refl _) eq_refl bad_shapes (fun corr _ => no_small_spike corr) E 0%nat 0%nat 0%nat ltac:(cbn; lia) ltac:(cbn; lia) eq_refl ltac:(lia) [2]).
  rewrite Hp, contraction_spike in H. unfold sum in H. cbn in H. lra.
Qed.
