(** Lemmas: the loops of the Kokkos pair style may run in any order. *)
From Coq Require Import List Arith ZArith Bool Reals Lia Lra Permutation.
From Verif Require Import Base BaseLemmas Instances RSums PairModel PairMpiModel PairCommSpec PairKokkosModel.
Import ListNotations.
Local Open Scope nat_scope.

Section Run.
Context {I S : Type}.
Variable body : I -> S -> option S.
Lemma run_all_app a b s : run_all body (a ++ b) s = (s' <- run_all body a s ;; run_all body b s').
Proof. revert s. induction a as [|i a IH]; intros s; [reflexivity|]. cbn. destruct (body i s); [apply IH|reflexivity]. Qed.
Lemma run_all_perm o o' : Permutation o o' -> NoDup o ->
  (forall i j s, In i o -> In j o -> i <> j -> (s1 <- body i s ;; body j s1) = (s1 <- body j s ;; body i s1)) ->
  forall s, run_all body o s = run_all body o' s.
Proof.
  intros P. induction P as [|i o o' P IH|i j o|o1 o2 o3 P1 IH1 P2 IH2]; intros ND C s.
  - reflexivity.
  - cbn. destruct (body i s); [|reflexivity]. apply IH; [inversion ND; assumption|]. intros; apply C; cbn; auto.
  - assert (CC : (s1 <- body j s ;; body i s1) = (s1 <- body i s ;; body j s1)).
    { apply C; cbn; auto. inversion ND as [|? ? H1 ?]; subst. cbn in H1. intuition congruence. }
    assert (B : forall x y, run_all body (x :: y :: o) s = (s2 <- (s1 <- body x s ;; body y s1) ;; run_all body o s2)) by (intros x y; cbn; destruct (body x s); reflexivity).
    rewrite !B, CC. reflexivity.
  - rewrite IH1 by assumption. apply IH2; [eapply Permutation_NoDup; eauto|]. intros i j s' Hi Hj. apply C; eapply Permutation_in; [apply Permutation_sym; exact P1| |apply Permutation_sym; exact P1|]; eauto.
Qed.
Lemma for_run (f : nat -> I) n k s : for_from n k (fun i s => body (f i) s) s = run_all body (map f (seq k n)) s.
Proof. revert k s. induction n as [|n IH]; intros k s; [reflexivity|]. cbn. destruct (body (f k) s); [apply IH|reflexivity]. Qed.
End Run.

Lemma run_prod {S} (body : nat * nat -> S -> option S) n W : forall k s,
  for_from n k (fun i s => for_ W (fun q s => body (i, q) s) s) s = run_all body (list_prod (seq k n) (seq 0 W)) s.
Proof.
  induction n as [|n IH]; intros k s; [reflexivity|]. cbn [seq list_prod]. rewrite run_all_app. cbn [for_from]. unfold for_ at 1.
  rewrite (for_run body (fun q => (k, q))). destruct (run_all _ _ s); [apply IH|reflexivity].
Qed.
Lemma md_range_in n W i k : In (i, k) (md_range n W) <-> i < n /\ k < W.
Proof. unfold md_range. rewrite in_prod_iff, !in_seq. lia. Qed.
Lemma NoDup_app_i {A} (a b : list A) : NoDup a -> NoDup b -> (forall x, In x a -> ~ In x b) -> NoDup (a ++ b).
Proof.
  induction a as [|x a IH]; intros Ha Hb H; [exact Hb|]. cbn. inversion Ha; subst. constructor.
  - rewrite in_app_iff. intros [?|?]; [tauto|]. apply (H x); cbn; auto.
  - apply IH; auto. intros y Hy. apply H. cbn; auto.
Qed.
Lemma NoDup_prod {A B} (a : list A) (b : list B) : NoDup a -> NoDup b -> NoDup (list_prod a b).
Proof.
  intros Ha Hb. induction a as [|x a IH]; [constructor|]. cbn. inversion Ha as [|? ? Hx Ha']; subst. apply NoDup_app_i.
  - apply FinFun.Injective_map_NoDup; [intros u v E; congruence|exact Hb].
  - apply IH. exact Ha'.
  - intros [u v] H1 H2. apply in_map_iff in H1. destruct H1 as (w & E & _). injection E as <- <-. apply in_prod_iff in H2. tauto.
Qed.

Lemma md_range_nodup n W : NoDup (md_range n W).
Proof. apply NoDup_prod; apply seq_NoDup. Qed.

Lemma upd_upd {A} (a : list A) p q v w : p <> q -> upd (upd a p v) q w = upd (upd a q w) p v.
Proof. revert p q. induction a as [|x a IH]; intros [|p] [|q] H; cbn; try reflexivity; try lia. f_equal. apply IH. lia. Qed.
Lemma upd_twice {A} (a : list A) p v w : upd (upd a p v) p w = upd a p w.
Proof. revert p. induction a as [|x a IH]; intros [|p]; cbn; try reflexivity. f_equal. apply IH. Qed.
(** two writes *)
Lemma wr_wr {A} (a : list A) p q v w : p <> q -> (a1 <- wr a p v ;; wr a1 q w) = (a1 <- wr a q w ;; wr a1 p v).
Proof.
  intros H. unfold wr. destruct (p <? length a) eqn:E1, (q <? length a) eqn:E2; cbn [bind]; rewrite ?length_upd, ?E1, ?E2; try reflexivity.
  rewrite upd_upd by exact H. reflexivity.
Qed.
(** two additions, over the reals *)
Lemma add_add (a : list R) p q v w : (a1 <- addto (N:=RNum) a p v ;; addto (N:=RNum) a1 q w) = (a1 <- addto (N:=RNum) a q w ;; addto (N:=RNum) a1 p v).
Proof.
  assert (K : forall p v, addto (N:=RNum) a p v = if p <? length a then Some (upd a p (nth p a 0%R + v)%R) else None).
  { intros p' v'. unfold addto, wr. change (carrier RNum) with R. destruct (p' <? length a) eqn:E.
    - apply Nat.ltb_lt in E. rewrite (rd_some a p' 0%R) by exact E. reflexivity.
    - apply Nat.ltb_ge in E. unfold rd. rewrite (proj2 (nth_error_None a p') E). reflexivity. }
  assert (K2 : forall p v q w, (a1 <- addto (N:=RNum) a p v ;; addto (N:=RNum) a1 q w) =
     if (p <? length a) && (q <? length a) then
       Some (if p =? q then upd a p (nth p a 0%R + v + w)%R else upd (upd a p (nth p a 0%R + v)%R) q (nth q a 0%R + w)%R) else None).
  { intros p' v' q' w'. rewrite K. destruct (p' <? length a) eqn:E1; [|reflexivity]. cbn [bind andb]. unfold addto, wr. change (carrier RNum) with R. apply Nat.ltb_lt in E1. rewrite length_upd.
    destruct (q' <? length a) eqn:E2.
    - apply Nat.ltb_lt in E2. rewrite (rd_some _ q' 0%R) by (rewrite length_upd; exact E2). cbn [bind]. rewrite nth_upd by exact E1.
      destruct (p' =? q') eqn:E; [apply Nat.eqb_eq in E; subst; rewrite upd_twice; reflexivity|reflexivity].
    - apply Nat.ltb_ge in E2. unfold rd. rewrite (proj2 (nth_error_None _ q')) by (rewrite length_upd; exact E2). reflexivity. }
  rewrite !K2. rewrite (Bool.andb_comm (q <? length a)). destruct ((p <? length a) && (q <? length a))%bool; [|reflexivity]. f_equal.
  rewrite (Nat.eqb_sym q). destruct (p =? q) eqn:E; [apply Nat.eqb_eq in E; subst; f_equal; lra|]. apply Nat.eqb_neq in E. apply upd_upd. exact E.
Qed.

Lemma idx_inj W i k i' k' : k < W -> k' < W -> i * W + k = i' * W + k' -> i = i' /\ k = k'.
Proof. intros H H' E. assert (i = i') by nia. subst. lia. Qed.

Section Comm.
Context {N : Num}.
(** bodies of the form "write a value that does not depend on the array" commute *)
Lemma write_comm (pos : nat * nat -> nat) (val : nat * nat -> option N) ord n W s :
  Permutation ord (md_range n W) -> (forall x y, In x (md_range n W) -> In y (md_range n W) -> pos x = pos y -> x = y) ->
  run_all (fun x a => v <- val x ;; wr a (pos x) v) ord s = run_all (fun x a => v <- val x ;; wr a (pos x) v) (md_range n W) s.
Proof.
  intros P Inj. apply run_all_perm; [exact P|eapply Permutation_NoDup; [apply Permutation_sym; exact P|apply md_range_nodup]|].
  intros i j a Hi Hj Ne. destruct (val i) as [v|], (val j) as [w|]; cbn [bind]; try reflexivity.
  - apply wr_wr. intros E. apply Ne, Inj; try assumption; eapply Permutation_in; eauto.
  - destruct (wr a (pos i) v); reflexivity.
  - destruct (wr a (pos j) w); reflexivity.
Qed.
Lemma run_ext {S} (f g : nat * nat -> S -> option S) ord : (forall x s, In x ord -> f x s = g x s) -> forall s, run_all f ord s = run_all g ord s.
Proof. induction ord as [|x ord IH]; intros H s; [reflexivity|]. cbn. rewrite H by (cbn; auto). destruct (g x s); [|reflexivity]. apply IH. intros; apply H; cbn; auto. Qed.

Lemma pack_forward_kk ord W (H1 : list N) n sl buf : Permutation ord (md_range n W) -> n <= length sl ->
  pack_forward_comm_kokkos ord W H1 n sl buf = pack_forward_comm W H1 n sl buf.
Proof.
  intros P Hn. unfold pack_forward_comm_kokkos, pack_forward_comm. f_equal.
  set (val := fun x : nat * nat => i <- rd sl (fst x) ;; rd H1 (i * W + snd x)).
  rewrite (run_ext _ (fun x a => v <- val x ;; wr a (fst x * W + snd x) v)) by (intros [i k] a _; unfold val; cbn [fst snd]; destruct (rd sl i); reflexivity).
  rewrite (write_comm (fun x => fst x * W + snd x) val ord n W).
  - unfold md_range. rewrite <- (run_prod (fun x a => v <- val x ;; wr a (fst x * W + snd x) v)). apply for_ext. intros ii a Hi. unfold val. cbn [fst snd].
    rewrite (rd_some sl ii 0) by lia. reflexivity.
  - exact P.
  - intros [i k] [i' k'] Hx Hy E. apply md_range_in in Hx, Hy. cbn in E. destruct (idx_inj W i k i' k') as [-> ->]; tauto || lia.
Qed.
Lemma unpack_forward_kk ord W n first (buf H1 : list N) : Permutation ord (md_range n W) ->
  unpack_forward_comm_kokkos ord W first buf H1 = unpack_forward_comm W n first buf H1.
Proof.
  intros P. unfold unpack_forward_comm_kokkos, unpack_forward_comm.
  set (val := fun x : nat * nat => rd buf (fst x * W + snd x)).
  rewrite (run_ext _ (fun x a => v <- val x ;; wr a ((first + fst x) * W + snd x) v)) by (intros [i k] a _; reflexivity).
  rewrite (write_comm (fun x => (first + fst x) * W + snd x) val ord n W).
  - unfold md_range. rewrite <- (run_prod (fun x a => v <- val x ;; wr a ((first + fst x) * W + snd x) v)). reflexivity.
  - exact P.
  - intros [i k] [i' k'] Hx Hy E. apply md_range_in in Hx, Hy. cbn in E. destruct (idx_inj W (first + i) k (first + i') k') as [Q ->]; try tauto. assert (i = i') by lia. subst. reflexivity.
Qed.
Lemma pack_reverse_kk ord W (H : list N) n first buf : Permutation ord (md_range n W) ->
  pack_reverse_comm_kokkos ord W H n first buf = pack_reverse_comm W H n first buf.
Proof.
  intros P. unfold pack_reverse_comm_kokkos, pack_reverse_comm. f_equal.
  set (val := fun x : nat * nat => rd H ((first + fst x) * W + snd x)).
  rewrite (run_ext _ (fun x a => v <- val x ;; wr a (fst x * W + snd x) v)) by (intros [i k] a _; reflexivity).
  rewrite (write_comm (fun x => fst x * W + snd x) val ord n W).
  - unfold md_range. rewrite <- (run_prod (fun x a => v <- val x ;; wr a (fst x * W + snd x) v)). reflexivity.
  - exact P.
  - intros [i k] [i' k'] Hx Hy E. apply md_range_in in Hx, Hy. cbn in E. destruct (idx_inj W i k i' k') as [-> ->]; tauto || lia.
Qed.
Lemma forward_kk ords W gs (hs : list (list N)) : ords_ok W gs ords -> forward_comm_kk ords W gs hs = forward_comm W gs hs.
Proof.
  revert hs. induction gs as [|g gs IH]; intros hs O; [reflexivity|]. cbn [forward_comm_kk forward_comm]. destruct (O g (or_introl eq_refl)) as [O1 O2].
  replace (forward_one_kk ords W g hs) with (forward_one W g hs).
  - destruct (forward_one W g hs); [|reflexivity]. cbn [bind]. apply IH. intros g' Hg. apply O. right. exact Hg.
  - unfold forward_one_kk, forward_one. destruct (rd hs (g_src g)); [|reflexivity]. cbn [bind]. rewrite (pack_forward_kk _ _ _ _ _ _ O1) by lia.
    destruct (pack_forward_comm W _ _ _ _) as [[buf c]|]; [|reflexivity]. cbn [bind]. destruct (rd hs (g_dst g)); [|reflexivity]. cbn [bind]. rewrite (unpack_forward_kk _ _ _ _ _ _ O2). reflexivity.
Qed.
(** when the host can access the views, the loops through the host are those of the other style *)
Lemma forward_host W gs (hs : list (list N)) : forward_comm_host true W gs hs = forward_comm W gs hs.
Proof.
  revert hs. induction gs as [|g gs IH]; intros hs; [reflexivity|]. cbn [forward_comm_host forward_comm].
  replace (forward_one_host true W g hs) with (forward_one W g hs); [destruct (forward_one W g hs); [apply IH|reflexivity]|].
  unfold forward_one_host, forward_one. destruct (rd hs (g_src g)); [|reflexivity]. cbn [bind]. change (pack_forward_comm_host (N:=N)) with (pack_forward_comm (N:=N)).
  destruct (pack_forward_comm W _ _ _ _) as [[buf c]|]; [|reflexivity]. cbn [bind]. destruct (rd hs (g_dst g)); [|reflexivity]. cbn [bind].
  unfold unpack_forward_comm_host, mirror, unpack_forward_comm. destruct (for_ _ _ _); reflexivity.
Qed.
Lemma reverse_host W gs (hs : list (list N)) : reverse_comm_host true W gs hs = reverse_comm W gs hs.
Proof.
  revert hs. induction gs as [|g gs IH]; intros hs; [reflexivity|]. cbn [reverse_comm_host reverse_comm]. rewrite IH. destruct (reverse_comm W gs hs) as [h1|]; [|reflexivity]. cbn [bind].
  unfold reverse_one_host, reverse_one. destruct (rd h1 (g_dst g)); [|reflexivity]. cbn [bind]. change (pack_reverse_comm_host (N:=N)) with (pack_reverse_comm (N:=N)).
  destruct (pack_reverse_comm W _ _ _ _) as [[buf c]|]; [|reflexivity]. cbn [bind]. destruct (rd h1 (g_src g)); [|reflexivity]. cbn [bind].
  unfold unpack_reverse_comm_host, mirror, unpack_reverse_comm. destruct (for_ _ _ _); reflexivity.
Qed.
End Comm.

Lemma unpack_reverse_kk ord W n sl (buf H : list R) : Permutation ord (md_range n W) -> n <= length sl ->
  unpack_reverse_comm_kokkos (N:=RNum) ord W sl buf H = unpack_reverse_comm (N:=RNum) W n sl buf H.
Proof.
  intros P Hn. unfold unpack_reverse_comm_kokkos, unpack_reverse_comm.
  match goal with |- run_all ?b _ _ = _ => set (body := b) end.
  rewrite (run_all_perm body ord (md_range n W) P).
  - unfold md_range. rewrite <- (run_prod body). apply for_ext. intros ii a Hi. rewrite (rd_some sl ii 0) by lia. cbn [bind]. apply for_ext. intros k a' Hk. unfold body.
    rewrite (rd_some sl ii 0) by lia. reflexivity.
  - eapply Permutation_NoDup; [apply Permutation_sym; exact P|apply md_range_nodup].
  - intros [i k] [i' k'] a Hi Hj Ne. unfold body. apply (Permutation_in _ P), md_range_in in Hi. apply (Permutation_in _ P), md_range_in in Hj.
    rewrite (rd_some sl i 0), (rd_some sl i' 0) by lia. cbn [bind]. destruct (@rd (carrier RNum) buf (i * W + k)) as [v|], (@rd (carrier RNum) buf (i' * W + k')) as [w|]; cbn [bind]; try reflexivity.
    + apply add_add.
    + destruct (addto _ _ _); reflexivity.
    + destruct (addto _ _ _); reflexivity.
Qed.
Lemma reverse_kk ords W gs (hs : list (list R)) : ords_ok W gs ords -> reverse_comm_kk (N:=RNum) ords W gs hs = reverse_comm (N:=RNum) W gs hs.
Proof.
  revert hs. induction gs as [|g gs IH]; intros hs O; [reflexivity|]. cbn [reverse_comm_kk reverse_comm]. destruct (O g (or_introl eq_refl)) as [O1 O2].
  rewrite IH by (intros g' Hg; apply O; right; exact Hg). destruct (reverse_comm W gs hs) as [h1|]; [|reflexivity]. cbn [bind].
  unfold reverse_one_kk, reverse_one. destruct (rd h1 (g_dst g)) as [h|]; [|reflexivity]. cbn [bind]. rewrite (pack_reverse_kk _ _ _ _ _ _ O1).
  destruct (pack_reverse_comm W _ _ _ _) as [[buf c]|]; [|reflexivity]. cbn [bind]. destruct (rd h1 (g_src g)); [|reflexivity]. cbn [bind]. rewrite (unpack_reverse_kk _ _ _ _ _ _ O2) by lia. reflexivity.
Qed.

(** per-atom energies *)
Lemma extract_ok ord n (En ea : list R) : Permutation ord (seq 0 n) -> n <= length En -> n <= length ea ->
  exists ea', extract_atomic_energies (N:=RNum) ord En ea = Some ea' /\ length ea' = length ea /\
    forall i, nth i ea' 0%R = (nth i ea 0 + (if i <? n then nth i En 0 else 0))%R.
Proof.
  intros P H1 H2. unfold extract_atomic_energies. match goal with |- context [run_all ?b] => set (body := b) end.
  rewrite (run_all_perm body ord (seq 0 n) P).
  - pose proof (for_run body (fun i => i) n 0 ea) as Q. rewrite map_id in Q. rewrite <- Q. change (for_from n 0 ?f ea) with (for_ n f ea).
    destruct (for_inv (fun k (a : list R) => length a = length ea /\ forall i, nth i a 0%R = (nth i ea 0 + (if i <? k then nth i En 0 else 0))%R) n (fun i => body i) ea) as (a' & E & L & V).
    + split; [reflexivity|]. intros i. cbn. lra.
    + intros k a Hk [L V]. unfold body, addto, wr. change (carrier RNum) with R. rewrite (rd_some En k 0%R), (rd_some a k 0%R) by (change (carrier RNum) with R in *; lia). cbn [bind].
      rewrite (proj2 (Nat.ltb_lt k (length a))) by (change (carrier RNum) with R in *; lia). eexists. split; [reflexivity|]. split; [rewrite length_upd; exact L|].
      intros i. rewrite nth_upd by (change (carrier RNum) with R in *; lia). rewrite (V i), (V k), (Nat.eqb_sym k i). destruct (i =? k) eqn:Ei.
      * apply Nat.eqb_eq in Ei. subst i. rewrite Nat.ltb_irrefl, (proj2 (Nat.ltb_lt k (S k))) by lia. cbn [nadd RNum]. lra.
      * apply Nat.eqb_neq in Ei. destruct (i <? k) eqn:A, (i <? S k) eqn:B; try lra; rewrite ?Nat.ltb_lt, ?Nat.ltb_ge in *; lia.
    + exists a'. auto.
  - eapply Permutation_NoDup; [apply Permutation_sym; exact P|apply seq_NoDup].
  - intros i j a _ _ _. unfold body. destruct (@rd (carrier RNum) En i) as [v|], (@rd (carrier RNum) En j) as [w|]; cbn [bind]; try reflexivity.
    + apply add_add.
    + destruct (addto _ _ _); reflexivity.
    + destruct (addto _ _ _); reflexivity.
Qed.
