(** Lemmas about the commands pair_style and pair_coeff. *)
From Coq Require Import String List Arith ZArith Bool Lia.
From Verif Require Import Base BaseLemmas MaceModel ZblModel MaceSpec PairModel PairMpiModel PairKokkosModel PairSpec PairThms PairMomentum PairCoeffSpec.
Import ListNotations.
Local Open Scope nat_scope.

Lemma settings_ok nprocs arg mode : settings nprocs arg = Some mode <->
  (arg = [] /\ mode = (if nprocs =? 1 then "no_domain_decomposition"%string else "mpi_message_passing"%string)) \/
  (arg = [mode] /\ In mode ["no_domain_decomposition"; "mpi_message_passing"; "no_mpi_message_passing"]%string /\
   (mode = "no_domain_decomposition"%string -> nprocs = 1)).
Proof.
  unfold settings. destruct arg as [|a [|b arg]].
  - cbn [length Nat.eqb bind]. destruct (Nat.eqb_spec nprocs 1) as [->|E]; cbn; intuition congruence.
  - cbn [length Nat.eqb rd nth_error bind]. 
    destruct (String.eqb_spec a "no_domain_decomposition") as [->|N1].
    + cbn. destruct (Nat.eqb_spec nprocs 1) as [->|E]; cbn; split; intros H.
      * injection H as <-. right. intuition.
      * destruct H as [[H _]|[H _]]; [discriminate|]. congruence.
      * discriminate.
      * destruct H as [[H _]|[H [_ H2]]]; [discriminate|]. injection H as <-. exfalso. apply E, H2. reflexivity.
    + destruct (String.eqb_spec a "mpi_message_passing") as [->|N2]; [cbn; split; [intros H; injection H as <-; right; intuition discriminate|intros [[H _]|[H _]]; [discriminate|congruence]]|].
      destruct (String.eqb_spec a "no_mpi_message_passing") as [->|N3]; [cbn; split; [intros H; injection H as <-; right; intuition discriminate|intros [[H _]|[H _]]; [discriminate|congruence]]|].
      cbn. split; [discriminate|]. intros [[H _]|[H [H2 _]]]; [discriminate|]. injection H as <-. intuition congruence.
  - cbn. split; [discriminate|]. intros [[H _]|[H _]]; discriminate.
Qed.
Lemma settings_kk_eq : settings_kk = settings.
Proof. reflexivity. Qed.

(** the periodic table *)
Lemma find_first_some {A} (eqb : A -> A -> bool) (Heq : forall a b, eqb a b = true <-> a = b) l x k :
  find_first eqb l x = Some k -> nth_error l k = Some x.
Proof.
  revert k. induction l as [|a l IH]; cbn; intros k H; [discriminate|]. destruct (eqb a x) eqn:E.
  - injection H as <-. apply Heq in E. subst. reflexivity.
  - destruct (find_first eqb l x) as [k'|]; [|discriminate]. injection H as <-. cbn. apply IH. reflexivity.
Qed.
Lemma find_first_none {A} (eqb : A -> A -> bool) (Heq : forall a b, eqb a b = true <-> a = b) l x :
  find_first eqb l x = None <-> ~ In x l.
Proof.
  induction l as [|a l IH]; cbn; [intuition|]. destruct (eqb a x) eqn:E.
  - apply Heq in E. subst. split; [discriminate|]. intros H. exfalso. apply H. auto.
  - assert (a <> x) by (intros ->; rewrite (proj2 (Heq x x) eq_refl) in E; discriminate).
    destruct (find_first eqb l x); cbn; split; intros H1; try discriminate.
    + exfalso. apply H1. right. destruct (in_dec (fun u v => match eqb u v as b return eqb u v = b -> {u = v} + {u <> v} with true => fun e => left (proj1 (Heq u v) e) | false => fun e => right (fun e' => eq_ind false (fun b => if b then False else True) I true (eq_trans (eq_sym e) (proj2 (Heq u v) e'))) end eq_refl) x l) as [Hi|Hn]; [exact Hi|]. apply IH in Hn. discriminate.
    + intros [H2|H2]; [congruence|]. apply IH in H2; [exact H2|reflexivity].
    + reflexivity.
Qed.
Lemma str_eqb a b : String.eqb a b = true <-> a = b.
Proof. apply String.eqb_eq. Qed.
Lemma nat_eqb a b : Nat.eqb a b = true <-> a = b.
Proof. apply Nat.eqb_eq. Qed.

(** [elements] is the table of the code, numbered from 1 *)
Definition pair_eqb (a b : string * nat) : bool := ((fst a =? fst b)%string && (snd a =? snd b))%bool.
Lemma pair_eqb_eq a b : pair_eqb a b = true <-> a = b.
Proof. destruct a, b. unfold pair_eqb. cbn. rewrite andb_true_iff, String.eqb_eq, Nat.eqb_eq. intuition congruence. Qed.
Definition incl_b (a b : list (string * nat)) : bool := forallb (fun x => existsb (pair_eqb x) b) a.
Lemma incl_b_ok a b : incl_b a b = true -> incl a b.
Proof.
  unfold incl_b. rewrite forallb_forall. intros H x Hx. specialize (H x Hx). apply existsb_exists in H. destruct H as (y & Hy & E). apply pair_eqb_eq in E. subst. exact Hy.
Qed.
Definition numbered : list (string * nat) := combine periodic_table (seq 1 118).
Lemma numbered_elements : forall x, In x numbered <-> In x elements.
Proof. intros x. split; apply incl_b_ok; vm_compute; reflexivity. Qed.
Lemma table_unique : NoDup periodic_table.
Proof.
  assert (K : forall l, (fix go (l : list string) := match l with [] => true | a :: l' => (negb (existsb (String.eqb a) l') && go l')%bool end) l = true -> NoDup l).
  { induction l as [|a l IH]; intros H; constructor; apply andb_true_iff in H; destruct H as [H1 H2].
    - intros Hi. apply negb_true_iff in H1. rewrite <- not_true_iff_false in H1. apply H1. apply existsb_exists. exists a. split; [exact Hi|apply String.eqb_refl].
    - apply IH. exact H2. }
  apply K. vm_compute. reflexivity.
Qed.
Lemma element_iff s z : element s z <-> exists p, find_first String.eqb periodic_table s = Some p /\ z = p + 1.
Proof.
  unfold element. rewrite <- numbered_elements. unfold numbered.
  assert (C : forall p, nth_error (combine periodic_table (seq 1 118)) p = match nth_error periodic_table p with Some s => Some (s, p + 1) | None => None end).
  { assert (G : forall (l : list string) k p, nth_error (combine l (seq k (length l))) p = match nth_error l p with Some s => Some (s, p + k) | None => None end).
    { induction l as [|a l IH]; intros k p; [destruct p; reflexivity|]. cbn [length seq combine]. destruct p as [|p]; [reflexivity|]. cbn [nth_error]. rewrite IH. destruct (nth_error l p); [|reflexivity]. do 2 f_equal. lia. }
    intros p. change 118 with (length periodic_table). apply G. }
  split.
  - intros H. apply In_nth_error in H. destruct H as [p H]. rewrite C in H. destruct (nth_error periodic_table p) as [s'|] eqn:E; [|discriminate]. injection H as -> <-. exists p. split; [|reflexivity].
    destruct (find_first String.eqb periodic_table s) as [q|] eqn:F.
    + f_equal. apply find_first_some in F; [|exact str_eqb]. pose proof (proj1 (NoDup_nth_error periodic_table) table_unique) as U. symmetry. apply U; [|congruence]. apply nth_error_Some. congruence.
    + apply find_first_none in F; [|exact str_eqb]. exfalso. apply F. eapply nth_error_In; eauto.
  - intros (p & F & ->). apply find_first_some in F; [|exact str_eqb]. apply (nth_error_In _ p). rewrite C, F. reflexivity.
Qed.
Lemma element_fun s z z' : element s z -> element s z' -> z = z'.
Proof. intros H H'. apply element_iff in H, H'. destruct H as (p & E & ->), H' as (p' & E' & ->). congruence. Qed.

(** one symbol: the species it is mapped to *)
Definition one (Zs : list nat) (s : string) : option nat :=
  p <- find_first String.eqb periodic_table s ;; find_first Nat.eqb Zs (p + 1).
Lemma one_some Zs s k : one Zs s = Some k -> exists z, element s z /\ nth_error Zs k = Some z.
Proof.
  unfold one. destruct (find_first String.eqb periodic_table s) as [p|] eqn:E; [|discriminate]. cbn [bind]. intros H. apply find_first_some in H; [|exact nat_eqb].
  exists (p + 1). split; [apply element_iff; eauto|exact H].
Qed.
Lemma one_none Zs s : one Zs s = None <-> ~ exists z, element s z /\ In z Zs.
Proof.
  unfold one. split.
  - intros H (z & Hz & Hi). apply element_iff in Hz. destruct Hz as (p & E & ->). rewrite E in H. cbn [bind] in H. apply find_first_none in H; [|exact nat_eqb]. contradiction.
  - intros H. destruct (find_first String.eqb periodic_table s) as [p|] eqn:E; [|reflexivity]. cbn [bind]. apply find_first_none; [exact nat_eqb|]. intros Hi. apply H. exists (p + 1). split; [apply element_iff; eauto|exact Hi].
Qed.
Fixpoint all_some {A} (l : list (option A)) : option (list A) :=
  match l with [] => Some [] | x :: l' => v <- x ;; vs <- all_some l' ;; Some (v :: vs) end.
Lemma coeff_all Zs arg : coeff_types Zs arg = all_some (map (one Zs) (skipn 3 arg)).
Proof.
  unfold coeff_types, for_range.
  assert (G : forall n k acc, k + n = length arg ->
    for_from n k (fun i mace_types => a <- rd arg i ;; p <- find_first String.eqb periodic_table a ;;
       mace_index <- find_first Nat.eqb Zs (p + 1) ;; Some (mace_types ++ [mace_index])) acc = (vs <- all_some (map (one Zs) (skipn k arg)) ;; Some (acc ++ vs))).
  { induction n as [|n IH]; intros k acc Hk.
    - rewrite (skipn_all2 arg) by lia. cbn. rewrite app_nil_r. reflexivity.
    - cbn [for_from]. assert (Hl : k < length arg) by lia. rewrite (rd_some arg k EmptyString Hl). cbn [bind].
      replace (skipn k arg) with (nth k arg EmptyString :: skipn (S k) arg) by (clear - Hl; revert k Hl; induction arg as [|a arg IH]; intros [|k] Hl; cbn in *; try lia; [reflexivity|apply IH; lia]).
      cbn [map all_some]. unfold one at 1. destruct (find_first String.eqb periodic_table (nth k arg EmptyString)) as [p|]; [|reflexivity]. cbn [bind].
      destruct (find_first Nat.eqb Zs (p + 1)) as [q|]; [|reflexivity]. cbn [bind]. rewrite IH by lia.
      destruct (all_some (map (one Zs) (skipn (S k) arg))); [|reflexivity]. cbn [bind]. rewrite <- app_assoc. reflexivity. }
  destruct (le_lt_dec 3 (length arg)) as [H|H].
  - rewrite G by lia. destruct (all_some _); reflexivity.
  - replace (length arg - 3) with 0 by lia. rewrite skipn_all2 by lia. reflexivity.
Qed.
Lemma all_some_some {A} (l : list (option A)) vs : all_some l = Some vs -> length vs = length l /\ forall t v, nth_error vs t = Some v -> nth_error l t = Some (Some v).
Proof.
  revert vs. induction l as [|x l IH]; intros vs H; cbn in H; [injection H as <-; split; [reflexivity|]; intros [|t] v Hv; discriminate|].
  destruct x as [v|]; [|discriminate]. cbn in H. destruct (all_some l) as [vs'|]; [|discriminate]. injection H as <-. destruct (IH vs' eq_refl) as [L V].
  split; [cbn; lia|]. intros [|t] w Hw; cbn in *; [congruence|]. apply V. exact Hw.
Qed.
Lemma all_some_none {A} (l : list (option A)) : all_some l = None <-> In None l.
Proof.
  induction l as [|x l IH]; cbn; [split; [discriminate|tauto]|]. destruct x as [v|]; cbn; [|tauto]. destruct (all_some l) as [vs|]; cbn; split; intros H; try discriminate.
  - destruct H as [H|H]; [discriminate|]. apply IH in H. discriminate.
  - right. apply IH. reflexivity.
  - reflexivity.
Qed.

Lemma skipn_nth {A} (l : list A) k t : nth_error (skipn k l) t = nth_error l (k + t).
Proof. revert k. induction l as [|a l IH]; intros [|k]; cbn; try reflexivity; [destruct t; reflexivity|apply IH]. Qed.

Lemma coeff_ok Zs arg types : coeff_types Zs arg = Some types -> length types = length arg - 3 /\
  forall t k, nth_error types t = Some k -> exists s z, nth_error arg (3 + t) = Some s /\ element s z /\ nth_error Zs k = Some z.
Proof.
  rewrite coeff_all. intros H. apply all_some_some in H. destruct H as [L V]. rewrite map_length, skipn_length in L. split; [exact L|].
  intros t k Ht. apply V in Ht. rewrite nth_error_map in Ht. rewrite skipn_nth in Ht. destruct (nth_error arg (3 + t)) as [s|] eqn:E; [|discriminate]. injection Ht as Ht.
  apply one_some in Ht. destruct Ht as (z & H1 & H2). exists s, z. auto.
Qed.
Lemma coeff_reject Zs arg : coeff_types Zs arg = None <-> exists s, In s (skipn 3 arg) /\ ~ exists z, element s z /\ In z Zs.
Proof.
  rewrite coeff_all, all_some_none, in_map_iff. split; intros (s & H1 & H2); exists s.
  - split; [exact H2|]. apply one_none. exact H1.
  - split; [apply one_none; exact H2|exact H1].
Qed.

(** the species that are evaluated *)
Section Used.
Context {N : Num}.
Lemma nd_used sph (m : mace_model N) rc types l owner fl b p a b1 p1 a1 : lmp_ok (length types) (ilist l) l -> owner_ok owner l ->
  compute_no_domain_decomposition sph m rc types fl l b p a = Some (b1, p1, a1) -> call sph m b (nd_input types rc owner l) = Some b1.
Proof.
  intros L O H. rewrite (nd_ok l rc types L owner O) in H. cbn zeta in H. destruct (call sph m b _) as [b'|]; [|discriminate]. cbn [bind] in H.
  destruct (tally _ _ _ _ _ _ _ _ _ _) as [a'|]; [|discriminate]. injection H as -> _ _. reflexivity.
Qed.
End Used.
Lemma spec_element {N : Num} Zs arg types (l : lmp N) i : coeff_types Zs arg = Some types -> lmp_ok (length types) (ilist l) l -> i < nlocal l + nghost l ->
  exists s z, nth_error arg (2 + nth i (atom_type l) 0) = Some s /\ element s z /\ nth_error Zs (spec_of types l i) = Some z.
Proof.
  intros C [_ L2 L3 _ _] Hi. destruct (coeff_ok _ _ _ C) as [_ V]. unfold spec_of. assert (T : In (nth i (atom_type l) 0) (atom_type l)) by (apply nth_In; lia).
  specialize (L3 _ T). set (t := nth i (atom_type l) 0) in *. destruct (V (t - 1) (nth (t - 1) types 0)) as (s & z & H1 & H2 & H3).
  - apply nth_error_nth'. lia.
  - exists s, z. replace (2 + t) with (3 + (t - 1)) by lia. auto.
Qed.

(** Kokkos *)
Lemma last_index Zs z : NoDup Zs -> forall n, n <= length Zs ->
  for_ n (fun j mi => v <- rd Zs j ;; Some (if v =? z then Z.of_nat j else mi)) (-1)%Z =
  Some (match find_first Nat.eqb (firstn n Zs) z with Some k => Z.of_nat k | None => (-1)%Z end).
Proof.
  intros ND n Hn. destruct (for_inv (fun n mi => mi = match find_first Nat.eqb (firstn n Zs) z with Some k => Z.of_nat k | None => (-1)%Z end)
     n (fun j mi => v <- rd Zs j ;; Some (if v =? z then Z.of_nat j else mi)) (-1)%Z) as (s' & E & ->); [reflexivity| |exact E].
  intros k mi Hk ->. rewrite (rd_some Zs k 0) by lia. cbn [bind]. eexists. split; [reflexivity|]. rewrite (firstn_S_nth Zs k (nth k Zs 0)) by (apply nth_error_nth'; lia).
  assert (G : forall a, find_first Nat.eqb (a ++ [nth k Zs 0]) z = match find_first Nat.eqb a z with Some q => Some q | None => if nth k Zs 0 =? z then Some (length a) else None end).
  { induction a as [|x a IH]; cbn; [destruct (nth k Zs 0 =? z); reflexivity|]. destruct (x =? z); [reflexivity|]. rewrite IH. destruct (find_first Nat.eqb a z); [reflexivity|]. destruct (nth k Zs 0 =? z); reflexivity. }
  rewrite G. destruct (Nat.eqb_spec (nth k Zs 0) z) as [E|E].
  - destruct (find_first Nat.eqb (firstn k Zs) z) as [q|] eqn:F; [|rewrite firstn_length, Nat.min_l by lia; reflexivity]. exfalso.
    apply find_first_some in F; [|exact nat_eqb]. assert (Q : q < k) by (assert (q < length (firstn k Zs)) by (apply nth_error_Some; congruence); rewrite firstn_length in *; lia).
    assert (F' : nth_error Zs q = Some z) by (rewrite <- F; rewrite <- (firstn_skipn k Zs) at 1; apply nth_error_app1; rewrite firstn_length; lia).
    pose proof (proj1 (NoDup_nth_error Zs) ND q k) as U. rewrite F', (nth_error_nth' Zs 0 (n:=k)), E in U by lia. specialize (U ltac:(lia) eq_refl). lia.
  - destruct (find_first Nat.eqb (firstn k Zs) z); reflexivity.
Qed.
Lemma for_shift {S} n c k (f : nat -> S -> option S) s : for_from n (c + k) f s = for_from n k (fun t => f (c + t)) s.
Proof. revert k s. induction n as [|n IH]; intros k s; [reflexivity|]. cbn [for_from]. destruct (f (c + k) s) as [s'|]; [|reflexivity]. cbn [bind]. rewrite <- IH. f_equal. lia. Qed.
Lemma coeff_kk_ok Zs arg types : NoDup Zs -> coeff_types Zs arg = Some types -> length types <= length Zs ->
  coeff_types_kk Zs arg = Some (map Z.of_nat types ++ repeat 0%Z (length Zs - length types)).
Proof.
  intros ND C HL. destruct (coeff_ok _ _ _ C) as [L _]. rewrite coeff_all in C. apply all_some_some in C. destruct C as [_ V].
  unfold coeff_types_kk.
  assert (G : forall n, n <= length types -> exists r, for_from n 3 (fun i mace_types => a <- rd arg i ;; p <- find_first String.eqb periodic_table a ;;
     mi <- for_ (length Zs) (fun j mi => v <- rd Zs j ;; Some (if v =? p + 1 then Z.of_nat j else mi)) (-1)%Z ;; wr mace_types (i - 3) mi) (repeat 0%Z (length Zs)) = Some r /\
     r = map Z.of_nat (firstn n types) ++ repeat 0%Z (length Zs - n)).
  { intros n Hn. 
    destruct (for_inv (fun n r => r = map Z.of_nat (firstn n types) ++ repeat 0%Z (length Zs - n)) n
      (fun t mace_types => a <- rd arg (3 + t) ;; p <- find_first String.eqb periodic_table a ;;
     mi <- for_ (length Zs) (fun j mi => v <- rd Zs j ;; Some (if v =? p + 1 then Z.of_nat j else mi)) (-1)%Z ;; wr mace_types (3 + t - 3) mi) (repeat 0%Z (length Zs))) as (r & E & ->).
    - rewrite Nat.sub_0_r. reflexivity.
    - intros t r Ht ->. specialize (V t (nth t types 0)). rewrite (nth_error_nth' types 0) in V by lia. specialize (V eq_refl). rewrite nth_error_map, skipn_nth in V. unfold rd at 1.
      destruct (nth_error arg (3 + t)) as [s|]; [|discriminate]. injection V as V. unfold one in V. cbn [bind]. destruct (find_first String.eqb periodic_table s) as [p|]; [|discriminate]. cbn [bind] in *.
      rewrite (last_index Zs (p + 1) ND) by lia. rewrite firstn_all, V. cbn [bind]. replace (3 + t - 3) with t by lia.
      rewrite wr_some by (rewrite app_length, map_length, repeat_length, firstn_length; lia). eexists. split; [reflexivity|].
      rewrite (firstn_S_nth types t (nth t types 0)) by (apply nth_error_nth'; lia). rewrite map_app. cbn [map]. replace (length Zs - t) with (S (length Zs - S t)) by lia. cbn [repeat].
      set (pre := map Z.of_nat (firstn t types)). assert (Hp : length pre = t) by (unfold pre; rewrite map_length, firstn_length; lia).
      rewrite <- app_assoc. cbn [app]. set (v := Z.of_nat (nth t types 0)). set (rest := repeat 0%Z (length Zs - S t)). clearbody v rest pre. subst t. clear. induction pre as [|x pre IH]; cbn; [reflexivity|f_equal; exact IH].
    - eexists. split; [|reflexivity]. rewrite <- E. apply (for_shift n 3 0). }
  destruct (G (length types) (le_n _)) as (r & E & ->). unfold for_range. rewrite <- L. rewrite E, firstn_all. reflexivity.
Qed.
