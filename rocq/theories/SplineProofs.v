(** Lemmas about the spline models. *)
From Coq Require Import List Arith ZArith Reals Lia Lra Bool.
From Verif Require Import Base BaseLemmas Segs Instances SplineModel.
Import ListNotations.

(** ** Coefficient tables, for every [Num] *)
Section Gen.
Context {N : Num}.
Local Open Scope num_scope.

Definition hco (h : N) (v d : nat -> N) (q i : nat) : N :=
  match q with
  | 0 => v i
  | 1 => d i
  | 2 => (nofZ (-3) * v i - nofZ 2 * h * d i + nofZ 3 * v (i+1)%nat - h * d (i+1)%nat) / (h * h)
  | _ => (nofZ 2 * v i + h * d i - nofZ 2 * v (i+1)%nat + h * d (i+1)%nat) / (h * h * h)
  end.

Definition vfun (l : list N) (i : nat) : N := nth i l nzero.

Definition hblock h (v d : nat -> N) (i : nat) : list N := map (fun q => hco h v d q i) (seq 0 4).

Lemma generate_coefficients_spec h vs ds :
  1 <= length vs -> length ds = length vs ->
  generate_coefficients h vs ds =
    Some (flat_map (hblock h (vfun vs) (vfun ds)) (seq 0 (length vs - 1))).
Proof.
  intros Hv Hd. unfold generate_coefficients.
  replace (length vs =? 0)%nat with false by (symmetry; apply Nat.eqb_neq; lia). cbn [negb].
  assert (H : swr 0 (4 * (length vs - 1)) (for_ (length vs - 1) (fun i c =>
      v0 <- rd vs i ;; c <- wr c (4*i) v0 ;;
      d0 <- rd ds i ;; c <- wr c (4*i+1) d0 ;;
      c0 <- rd c (4*i) ;; c1 <- rd c (4*i+1) ;;
      v1 <- rd vs (i+1) ;; d1 <- rd ds (i+1) ;;
      c <- wr c (4*i+2) ((nofZ (-3) * c0 - nofZ 2 * h * c1 + nofZ 3 * v1 - h * d1) / (h * h)) ;;
      wr c (4*i+3) ((nofZ 2 * c0 + h * c1 - nofZ 2 * v1 + h * d1) / (h * h * h))))
      (flat_map (hblock h (vfun vs) (vfun ds)) (seq 0 (length vs - 1)))).
  { apply swr_for_const with (sz := 4%nat); [|lia].
    intros i Hi. split; [reflexivity|]. intros pre seg post Hp Hs.
    destruct seg as [|s0 [|s1 [|s2 [|s3 [|]]]]]; simpl in Hs; try lia.
    rewrite (rd_some vs i nzero) by lia. cbn [bind].
    rewrite wr_some by (rewrite !app_length; simpl; lia). cbn [bind].
    rewrite (rd_some ds i nzero) by lia. cbn [bind].
    change (pre ++ [s0; s1; s2; s3] ++ post) with (pre ++ s0 :: s1 :: s2 :: s3 :: post).
    rewrite upd_app_mid by lia.
    rewrite wr_some by (rewrite !app_length; simpl; lia). cbn [bind].
    replace (4 * i + 1)%nat with (length pre + 1)%nat by lia. rewrite upd_app_r. cbn [upd].
    replace (4 * i)%nat with (length pre + 0)%nat by lia. rewrite !rd_app_r. cbn [rd nth_error bind].
    rewrite (rd_some vs (i+1) nzero), (rd_some ds (i+1) nzero) by lia. cbn [bind].
    replace (length pre + 0 + 2)%nat with (length pre + 2)%nat by lia.
    rewrite wr_some by (rewrite !app_length; simpl; lia). cbn [bind].
    rewrite upd_app_r. cbn [upd].
    replace (length pre + 0 + 3)%nat with (length pre + 3)%nat by lia.
    rewrite wr_some by (rewrite !app_length; simpl; lia). cbn [bind].
    rewrite upd_app_r. cbn [upd]. reflexivity. }
  apply (swr_all _ _ _ _ H). apply repeat_length.
Qed.

Lemma nth_error_hblocks h v d n i q :
  i < n -> q < 4 ->
  nth_error (flat_map (hblock h v d) (seq 0 n)) (4 * i + q) = Some (hco h v d q i).
Proof.
  intros Hi Hq. replace (4 * i + q)%nat with (i * 4 + q)%nat by lia.
  rewrite nth_error_flat_map_const with (c := 4%nat) (x := i); auto.
  - unfold hblock. rewrite nth_error_map.
    rewrite (nth_error_nth' _ 0%nat) by (rewrite seq_length; auto). rewrite seq_nth by auto. reflexivity.
  - rewrite (nth_error_nth' _ 0%nat) by (rewrite seq_length; auto). rewrite seq_nth by auto. reflexivity.
Qed.

Lemma length_hblocks h v d n : length (flat_map (hblock h v d) (seq 0 n)) = (4 * n)%nat.
Proof. rewrite length_flat_map_const with (c := 4%nat); auto. rewrite seq_length. lia. Qed.

Lemma rdZ_nat {A} (l : list A) n : rdZ l (Z.of_nat n) = rd l n.
Proof.
  unfold rdZ. destruct (Z.ltb_spec (Z.of_nat n) 0); [lia|]. rewrite Nat2Z.id. reflexivity.
Qed.

Definition pval (h : N) (v d : nat -> N) (i : nat) (x : N) : N :=
  hco h v d 0 i + hco h v d 1 i * x + hco h v d 2 i * (x * x) + hco h v d 3 i * (x * x * x).
Definition pder (h : N) (v d : nat -> N) (i : nat) (x : N) : N :=
  hco h v d 1 i + nofZ 2 * hco h v d 2 i * x + nofZ 3 * hco h v d 3 i * (x * x).

Definition spl (h : N) (vs ds : list N) : cubic_spline :=
  mkCS h (flat_map (hblock h (vfun vs) (vfun ds)) (seq 0 (length vs - 1))).

Lemma make_spline_spec h vs ds :
  1 <= length vs -> length ds = length vs -> make_spline h vs ds = Some (spl h vs ds).
Proof. intros. unfold make_spline. rewrite generate_coefficients_spec by auto. reflexivity. Qed.

Lemma length_spl_c4 h vs ds : (length (cs_c (spl h vs ds)) / 4)%nat = (length vs - 1)%nat.
Proof. cbn [spl cs_c]. rewrite length_hblocks. rewrite Nat.mul_comm. apply Nat.div_mul; lia. Qed.

Lemma cs_all_ok h vs ds r i :
  ntrunc (r / h) = Z.of_nat i -> i < length vs - 1 ->
  let x := r - h * nofnat i in
  cs_evaluate (spl h vs ds) r = Ret (pval h (vfun vs) (vfun ds) i x) /\
  cs_evaluate_deriv (spl h vs ds) r =
    Ret (pval h (vfun vs) (vfun ds) i x, pder h (vfun vs) (vfun ds) i x) /\
  cs_evaluate_deriv_divided (spl h vs ds) r =
    Ret (pval h (vfun vs) (vfun ds) i x, pder h (vfun vs) (vfun ds) i x / r).
Proof.
  intros Hi Hlt x. unfold cs_evaluate, cs_evaluate_deriv, cs_evaluate_deriv_divided.
  rewrite !length_spl_c4. cbn [spl cs_h cs_c]. rewrite Hi.
  replace (Z.of_nat i <? 0)%Z with false by (symmetry; apply Z.ltb_ge; lia).
  replace (Z.of_nat (length vs - 1) <=? Z.of_nat i)%Z with false by (symmetry; apply Z.leb_gt; lia).
  cbn [orb].
  replace (4 * Z.of_nat i)%Z with (Z.of_nat (4 * i + 0)) by lia.
  replace (Z.of_nat (4 * i + 0) + 1)%Z with (Z.of_nat (4 * i + 1)) by lia.
  replace (Z.of_nat (4 * i + 0) + 2)%Z with (Z.of_nat (4 * i + 2)) by lia.
  replace (Z.of_nat (4 * i + 0) + 3)%Z with (Z.of_nat (4 * i + 3)) by lia.
  rewrite !rdZ_nat. unfold rd. rewrite !nth_error_hblocks by lia. cbn [bind of_option].
  repeat split; reflexivity.
Qed.

Lemma cs_throws (h : N) vs ds (r : N) :
  (ntrunc (r / h)%num < 0 \/ Z.of_nat (length vs - 1) <= ntrunc (r / h)%num)%Z ->
  cs_evaluate (spl h vs ds) r = Throws /\
  cs_evaluate_deriv (spl h vs ds) r = Throws /\
  cs_evaluate_deriv_divided (spl h vs ds) r = Throws.
Proof.
  intros H. unfold cs_evaluate, cs_evaluate_deriv, cs_evaluate_deriv_divided.
  rewrite !length_spl_c4. cbn [spl cs_h].
  replace ((ntrunc (r / h)%num <? 0) || (Z.of_nat (length vs - 1) <=? ntrunc (r / h)%num))%Z%bool with true.
  - auto.
  - symmetry. apply orb_true_iff. rewrite Z.ltb_lt, Z.leb_le. lia.
Qed.

(** ** spline sets *)
Definition srow (l : list (list N)) (j i : nat) : N := nth i (nth j l []) nzero.

Definition hset h (vs ds : list (list N)) (i : nat) : list N :=
  flat_map (fun q => map (fun j => hco h (srow vs j) (srow ds j) q i) (seq 0 (length vs))) (seq 0 4).

Definition splset (h : N) (vs ds : list (list N)) (n : nat) : spline_set :=
  mkCSS (length vs) h n (flat_map (hset h vs ds) (seq 0 (n - 1))).

(** all rows have the same length *)
Definition rect (vs : list (list N)) (n : nat) : Prop := forall row, In row vs -> length row = n.

Lemma rect_rd vs n j : rect vs n -> j < length vs -> 
  rd vs j = Some (nth j vs []) /\ length (nth j vs []) = n.
Proof. intros H Hj. split; [apply rd_some; auto|]. apply H. apply nth_In; auto. Qed.

Definition set_part (h : N) vs ds (m i : nat) : nat -> N := fun p =>
  hco h (srow vs (p mod m)) (srow ds (p mod m)) (p / m) i.

Lemma hset_tab h vs ds i :
  hset h vs ds i = tab (4 * length vs) (set_part h vs ds (length vs) i).
Proof.
  unfold hset. destruct (Nat.eq_dec (length vs) 0) as [E|E].
  { rewrite E. reflexivity. }
  apply list_eq_nth with (d := nzero).
  - rewrite length_tab. rewrite length_flat_map_const with (c := length vs).
    + rewrite seq_length. reflexivity.
    + intros. rewrite map_length, seq_length. reflexivity.
  - intros p Hp. rewrite length_flat_map_const with (c := length vs) in Hp
      by (intros; rewrite map_length, seq_length; reflexivity).
    rewrite seq_length in Hp. rewrite nth_tab by auto.
    unfold set_part.
    pose proof (Nat.div_mod p (length vs) E) as Hdm.
    pose proof (Nat.mod_upper_bound p (length vs) E) as Hm.
    assert (Hq : p / length vs < 4) by (apply Nat.div_lt_upper_bound; lia).
    set (q := (p / length vs)%nat) in *. set (j := (p mod length vs)%nat) in *.
    apply nth_error_nth. replace p with (q * length vs + j)%nat by lia.
    rewrite nth_error_flat_map_const with (c := length vs) (x := q); auto.
    + rewrite nth_error_map, (nth_error_nth' _ 0%nat) by (rewrite seq_length; auto).
      rewrite seq_nth by auto. reflexivity.
    + intros; rewrite map_length, seq_length; reflexivity.
    + rewrite (nth_error_nth' _ 0%nat) by (rewrite seq_length; auto). rewrite seq_nth by auto. reflexivity.
Qed.

Lemma mod_at q m k : k < m -> (q * m + k) mod m = k.
Proof. intros H. rewrite Nat.add_comm, Nat.mod_add by lia. apply Nat.mod_small; auto. Qed.

Lemma set_part_at h vs ds m i q j : j < m -> set_part h vs ds m i (q * m + j) = 
  hco h (srow vs j) (srow ds j) q i.
Proof.
  intros H. unfold set_part. 
  rewrite Nat.add_comm, Nat.mod_add by lia. rewrite Nat.mod_small by auto.
  rewrite Nat.div_add by lia. rewrite Nat.div_small by auto. reflexivity.
Qed.

Lemma make_spline_set_spec h vs ds n :
  1 <= length vs -> length ds = length vs -> 1 <= n -> rect vs n -> rect ds n ->
  make_spline_set h vs ds = Some (splset h vs ds n).
Proof.
  intros Hm Hds Hn Hrv Hrd. unfold make_spline_set.
  destruct (rect_rd vs n 0 Hrv) as [-> Hl0]; [lia|]. cbn [bind]. rewrite Hl0.
  replace (n =? 0)%nat with false by (symmetry; apply Nat.eqb_neq; lia). cbn [negb].
  match goal with |- context [for_ (n-1) ?b] =>
    assert (H : swr 0 (4 * length vs * (n - 1)) (for_ (n - 1) b) (flat_map (hset h vs ds) (seq 0 (n-1)))) end.
  { apply swr_for_const with (sz := (4 * length vs)%nat); [|lia].
    intros i Hi. set (m := length vs) in *. split.
    - unfold hset. rewrite length_flat_map_const with (c := m).
      + rewrite seq_length; lia.
      + intros. rewrite map_length, seq_length. reflexivity.
    - intros pre seg post Hp Hs. rewrite hset_tab. fold m.
      rewrite (tab_nth seg nzero). rewrite Hs.
      apply (for_trace (fun k => pre ++ tab (4*m) (fun p =>
          if p mod m <? k then set_part h vs ds m i p else nth p seg nzero) ++ post)).
      + do 2 f_equal. 
      + do 2 f_equal. apply tab_ext. intros p Hp'.
        replace (p mod m <? m) with true; auto. symmetry. apply Nat.ltb_lt. apply Nat.mod_upper_bound. lia.
      + intros k Hk.
        destruct (rect_rd vs n k Hrv Hk) as [-> Hlv]. cbn [bind].
        destruct (rect_rd ds n k Hrd ltac:(lia)) as [-> Hld]. cbn [bind].
        rewrite (rd_some _ i nzero) by lia. cbn [bind].
        rewrite (wr_seg_tab _ _ _ _ (0 * m + k)) by lia. cbn [bind].
        rewrite (rd_some (nth k ds []) i nzero) by lia. cbn [bind].
        rewrite (wr_seg_tab _ _ _ _ (1 * m + k)) by lia. cbn [bind].
        rewrite (rd_some (nth k vs []) (i+1) nzero), (rd_some (nth k ds []) (i+1) nzero) by lia. cbn [bind].
        rewrite (wr_seg_tab _ _ _ _ (2 * m + k)) by lia. cbn [bind].
        rewrite (wr_seg_tab _ _ _ _ (3 * m + k)) by lia. cbn [bind].
        do 3 f_equal. apply tab_ext. intros p Hp'.
        destruct (Nat.eqb_spec p (3*m+k)) as [->|N3].
        { rewrite mod_at by auto.
          replace (k <? S k) with true by (symmetry; apply Nat.ltb_lt; lia).
          rewrite set_part_at by auto. reflexivity. }
        destruct (Nat.eqb_spec p (2*m+k)) as [->|N2].
        { rewrite mod_at by auto.
          replace (k <? S k) with true by (symmetry; apply Nat.ltb_lt; lia).
          rewrite set_part_at by auto. reflexivity. }
        destruct (Nat.eqb_spec p (1*m+k)) as [->|N1].
        { rewrite mod_at by auto.
          replace (k <? S k) with true by (symmetry; apply Nat.ltb_lt; lia).
          rewrite set_part_at by auto. reflexivity. }
        destruct (Nat.eqb_spec p (0*m+k)) as [->|N0].
        { rewrite mod_at by auto.
          replace (k <? S k) with true by (symmetry; apply Nat.ltb_lt; lia).
          rewrite set_part_at by auto. reflexivity. }
        assert (Hne : p mod m <> k).
        { intros E. pose proof (Nat.div_mod p m ltac:(lia)) as Hdm. rewrite E in Hdm.
          assert (p / m < 4) by (apply Nat.div_lt_upper_bound; lia).
          destruct (p / m)%nat as [|[|[|[|?]]]]; lia. }
        destruct (Nat.ltb_spec (p mod m) k), (Nat.ltb_spec (p mod m) (S k)); auto; lia. }
  rewrite (swr_all _ _ _ _ H) by apply repeat_length. reflexivity.
Qed.

Lemma rd_splset h vs ds n i q j :
  i < n - 1 -> q < 4 -> j < length vs ->
  rd (css_c (splset h vs ds n)) ((4 * i + q) * length vs + j) =
    Some (hco h (srow vs j) (srow ds j) q i).
Proof.
  intros Hi Hq Hj. cbn [splset css_c]. unfold rd.
  replace ((4 * i + q) * length vs + j)%nat with (i * (4 * length vs) + (q * length vs + j))%nat by lia.
  rewrite nth_error_flat_map_const with (c := (4 * length vs)%nat) (x := i).
  - rewrite hset_tab. change (nth_error ?l ?p) with (rd l p). rewrite rd_tab by nia.
    rewrite set_part_at by auto. reflexivity.
  - intros. rewrite hset_tab, length_tab. reflexivity.
  - rewrite (nth_error_nth' _ 0%nat) by (rewrite seq_length; auto). rewrite seq_nth by auto. reflexivity.
  - nia.
Qed.

(** value and derivative as computed by the set evaluator (order of operations of the code) *)
Definition sval (h : N) v d (i : nat) (x : N) : N :=
  hco h v d 0 i + x * hco h v d 1 i + x * x * hco h v d 2 i + x * x * x * hco h v d 3 i.
Definition sder (h : N) v d (i : nat) (x : N) : N :=
  hco h v d 1 i + nofZ 2 * x * hco h v d 2 i + nofZ 3 * (x * x) * hco h v d 3 i.

Lemma for_read_upd (g : nat -> N -> N) (cf : nat -> option N) (co : nat -> N) n f pre post :
  (forall j, j < n -> cf j = Some (co j)) ->
  forall (stmt : N -> list N -> nat -> option (list N)),
  (forall j a x, j < n -> rd a (length pre + j) = Some x ->
     stmt (co j) a (length pre + j)%nat = wr a (length pre + j) (g j x)) ->
  for_ n (fun j v => c <- cf j ;; stmt c v (length pre + j)%nat) (pre ++ tab n f ++ post)
  = Some (pre ++ tab n (fun j => g j (f j)) ++ post).
Proof.
  intros Hc stmt Hs. apply (for_elementwise g). intros j a x Hj Hr. rewrite (Hc j Hj). cbn [bind].
  apply Hs; auto.
Qed.

Lemma for_read_wr (cf : nat -> option N) (co : nat -> N) n f pre post :
  (forall j, j < n -> cf j = Some (co j)) ->
  for_ n (fun j v => c <- cf j ;; wr v (length pre + j) c) (pre ++ tab n f ++ post)
  = Some (pre ++ tab n co ++ post).
Proof.
  intros Hc. apply (for_elementwise (fun j _ => co j)). intros j a x Hj Hr.
  rewrite (Hc j Hj). reflexivity.
Qed.

Lemma for_read_add (cf : nat -> option N) (co : nat -> N) (w : N -> N) n f pre post :
  (forall j, j < n -> cf j = Some (co j)) ->
  for_ n (fun j v => c <- cf j ;; addto v (length pre + j) (w c)) (pre ++ tab n f ++ post)
  = Some (pre ++ tab n (fun j => f j + w (co j)) ++ post).
Proof.
  intros Hc. apply (for_elementwise (fun j x => x + w (co j))). intros j a x Hj Hr.
  rewrite (Hc j Hj). cbn [bind]. unfold addto. rewrite Hr. reflexivity.
Qed.

Lemma css_evaluate_ok h vs ds n r i vpre vseg vpost :
  ntrunc (r / h) = Z.of_nat i -> i < n - 1 -> length vseg = length vs ->
  let x := r - h * nofnat i in
  css_evaluate (splset h vs ds n) r (vpre ++ vseg ++ vpost) (length vpre) =
  Some (vpre ++ tab (length vs) (fun j => pval h (srow vs j) (srow ds j) i x) ++ vpost).
Proof.
  intros Hi Hlt Hl x. unfold css_evaluate.
  assert (Hc : forall q j, q < 4 -> j < length vs ->
     rdZ (css_c (splset h vs ds n)) (Z.of_nat ((4 * i + q) * length vs) + Z.of_nat j) =
       Some (hco h (srow vs j) (srow ds j) q i)).
  { intros q j Hq Hj. rewrite <- Nat2Z.inj_add, rdZ_nat. apply rd_splset; auto. }
  cbn [css_h css_num]. change (css_num (splset h vs ds n)) with (length vs).
  change (css_h (splset h vs ds n)) with h. rewrite Hi. fold (@nofnat N i).
  rewrite (tab_nth vseg nzero), Hl.
  replace (4 * Z.of_nat i * Z.of_nat (length vs))%Z with (Z.of_nat ((4 * i + 0) * length vs)) by lia.
  rewrite (for_read_wr _ (fun j => hco h (srow vs j) (srow ds j) 0 i)) by (intros; apply Hc; lia).
  cbn [bind].
  replace (Z.of_nat ((4 * i + 0) * length vs) + Z.of_nat (length vs))%Z
     with (Z.of_nat ((4 * i + 1) * length vs)) by lia.
  rewrite (for_read_add _ (fun j => hco h (srow vs j) (srow ds j) 1 i) (fun c => c * _)) by (intros; apply Hc; lia).
  cbn [bind].
  replace (Z.of_nat ((4 * i + 1) * length vs) + Z.of_nat (length vs))%Z
     with (Z.of_nat ((4 * i + 2) * length vs)) by lia.
  rewrite (for_read_add _ (fun j => hco h (srow vs j) (srow ds j) 2 i) (fun c => c * _)) by (intros; apply Hc; lia).
  cbn [bind].
  replace (Z.of_nat ((4 * i + 2) * length vs) + Z.of_nat (length vs))%Z
     with (Z.of_nat ((4 * i + 3) * length vs)) by lia.
  rewrite (for_read_add _ (fun j => hco h (srow vs j) (srow ds j) 3 i) (fun c => c * _)) by (intros; apply Hc; lia).
  reflexivity.
Qed.

Lemma css_evaluate_derivs_ok h vs ds n r i vpre vseg vpost dpre dseg dpost :
  ntrunc (r / h) = Z.of_nat i -> i < n - 1 ->
  length vseg = length vs -> length dseg = length vs ->
  let x := r - h * nofnat i in
  css_evaluate_derivs (splset h vs ds n) r (vpre ++ vseg ++ vpost) (length vpre)
     (dpre ++ dseg ++ dpost) (length dpre) =
  Some (vpre ++ tab (length vs) (fun j => sval h (srow vs j) (srow ds j) i x) ++ vpost,
        dpre ++ tab (length vs) (fun j => sder h (srow vs j) (srow ds j) i x) ++ dpost).
Proof.
  intros Hi Hlt Hl Hld x. unfold css_evaluate_derivs.
  assert (Hc : forall q j, q < 4 -> j < length vs ->
     rdZ (css_c (splset h vs ds n)) (Z.of_nat ((4 * i + q) * length vs) + Z.of_nat j) =
       Some (hco h (srow vs j) (srow ds j) q i)).
  { intros q j Hq Hj. rewrite <- Nat2Z.inj_add, rdZ_nat. apply rd_splset; auto. }
  change (css_num (splset h vs ds n)) with (length vs).
  change (css_h (splset h vs ds n)) with h. rewrite Hi. fold (@nofnat N i).
  rewrite (tab_nth vseg nzero), Hl. rewrite (tab_nth dseg nzero), Hld.
  replace (4 * Z.of_nat i * Z.of_nat (length vs))%Z with (Z.of_nat ((4 * i + 0) * length vs)) by lia.
  rewrite (for_read_wr _ (fun j => hco h (srow vs j) (srow ds j) 0 i)) by (intros; apply Hc; lia).
  cbn [bind].
  replace (Z.of_nat ((4 * i + 0) * length vs) + Z.of_nat (length vs))%Z
     with (Z.of_nat ((4 * i + 1) * length vs)) by lia.
  rewrite (for_read_add _ (fun j => hco h (srow vs j) (srow ds j) 1 i) (fun c => _ * c)) by (intros; apply Hc; lia).
  cbn [bind].
  replace (Z.of_nat ((4 * i + 1) * length vs) + Z.of_nat (length vs))%Z
     with (Z.of_nat ((4 * i + 2) * length vs)) by lia.
  rewrite (for_read_add _ (fun j => hco h (srow vs j) (srow ds j) 2 i) (fun c => _ * c)) by (intros; apply Hc; lia).
  cbn [bind].
  replace (Z.of_nat ((4 * i + 2) * length vs) + Z.of_nat (length vs))%Z
     with (Z.of_nat ((4 * i + 3) * length vs)) by lia.
  rewrite (for_read_add _ (fun j => hco h (srow vs j) (srow ds j) 3 i) (fun c => _ * c)) by (intros; apply Hc; lia).
  cbn [bind].
  replace ((4 * Z.of_nat i + 1) * Z.of_nat (length vs))%Z with (Z.of_nat ((4 * i + 1) * length vs)) by lia.
  rewrite (for_read_wr _ (fun j => hco h (srow vs j) (srow ds j) 1 i)) by (intros; apply Hc; lia).
  cbn [bind].
  replace (Z.of_nat ((4 * i + 1) * length vs) + Z.of_nat (length vs))%Z
     with (Z.of_nat ((4 * i + 2) * length vs)) by lia.
  rewrite (for_read_add _ (fun j => hco h (srow vs j) (srow ds j) 2 i) (fun c => _ * c)) by (intros; apply Hc; lia).
  cbn [bind].
  replace (Z.of_nat ((4 * i + 2) * length vs) + Z.of_nat (length vs))%Z
     with (Z.of_nat ((4 * i + 3) * length vs)) by lia.
  rewrite (for_read_add _ (fun j => hco h (srow vs j) (srow ds j) 3 i) (fun c => _ * c)) by (intros; apply Hc; lia).
  reflexivity.
Qed.

End Gen.
