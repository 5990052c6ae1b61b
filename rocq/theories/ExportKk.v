(** Files written by the exporter are read by the Kokkos loader.  Used in proofs only. *)
From Coq Require Import List Arith ZArith Lia Bool Permutation Sorted Reals Lra.
From Verif Require Import Base BaseLemmas Instances RSums RList MlpSpec MpSpec MaceModel MaceSpec MaceSpec2 ExportModel ExportSpec ExportProofs ExportPolyModel ExportPolySpec ExportPoly ExportPolyThms
  EnergySpec EnergyProofs ExportFullModel TorchSpec ExportFullPre ExportFullParts ExportFullCoupling ExportFullEnergy ExportFullThms.
From Verif Require Import KkSpec.
Import ListNotations.

Lemma inv_from {S} (I : S -> Prop) (body : nat -> S -> option S) : (forall k s s', I s -> body k s = Some s' -> I s') ->
  forall n i s s', for_from n i body s = Some s' -> I s -> I s'.
Proof.
  intros H. induction n as [|n IH]; intros i s s' E HI; cbn [for_from] in E; [injection E as <-; exact HI|].
  destruct (body i s) as [s1|] eqn:E1; [|discriminate]. exact (IH (Datatypes.S i) s1 s' E (H i s s1 HI E1)).
Qed.
Lemma inv_in {A S} (I : S -> Prop) (body : A -> S -> option S) : forall l, (forall x s s', In x l -> I s -> body x s = Some s' -> I s') ->
  forall s s', for_in l body s = Some s' -> I s -> I s'.
Proof.
  induction l as [|x l IH]; intros H s s' E HI; cbn [for_in] in E; [injection E as <-; exact HI|].
  destruct (body x s) as [s1|] eqn:E1; [|discriminate]. apply (IH (fun y s s' Hy => H y s s' (or_intror Hy)) s1 s' E). exact (H x s s1 (or_introl eq_refl) HI E1).
Qed.
Lemma wr_in {A} (a a' : list A) i v : wr a i v = Some a' -> forall x, In x a' -> x = v \/ In x a.
Proof.
  unfold wr. destruct (i <? length a); [|discriminate]. intros E x. injection E as <-. revert i. induction a as [|b a IH]; intros i H; [destruct H|].
  destruct i as [|i]; cbn [upd] in H; destruct H as [H|H]; [left; auto|right; right; exact H|right; left; exact H|]. destruct (IH i H) as [Hx|Hx]; [left; exact Hx|right; right; exact Hx].
Qed.
Lemma rd_in {A} (a : list A) i x : rd a i = Some x -> In x a.
Proof. apply nth_error_In. Qed.
Lemma product_len n : forall c t, In t (product n c) -> length t = c.
Proof.
  induction c as [|c IH]; intros t H; cbn [product] in H; [destruct H as [<-|[]]; reflexivity|].
  apply in_flat_map in H. destruct H as (i & _ & H). apply in_map_iff in H. destruct H as (t' & <- & H). cbn. f_equal. apply IH. exact H.
Qed.
Lemma sorted_len l : length (sorted l) = length l.
Proof. symmetry. apply Permutation_length, perm_sorted. Qed.

Section N.
Context {N : Num}.
Definition short (c : nat) (d : dict (N:=N)) : Prop := forall k, In k (map fst d) -> length k <= c.
Lemma dict_add_short c (d : dict (N:=N)) key v : short c d -> length key <= c -> short c (dict_add d key v).
Proof.
  intros H Hk. induction d as [|[k w] d IH]; cbn [dict_add].
  - intros k [<-|[]]. exact Hk.
  - destruct (key_eqb k key).
    + exact H.
    + intros k' [<-|Hk']; [apply H; left; reflexivity|]. apply IH; [intros q Hq; apply H; right; exact Hq|exact Hk'].
Qed.
Lemma U_short rows num_lm corr U (d : list (list (dict (N:=N)))) : U_sparse_corr rows num_lm corr U = Some d -> forall dm dme, In dm d -> In dme dm -> short corr dme.
Proof.
  unfold U_sparse_corr. destruct U as [num_eta Um]. set (body := fun m s => _). intros E.
  destruct (for_ rows body (repeat (repeat [] num_eta) rows, 0)) as [[d' j]|] eqn:Ef; [|discriminate]. cbn [bind] in E. injection E as <-.
  set (I := fun s : list (list (dict (N:=N))) * nat => forall dm dme, In dm (fst s) -> In dme dm -> short corr dme).
  change (I (d', j)). unfold for_ in Ef. refine (inv_from I body _ _ _ _ _ Ef _).
  - intros m s s' Hs. unfold body. refine (fun E => inv_in I _ _ _ s s' E Hs). clear s s' Hs E.
    intros lm s s' Hlm Hs E. unfold for_ in E. refine (inv_from I _ _ _ _ _ _ E Hs). clear s s' Hs E.
    intros eta [d0 j0] s' Hs E. destruct (rd Um j0) as [u|]; [|discriminate]. cbn [bind] in E.
    destruct (kept u).
    + destruct (rd d0 m) as [dm|] eqn:E1; [|discriminate]. cbn [bind] in E. destruct (rd dm eta) as [dme|] eqn:E2; [|discriminate]. cbn [bind] in E.
      destruct (wr dm eta _) as [dm'|] eqn:E3; [|discriminate]. cbn [bind] in E. destruct (wr d0 m dm') as [d1|] eqn:E4; [|discriminate]. cbn [bind] in E. injection E as <-.
      intros x y Hx Hy. cbn [fst] in Hx. destruct (wr_in _ _ _ _ E4 x Hx) as [->|Hx']; [|exact (Hs x y Hx' Hy)].
      destruct (wr_in _ _ _ _ E3 y Hy) as [->|Hy']; [|exact (Hs dm y (rd_in _ _ _ E1) Hy')].
      apply dict_add_short; [exact (Hs dm dme (rd_in _ _ _ E1) (rd_in _ _ _ E2))|]. rewrite sorted_len, (product_len _ _ _ Hlm). lia.
    + cbn [bind] in E. injection E as <-. exact Hs.
  - intros dm dme H1 H2. cbn [fst] in H1. apply repeat_spec in H1. subst dm. apply repeat_spec in H2. subst dme. intros k [].
Qed.
Lemma U_sparse_short rows num_lm c Um (U : list (list (list (dict (N:=N))))) : U_sparse rows num_lm c Um = Some U ->
  forall Uc dm dme, In Uc U -> In dm Uc -> In dme dm -> short c dme.
Proof.
  unfold U_sparse, for_range. replace (c + 1 - 1) with c by lia. intros E.
  assert (H : forall n i s s', for_from n i (fun corr U => Uc <- U_sparse_corr rows num_lm corr (Um corr) ;; Some (U ++ [Uc])) s = Some s' -> i + n <= c + 1 ->
     (forall Uc dm dme, In Uc s -> In dm Uc -> In dme dm -> short c dme) -> forall Uc dm dme, In Uc s' -> In dm Uc -> In dme dm -> short c dme).
  { clear E U. induction n as [|n IH]; intros i s s' E Hi Hs; cbn [for_from] in E; [injection E as <-; exact Hs|].
    destruct (U_sparse_corr rows num_lm i (Um i)) as [Uc|] eqn:E1; [|discriminate]. cbn [bind] in E. refine (IH (S i) _ _ E ltac:(lia) _).
    intros x dm dme Hx H1 H2. apply in_app_or in Hx. destruct Hx as [Hx|[<-|[]]]; [exact (Hs x dm dme Hx H1 H2)|].
    intros k Hk. pose proof (U_short _ _ _ _ _ E1 dm dme H1 H2 k Hk). lia. }
  refine (H c 1 _ _ E ltac:(lia) _). intros Uc dm dme [<-|[]] [].
Qed.
Lemma P_short c n U W row i k (P : dict (N:=N)) : (forall Uc dm dme, In Uc U -> In dm Uc -> In dme dm -> short c dme) -> P_lmk n U W row i k = Some P -> short c P.
Proof.
  intros HU E. unfold P_lmk, for_range in E. refine (inv_from (short c) _ _ _ _ _ _ E _); [|intros q []].
  clear E P. intros corr P P' HP E. destruct (rd U corr) as [Uc|] eqn:E1; [|discriminate]. cbn [bind] in E. destruct (rd Uc row) as [Um|] eqn:E2; [|discriminate]. cbn [bind] in E.
  unfold for_ in E. refine (inv_from (short c) _ _ _ _ _ _ E HP). clear E P P' HP. intros eta P P' HP E.
  destruct (rd Um eta) as [items|] eqn:E3; [|discriminate]. cbn [bind] in E. pose proof (HU Uc Um items (rd_in _ _ _ E1) (rd_in _ _ _ E2) (rd_in _ _ _ E3)) as Hit.
  refine (inv_in (short c) _ _ _ _ _ E HP). clear E P P' HP. intros [key value] P P' Hin HP E.
  destruct (rd W corr) as [Wc|]; [|discriminate]. cbn [bind] in E. destruct (rd Wc i) as [Wi|]; [|discriminate]. cbn [bind] in E.
  destruct (rd Wi eta) as [We|]; [|discriminate]. cbn [bind] in E. destruct (rd We k) as [w|]; [|discriminate]. cbn [bind] in E. injection E as <-.
  apply dict_add_short; [exact HP|]. apply Hit. apply in_map_iff. exists (key, value). split; [reflexivity|exact Hin].
Qed.
Lemma M0_short K l_max L_max c mn an (Um : nat -> nat -> nat * list N) Wt C M : export_M0 K l_max L_max c mn an Um Wt = Some (C, M) ->
  forall row mo, In row M -> In mo row -> length mo <= c.
Proof.
  unfold export_M0. set (I2 := fun M : list (list (list nat)) => forall row mo, In row M -> In mo row -> length mo <= c).
  intros E. change (I2 M). change M with (snd (C, M)). refine (inv_in (fun s => I2 (snd s)) _ _ _ _ _ E _).
  2:{ intros row mo H1 H2. cbn [snd] in H1. apply repeat_spec in H1. subst row. destruct H2. }
  clear E C M. intros a [C M] s' _ HM E. cbn [snd] in HM. destruct (py_index mn a) as [mi|]; [|discriminate]. cbn [bind] in E.
  match type of E with bind ?z _ = _ => destruct z as [[Ci M1]|] eqn:E1; [|discriminate] end. cbn [bind] in E. injection E as <-. cbn [snd].
  unfold for_ in E1. change M1 with (snd (Ci, M1)). refine (inv_from (fun s => I2 (snd s)) _ _ _ _ _ _ E1 HM). clear E1 Ci M1 C M HM.
  intros l [Ci M] s' HM E. cbn [snd] in HM. destruct (U_sparse (2 * l + 1) ((l_max + 1) * (l_max + 1)) c (Um l)) as [U|] eqn:EU; [|discriminate]. cbn [bind] in E.
  destruct (W_list (Wt l)) as [W|]; [|discriminate]. cbn [bind] in E. refine (inv_from (fun s => I2 (snd s)) _ _ _ _ _ _ E HM). clear E s' Ci M HM.
  intros row [Ci M] s' HM E. cbn [snd] in HM. match type of E with bind ?z _ = _ => destruct z as [[Clm M1]|] eqn:E1; [|discriminate] end. cbn [bind] in E. injection E as <-. cbn [snd].
  unfold for_ in E1. change M1 with (snd (Clm, M1)). refine (inv_from (fun s => I2 (snd s)) _ _ _ _ _ _ E1 HM). clear E1 Clm M1 Ci M HM.
  intros k [Clm M] s' HM E. cbn [snd] in HM. destruct (P_lmk c U W row mi k) as [P|] eqn:EP; [|discriminate]. cbn [bind] in E.
  destruct (wr M (l * l + row) (map fst P)) as [M'|] eqn:EW; [|discriminate]. cbn [bind] in E. injection E as <-. cbn [snd].
  intros r mo Hr Hmo. destruct (wr_in _ _ _ _ EW r Hr) as [->|Hr']; [|exact (HM r mo Hr' Hmo)].
  exact (P_short c _ _ _ _ _ _ _ (U_sparse_short _ _ _ _ _ EU) EP mo Hmo).
Qed.
Lemma M1_short K l_max mn an (Um : nat -> nat * list N) Wt C M : export_M1 K l_max mn an Um Wt = Some (C, M) -> forall mo, In mo M -> length mo <= 3.
Proof.
  unfold export_M1. set (I2 := fun M : list (list nat) => forall mo, In mo M -> length mo <= 3).
  intros E. destruct (U_sparse 1 ((l_max + 1) * (l_max + 1)) 3 Um) as [U|] eqn:EU; [|discriminate]. cbn [bind] in E. destruct (W_list Wt) as [W|]; [|discriminate]. cbn [bind] in E.
  change (I2 M). change M with (snd (C, M)). refine (inv_in (fun s => I2 (snd s)) _ _ _ _ _ E _); [|intros mo []].
  clear E C M. intros a [C M] s' _ HM E. cbn [snd] in HM. destruct (py_index mn a) as [mi|]; [|discriminate]. cbn [bind] in E.
  match type of E with bind ?z _ = _ => destruct z as [[Ci M1]|] eqn:E1; [|discriminate] end. cbn [bind] in E. injection E as <-. cbn [snd].
  unfold for_ in E1. change M1 with (snd (Ci, M1)). refine (inv_from (fun s => I2 (snd s)) _ _ _ _ _ _ E1 HM). clear E1 Ci M1 C M HM.
  intros k [Ci M] s' HM E. destruct (P_lmk 3 U W 0 mi k) as [P|] eqn:EP; [|discriminate]. cbn [bind] in E. injection E as <-. cbn [snd].
  intros mo Hmo. exact (P_short 3 _ _ _ _ _ _ _ (U_sparse_short _ _ _ _ _ EU) EP mo Hmo).
Qed.
End N.

(** the monomials of an exported file *)
Lemma extract_short {N : Num} rank inv spl (t : torch_model N) species points f : extract_mace_data rank inv spl t species points = Some f ->
  (forall lm mo, In mo (f_M0_monomials f lm) -> length mo <= t_correlation0 t) /\ (forall mo, In mo (f_M1_monomials f) -> length mo <= 3).
Proof.
  unfold extract_mace_data. destruct (t_interactions t) as [|b0 [|b1 [|]]]; try discriminate.
  destruct (negb (is_first b0)); [discriminate|]. destruct (negb (is_second b1)); [discriminate|]. destruct (negb (t_l_max t =? 3)); [discriminate|]. cbv zeta.
  set (an := export_numbers t species). intros E.
  destruct (export_energies t an) as [en|]; [|discriminate]. cbn [bind] in E.
  match type of E with bind ?z _ = _ => destruct z as [[[[[[hz ae] ap] cc] rr] pp]|]; [|discriminate] end. cbn [bind] in E.
  match type of E with bind ?z _ = _ => destruct z as [R0|]; [|discriminate] end. cbn [bind] in E.
  match type of E with bind ?z _ = _ => destruct z as [R1|]; [|discriminate] end. cbn [bind] in E.
  match type of E with bind ?z _ = _ => destruct z as [H0|]; [|discriminate] end. cbn [bind] in E.
  match type of E with bind ?z _ = _ => destruct z as [D0|]; [|discriminate] end. cbn [bind] in E.
  match type of E with bind ?z _ = _ => destruct z as [A0|]; [|discriminate] end. cbn [bind] in E.
  match type of E with bind ?z _ = _ => destruct z as [[C0 M0]|] eqn:E0; [|discriminate] end. cbn [bind] in E.
  match type of E with bind ?z _ = _ => destruct z as [H1|]; [|discriminate] end. cbn [bind] in E.
  match type of E with bind ?z _ = _ => destruct z as [cp|]; [|discriminate] end. cbn [bind] in E.
  match type of E with bind ?z _ = _ => destruct z as [D1|]; [|discriminate] end. cbn [bind] in E.
  match type of E with bind ?z _ = _ => destruct z as [A1|]; [|discriminate] end. cbn [bind] in E.
  match type of E with bind ?z _ = _ => destruct z as [[C1 M1]|] eqn:E1; [|discriminate] end. cbn [bind] in E.
  match type of E with bind ?z _ = _ => destruct z as [H2|]; [|discriminate] end. cbn [bind] in E.
  match type of E with bind ?z _ = _ => destruct z as [r1|]; [|discriminate] end. cbn [bind] in E.
  match type of E with bind ?z _ = _ => destruct z as [r2|]; [|discriminate] end. cbn [bind] in E.
  injection E as <-. cbn [f_M0_monomials f_M1_monomials snd]. split.
  - intros lm mo Hmo. destruct (nth_in_or_default lm M0 []) as [Hin|Hd]; [|rewrite Hd in Hmo; destruct Hmo]. exact (M0_short _ _ _ _ _ _ _ _ _ _ E0 _ mo Hin Hmo).
  - exact (M1_short _ _ _ _ _ _ _ _ E1).
Qed.
