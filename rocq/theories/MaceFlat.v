(** Every well-formed call is the flattening of a system of nodes and edges. *)
From Coq Require Import List Arith ZArith Lia Bool.
From Verif Require Import Base BaseLemmas Segs SplineModel SplineProofs MpModel MlpModel
  MaceModel Sys SysLoops MacePure MaceStages1 MaceSpec MaceLoad.
Import ListNotations.

Section Flat.
Context {N : Num}.

Definition flat (s : sys N) : input N :=
  mkInput (length s) (f_node_types s) (f_num_neigh s) (f_neigh_indices s) (f_neigh_types s) (f_xyz s) (f_r s).

Fixpoint unflat (ts nns : list nat) (E : list (edge N)) : sys N :=
  match ts, nns with
  | t :: ts, n :: nns => mkNode t (firstn n E) :: unflat ts nns (skipn n E)
  | _, _ => []
  end.

Lemma unflat_ok ts nns E : length ts = length nns -> length E = list_sum nns ->
  f_node_types (unflat ts nns E) = ts /\ f_num_neigh (unflat ts nns E) = nns /\ all_edges (unflat ts nns E) = E.
Proof.
  revert nns E; induction ts as [|t ts IH]; intros [|n nns] E H1 H2; simpl in *; try lia.
  - destruct E; [auto|simpl in H2; lia].
  - destruct (IH nns (skipn n E)) as (A & B & C); [lia|rewrite skipn_length; unfold list_sum in *; lia|].
    rewrite A, B, C. unfold list_sum in H2. rewrite firstn_length, Nat.min_l by lia. rewrite firstn_skipn. auto.
Qed.

Definition edges_of (x : input N) : list (edge N) :=
  map (fun q => mkEdge (nth q (i_neigh_types x) 0) (nth q (i_neigh_indices x) 0)
         (nth (3 * q) (i_xyz x) nzero) (nth (3 * q + 1) (i_xyz x) nzero) (nth (3 * q + 2) (i_xyz x) nzero)
         (nth q (i_r x) nzero)) (seq 0 (list_sum (i_num_neigh x))).
Definition sys_of (x : input N) : sys N := unflat (i_node_types x) (i_num_neigh x) (edges_of x).

Lemma flat_3 {A} (l : list A) n d : length l = 3 * n ->
  flat_map (fun q => [nth (3 * q) l d; nth (3 * q + 1) l d; nth (3 * q + 2) l d]) (seq 0 n) = l.
Proof.
  revert l; induction n as [|n IH]; intros l H; [destruct l; [auto|discriminate]|].
  destruct l as [|a [|b [|c l]]]; simpl in H; try lia.
  cbn [seq flat_map]. cbn [Nat.mul Nat.add nth app]. do 3 f_equal.
  etransitivity; [|apply (IH l); lia]. rewrite <- seq_shift, !flat_map_concat_map, map_map. f_equal. apply map_ext. intros q.
  replace (S q + (S q + (S q + 0))) with (S (S (S (3 * q)))) by lia.
  replace (S (S (S (3 * q))) + 1) with (S (S (S (3 * q + 1)))) by lia.
  replace (S (S (S (3 * q))) + 2) with (S (S (S (3 * q + 2)))) by lia. reflexivity.
Qed.

Lemma map_nth_seq {A} (l : list A) n d : length l = n -> map (fun q => nth q l d) (seq 0 n) = l.
Proof. intros <-. rewrite (map_seq_nth (fun x => x) l d), map_id. reflexivity. Qed.

Variable f : mace_file N.

Lemma flat_sys_of x : input_ok f x -> flat (sys_of x) = x.
Proof.
  intros II. destruct II as [io_types0 io_nn0 io_idx0 io_nt0 io_r0 io_xyz0 io_ty0 io_nty0 io_ix0 io_dom0]. unfold sys_of.
  destruct (unflat_ok (i_node_types x) (i_num_neigh x) (edges_of x)) as (A & B & C); try congruence.
  { unfold edges_of. rewrite map_length, seq_length. reflexivity. }
  unfold flat, f_neigh_indices, f_neigh_types, f_xyz, f_r. rewrite A, B, C.
  replace (length (unflat _ _ _)) with (i_num_nodes x).
  2:{ rewrite <- io_types0, <- A at 1. unfold f_node_types. rewrite map_length. reflexivity. }
  unfold edges_of. rewrite !map_map, flat_map_concat_map, map_map. cbn [e_type e_idx e_x e_y e_z e_r].
  rewrite <- flat_map_concat_map, flat_3 by auto. rewrite !map_nth_seq by auto. destruct x; reflexivity.
Qed.

Hypothesis F : file_ok f.

Lemma in_row0 (vals ders : list (list (list N))) c q : radial_ok (length (f_atomic_numbers f)) c vals ders -> 1 <= c -> q < length vals ->
  In (nth q vals []) vals /\ In (nth 0 (nth q vals []) []) (nth q vals []).
Proof.
  intros (H1 & H2 & H3) Hc Hq. destruct (H3 q Hq) as (kn & Hk & L1 & _).
  split; apply nth_In; lia.
Qed.

Lemma in_spl_ok h vs ds r : in_cells h (length vs) r -> in_spl (spl (N:=N) h vs ds) r.
Proof.
  intros [H1 H2]. unfold in_spl.
  destruct (cs_all_ok h vs ds r (Z.to_nat (ntrunc (ndiv r h)))) as (_ & E & _); [lia|lia|eauto].
Qed.

Lemma ld_sys_wf_gen s nH : (forall i, i < length s -> ty s i < length (f_atomic_numbers f)) ->
  (forall i e, i < length s -> In e (es s i) -> e_type e < length (f_atomic_numbers f) /\ e_idx e < nH /\ in_domain f (e_r e)) -> sys_wf (ldm f) s nH.
Proof.
  intros Ht HE. pose proof (fo_K _ F) as HK.
  assert (Hn : 1 <= length (f_Phi1_l f)).
  { pose proof (fo_l_all _ F 0 ltac:(lia)) as H0. destruct (f_Phi1_l f); [destruct H0|simpl; lia]. }
  assert (Hu : forall i e, i < length s -> In e (es s i) -> e_type e < length (f_atomic_numbers f)) by (intros i e Hi He; apply (HE i e Hi He)).
  assert (Hq : forall i e, i < length s -> In e (es s i) ->
     tyij (ldm f) (ty s i) (e_type e) < length (f_atomic_numbers f) * (length (f_atomic_numbers f) + 1) / 2).
  { intros i e Hi He. apply (tyij_lt (ldm f)); cbn; eauto. }
  assert (Hd : forall i e, i < length s -> In e (es s i) -> in_domain f (e_r e)).
  { intros i e Hi He. apply (HE i e Hi He). }
  constructor; cbn.
  - auto.
  - eauto.
  - intros i e Hi He. apply (HE i e Hi He).
  - intros i e Hi He. pose proof (Hq i e Hi He) as L. destruct (Hd i e Hi He) as (D & _).
    pose proof (fo_R0 _ F) as R. assert (L2 := proj1 R).
    unfold set0, in_set. cbn [m_spl_set_0 ldm]. set (q := tyij _ _ _) in *.
    rewrite nth_set by lia. cbn [splset css_h css_nodes].
    destruct (in_row0 _ _ _ q R) as [A B]; [nia|lia|]. apply (D _ _ A B).
  - intros i e Hi He. pose proof (Hq i e Hi He) as L. destruct (Hd i e Hi He) as (_ & D & _).
    pose proof (fo_R1 _ F) as R. assert (L2 := proj1 R).
    unfold set1, in_set. cbn [m_spl_set_1 ldm]. set (q := tyij _ _ _) in *.
    rewrite nth_set by lia. cbn [splset css_h css_nodes].
    destruct (in_row0 _ _ _ q R) as [A B]; [nia|lia|]. apply (D _ _ A B).
  - intros E i e Hi He. pose proof (Hq i e Hi He) as L. destruct (Hd i e Hi He) as (_ & _ & D & _).
    destruct (fo_A0s _ F E) as (L2 & _ & _).
    unfold spl0. cbn [m_A0_splines ldm]. rewrite E. set (q := tyij _ _ _) in *.
    rewrite nth_spls by lia. apply in_spl_ok. apply (D E). apply nth_In. lia.
  - intros E i e Hi He. pose proof (Hq i e Hi He) as L. destruct (Hd i e Hi He) as (_ & _ & _ & D).
    destruct (fo_A1s _ F E) as (L2 & _ & _).
    unfold spl1. cbn [m_A1_splines ldm]. rewrite E. set (q := tyij _ _ _) in *.
    rewrite nth_spls by lia. apply in_spl_ok. apply (D E). apply nth_In. lia.
Qed.
Lemma ld_sys_wf s : input_ok f (flat s) -> sys_wf (ldm f) s (length s).
Proof.
  intros II. destruct II as [io_types0 io_nn0 io_idx0 io_nt0 io_r0 io_xyz0 io_ty0 io_nty0 io_ix0 io_dom0]. cbn in *.
  assert (Hin : forall i e, i < length s -> In e (es s i) -> In e (all_edges s)).
  { intros i e Hi He. unfold all_edges. apply in_flat_map. exists (nd_ s i). split; [apply nth_In; auto|exact He]. }
  apply ld_sys_wf_gen.
  - intros i Hi. apply io_ty0. unfold f_node_types, ty. apply in_map. apply nth_In; auto.
  - intros i e Hi He. specialize (Hin i e Hi He). split; [apply io_nty0; unfold f_neigh_types; apply in_map; exact Hin|].
    split; [apply io_ix0; unfold f_neigh_indices; apply in_map; exact Hin|apply io_dom0; unfold f_r; apply in_map; exact Hin].
Qed.
End Flat.
