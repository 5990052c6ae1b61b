(** Sums over the nodes and edges of several processes are sums over the nodes and edges of the serial system. *)
From Coq Require Import List Arith ZArith Lia Bool Reals Lra Permutation.
From Verif Require Import Base BaseLemmas Segs Instances BlasLemmas RSums RList MpModel MlpModel MaceModel
  Sys SysLoops MaceGrid MacePure MaceStages1 MaceStages4 MaceStages6 MaceStages7 MaceStages8 MacePipe MaceHsrc MaceInert DistPipe DistAlg.
Import ListNotations.
Local Open Scope R_scope.

Lemma rl_if_const {A} (l : list A) (b : bool) g : rl l (fun x => if b then g x else 0) = if b then rl l g else 0.
Proof. destruct b; [reflexivity|]. apply rl_0. reflexivity. Qed.
Lemma rl_pick n k g : (k < n)%nat -> rl (seq 0 n) (fun j => if (k =? j)%nat then g j else 0) = g k.
Proof. intros H. rewrite rl_seq. apply rl_select. exact H. Qed.
Lemma rl_pick' n k g : (k < n)%nat -> rl (seq 0 n) (fun j => if (j =? k)%nat then g j else 0) = g k.
Proof. intros H. rewrite <- (rl_pick n k g H). apply rl_ext. intros j _. rewrite Nat.eqb_sym. reflexivity. Qed.
Lemma rl_cut n m g : (n <= m)%nat -> rl (seq 0 m) (fun j => if (j <? n)%nat then g j else 0) = rl (seq 0 n) g.
Proof.
  intros H. replace m with (n + (m - n))%nat by lia. rewrite seq_app, rl_app. rewrite (rl_0 (seq (0 + n) (m - n))).
  - rewrite Rplus_0_r. apply rl_ext. intros j Hj. apply in_seq in Hj. destruct (Nat.ltb_spec j n); [reflexivity|lia].
  - intros j Hj. apply in_seq in Hj. destruct (Nat.ltb_spec j n); [lia|reflexivity].
Qed.

Section Sum.
Variable sph : nat -> RNum -> RNum -> RNum -> list RNum * list RNum.
Variable m : mace_model RNum.
Hypothesis W : mace_wf m.
Variables (P0 P1 : nat -> @mpoly RNum).
Variable fg : list RNum -> nat -> RNum.
Variable S : sys RNum.
Notation K := (m_num_channels m).
Notation LMs := (num_LM m).
Notation G := (length S).
Variable P : nat.
Variable ss : nat -> sys RNum.
Variables phi psi : nat -> nat -> nat.
Hypothesis Hlt : forall r i, (r < P)%nat -> (i < length (ss r))%nat -> (phi r i < G)%nat.
Hypothesis Hty : forall r i, (r < P)%nat -> (i < length (ss r))%nat -> ty (ss r) i = ty S (phi r i).
Hypothesis Hes : forall r i, (r < P)%nat -> (i < length (ss r))%nat -> Permutation (map (re (psi r)) (es (ss r) i)) (es S (phi r i)).
Hypothesis Hpart : Permutation (flat_map (fun r => map (phi r) (seq 0 (length (ss r)))) (seq 0 P)) (seq 0 G).

Lemma ranks_nodes g : rl (seq 0 G) g = rl (seq 0 P) (fun r => rl (seq 0 (length (ss r))) (fun i => g (phi r i))).
Proof. rewrite <- (rl_perm _ _ g Hpart), rl_flat_map. apply rl_ext. intros r _. apply rl_map. Qed.
Lemma rl_epairs (s : sys RNum) g : rl (epairs s) g = rl (seq 0 (length s)) (fun i => rl (es s i) (fun e => g (i, e))).
Proof. unfold epairs. rewrite rl_flat_map. apply rl_ext. intros. apply rl_map. Qed.
Lemma ranks_sum g : rl (epairs S) g = rl (seq 0 P) (fun r => rl (epairs (ss r)) (fun p => g (phi r (fst p), re (psi r) (snd p)))).
Proof.
  rewrite rl_epairs, ranks_nodes. apply rl_ext. intros r Hr. apply in_seq in Hr. rewrite rl_epairs. apply rl_ext. intros i Hi. apply in_seq in Hi.
  rewrite <- (rl_perm _ _ _ (Hes r i ltac:(lia) ltac:(lia))), rl_map. reflexivity.
Qed.

Variable nH : nat -> nat.
Variable H : nat -> nat -> nat -> nat -> RNum.
Hypothesis Hpsi : forall r i, (r < P)%nat -> (i < length (ss r))%nat -> psi r i = phi r i.
Hypothesis HnH : forall r, (r < P)%nat -> (length (ss r) <= nH r)%nat.
Hypothesis Hix : forall r i e, (r < P)%nat -> (i < length (ss r))%nat -> In e (es (ss r) i) -> (e_idx e < nH r)%nat.
Hypothesis HH : forall r i e L k, (r < P)%nat -> (i < length (ss r))%nat -> In e (es (ss r) i) -> (L < LMs)%nat -> (k < K)%nat ->
  H r (e_idx e) L k = pH1 sph m P0 S (psi r (e_idx e)) L k.
Hypothesis HH0 : forall r i k, (r < P)%nat -> (i < length (ss r))%nat -> (k < K)%nat -> H r i 0%nat k = pH1 sph m P0 S (phi r i) 0%nat k.
Hypothesis HixS : forall i e, (i < G)%nat -> In e (es S i) -> (e_idx e < G)%nat.

(** the adjoints that the processes find for the atom behind [g] add up *)
Lemma adjoint_sum g L k : (g < G)%nat -> (L < LMs)%nat -> (k < K)%nat ->
  rl (seq 0 P) (fun r => rl (seq 0 (nH r)) (fun j => if (psi r j =? g)%nat
     then at_ (N:=RNum) (gH1l sph m P1 fg (ss r) (H r) (nH r)) (j * (LMs * K) + (L * K + k)) else 0)) = qH1 sph m P0 P1 fg S g L k.
Proof.
  intros Hg HL Hk. rewrite (qH1_sum sph m W P0 P1 fg S HixS g L k Hg HL Hk).
  transitivity (rl (seq 0 P) (fun r => rl (seq 0 (length (ss r))) (fun j => if (phi r j =? g)%nat then qH1a sph m P0 P1 fg S (phi r j) L k else 0)) +
    rl (seq 0 P) (fun r => rl (epairs (ss r)) (fun p => if (psi r (e_idx (snd p)) =? g)%nat then hsum sph m P0 P1 fg S L k (phi r (fst p), re (psi r) (snd p)) else 0))).
  - rewrite <- rl_plus. apply rl_ext. intros r Hr. apply in_seq in Hr. assert (Hr' : (r < P)%nat) by lia.
    rewrite <- (rl_cut (length (ss r)) (nH r)) by auto.
    rewrite (rl_ext (epairs (ss r)) _ (fun p => rl (seq 0 (nH r)) (fun j => if (e_idx (snd p) =? j)%nat
      then (if (psi r j =? g)%nat then hsum sph m P0 P1 fg S L k (phi r (fst p), re (psi r) (snd p)) else 0) else 0))).
    2:{ intros [i e] Hp. apply in_epairs in Hp. destruct Hp as [Hi He]. cbn [fst snd]. symmetry.
        apply (rl_pick (nH r) (e_idx e) (fun j => if (psi r j =? g)%nat then hsum sph m P0 P1 fg S L k (phi r i, re (psi r) e) else 0)). eapply Hix; eauto. }
    rewrite <- (rl_swap (seq 0 (nH r))), <- rl_plus. apply rl_ext. intros j Hj. apply in_seq in Hj.
    rewrite (rl_ext (epairs (ss r)) _ (fun p => if (psi r j =? g)%nat then (if (e_idx (snd p) =? j)%nat then hsum sph m P0 P1 fg S L k (phi r (fst p), re (psi r) (snd p)) else 0) else 0))
      by (intros p _; destruct (psi r j =? g)%nat, (e_idx (snd p) =? j)%nat; reflexivity).
    rewrite rl_if_const. destruct (Nat.ltb_spec j (length (ss r))) as [Hl|Hl].
    + rewrite <- (Hpsi r j Hr' Hl). destruct (psi r j =? g)%nat; [|ring].
      rewrite (gH1l_1 sph m W P0 P1 fg S (ss r) (phi r) (psi r)) by (intros; eauto; lia). destruct (Nat.ltb_spec j (length (ss r))); [|lia]. rewrite <- Hpsi by lia. reflexivity.
    + destruct (psi r j =? g)%nat; [|ring]. 
      rewrite (gH1l_1 sph m W P0 P1 fg S (ss r) (phi r) (psi r)) by (intros; eauto; lia). destruct (Nat.ltb_spec j (length (ss r))); [lia|]. reflexivity.
  - f_equal.
    + rewrite <- (ranks_nodes (fun g' => if (g' =? g)%nat then qH1a sph m P0 P1 fg S g' L k else 0)). apply (rl_pick' G g (fun g' => qH1a sph m P0 P1 fg S g' L k)). exact Hg.
    + rewrite ranks_sum. reflexivity.
Qed.
End Sum.
