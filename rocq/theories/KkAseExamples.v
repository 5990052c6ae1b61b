(** Structures for the examples beside the properties of the ASE calculator with the Kokkos evaluator. *)
From Coq Require Import List Arith ZArith Reals Lia Lra Permutation.
From Verif Require Import Base BaseLemmas Instances MaceModel MaceSpec MaceExamples GradExamples AseModel AseSpec AseExamples.
From Verif Require Import KkSem KkModel KkSpec KkExamples KkAseModel KkAseSpec KkAse.
Import ListNotations.
Local Open Scope R_scope.

(** the three atoms of AseExamples.v *)
Definition kx_three : structure := mkStructure ax_numbers (Some 2) ax_il ax_jl ax_r ax_D.
(** two atoms at distance 1/2 *)
Definition kx_two : structure := mkStructure [1; 2]%nat (Some 5) [0; 1]%nat [1; 0]%nat [1/2; 1/2] [1/2; 0; 0; -1/2; 0; 0].
(** a single atom: no pairs; and two atoms in a cell without volume *)
Definition kx_one : structure := mkStructure [2]%nat (Some 5) [] [] [] [].
Definition kx_flat : structure := mkStructure [1; 2]%nat None [0; 1]%nat [1; 0]%nat [1/2; 1/2] [1/2; 0; 0; -1/2; 0; 0].

Lemma kx_three_ok : structure_ok ex_file kx_three.
Proof.
  exists ax_types. split; [exact ax_species|]. split; [exact ax_nl|]. intros _.
  pose proof ax_with_ok as H. rewrite ax_with in H. exact H.
Qed.
Lemma two_ok V : structure_ok ex_file (mkStructure [1; 2]%nat V [0; 1]%nat [1; 0]%nat [1/2; 1/2] [1/2; 0; 0; -1/2; 0; 0]).
Proof.
  exists [0; 1]%nat. split.
  - split; [reflexivity|]. intros a Z t H1 H2. cbn [s_numbers] in H1.
    destruct a as [|[|a]]; [| |destruct a; discriminate H1]; injection H1 as <-; injection H2 as <-; split; try reflexivity; intros t' Ht'.
    + lia.
    + replace t' with 0%nat by lia. discriminate.
  - split.
    + constructor; cbn [s_il s_jl s_numbers].
      * reflexivity.
      * intros i H. cbn in H. cbn. lia.
      * repeat constructor; lia.
      * intros a. destruct a as [|[|a]]; reflexivity.
    + intros _. constructor; try reflexivity; intros t H; cbn in H; cbn; try lia.
      apply ex_domain. apply ex_in_R. intuition (subst; lra).
Qed.
Lemma kx_two_ok : structure_ok ex_file kx_two.
Proof. apply two_ok. Qed.
Lemma kx_flat_ok : structure_ok ex_file kx_flat.
Proof. apply two_ok. Qed.
Lemma kx_one_ok : structure_ok ex_file kx_one.
Proof.
  exists [1]%nat. split; [split; [reflexivity|]|split; [|intros H; destruct H; reflexivity]].
  - intros a Z t H1 H2. destruct a as [|a]; [|destruct a; discriminate H1]. injection H1 as <-. injection H2 as <-. split; [reflexivity|].
    intros t' Ht'. replace t' with 0%nat by lia. discriminate.
  - constructor; [reflexivity|intros i []|constructor|reflexivity].
Qed.
Definition kx_hist : list structure := [kx_flat; kx_three; kx_one].
Lemma kx_hist_ok : Forall (structure_ok ex_file) kx_hist.
Proof. repeat constructor; [exact kx_flat_ok|exact kx_three_ok|exact kx_one_ok]. Qed.

Lemma lemma_C48_ase_refuted : exists sph junk srt f hist a km mem res, sph_ok (N:=RNum) sph /\ (forall l, Permutation l (srt l)) /\
  file_ok f /\ kk_file_ok f /\ Forall (structure_ok f) hist /\ structure_ok f a /\ kk_load_from_json srt f = Some km /\
  kk_session sph junk km kk_fresh hist a (Some (mem, Some res)) /\ length (res_energies res) <> length (s_numbers a).
Proof.
  destruct (lemma_C57 ex_sph ex_sph_ok (fun _ _ => 0) (fun l => l) (fun l => Permutation_refl l) ex_file ex_file_ok ex_kk_file_ok
    [kx_three] kx_two 5 [] (Forall_cons _ kx_three_ok (Forall_nil _)) kx_two_ok ltac:(discriminate) eq_refl (Forall_nil _))
    as (km & m & b0 & bc & b1 & res & E1 & _ & _ & _ & (o & Ho) & H).
  destruct (H o Ho) as (mem & kres & -> & _ & _ & _ & L & E).
  exists ex_sph, (fun _ _ => 0), (fun l => l), ex_file, [kx_three], kx_two, km, mem, kres.
  split; [exact ex_sph_ok|]. split; [intros; apply Permutation_refl|]. split; [exact ex_file_ok|]. split; [exact ex_kk_file_ok|].
  split; [exact (Forall_cons _ kx_three_ok (Forall_nil _))|]. split; [exact kx_two_ok|]. split; [exact E1|]. split; [exact Ho|].
  rewrite E, app_length, L, repeat_length. cbn. discriminate.
Qed.
