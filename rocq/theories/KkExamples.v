(** The model file of MaceExamples.v for the Kokkos evaluator, and a variant of it with a monomial of degree four. *)
From Coq Require Import List Arith ZArith QArith Reals Lia Lra Permutation.
From Verif Require Import Base BaseLemmas Instances SplineModel MpSpec MaceModel MaceSpec MaceSpec2 ExportSpec MaceExamples MaceLoad KkSem KkModel KkSpec GradExamples KkThms.
Import ListNotations.
Local Open Scope nat_scope.

Section Ex.
Context {N : Num}.
Lemma ex_kk_file_ok : kk_file_ok (ex_file (N:=N)).
Proof.
  constructor; cbn [ex_file f_num_channels f_l_max f_L_max f_atomic_numbers f_radial_spline_values_0 f_radial_spline_values_1
    f_A0_scaled f_A0_spline_values f_M0_monomials f_A1_scaled f_A1_spline_values f_M1_monomials]; try reflexivity.
  - intros v row Hv Hr. repeat (destruct Hv as [<-|Hv]; [repeat (destruct Hr as [<-|Hr]; [reflexivity|]); destruct Hr|]). destruct Hv.
  - intros v row Hv Hr. repeat (destruct Hv as [<-|Hv]; [repeat (destruct Hr as [<-|Hr]; [reflexivity|]); destruct Hr|]). destruct Hv.
  - intros _. split; [reflexivity|]. intros row Hr. repeat (destruct Hr as [<-|Hr]; [reflexivity|]). destruct Hr.
  - intros _. split; [reflexivity|]. intros row Hr. repeat (destruct Hr as [<-|Hr]; [reflexivity|]). destruct Hr.
  - intros lm _ mo H. repeat (destruct H as [<-|H]; [cbn; lia|]). destruct H.
  - intros mo H. repeat (destruct H as [<-|H]; [cbn; lia|]). destruct H.
Qed.

(** the product basis of the second layer contains x0 x1 x2 x3 *)
Definition ex_file4 : mace_file N :=
  mkFile 2 1 1 [1; 2] [nofZ (-3); nofZ 5]
    true (nlit 23 100) (nlit 22 25) (wts 3 4) [nlit 1 5; nlit 1 3; nlit 1 2] 6
    none
    (map (fun p => ex_V 0 (fst p) (snd p)) (upairs 2)) (map (fun p => ex_V 1 (fst p) (snd p)) (upairs 2))
    (map (fun p => ex_V1 2 (fst p) (snd p)) (upairs 2)) (map (fun p => ex_V1 3 (fst p) (snd p)) (upairs 2))
    (wts 1 4)
    [[wts 2 4; wts 3 4]; [wts 4 4; wts 1 4]]
    true none (map (fun p => ex_D 0 (fst p) (snd p)) (upairs 2)) (map (fun p => ex_D 1 (fst p) (snd p)) (upairs 2))
    (fun a lm k => wts (a + lm + k) 4) ex_monos
    (wts 2 8)
    [0; 0; 1; 1; 1] [0; 1; 0; 1; 1] [0; 1; 1; 0; 1]
    [0; 1; 2; 6; 10; 9] (wts 1 6) [0; 3; 10; 14; 24; 16]
    [wts 3 8; wts 1 12]
    true none (map (fun p => ex_D 2 (fst p) (snd p)) (upairs 2)) (map (fun p => ex_D 3 (fst p) (snd p)) (upairs 2))
    (fun a k => wts (a + 2 * k) 4) ([0; 1; 2; 3] :: tl (ex_monos 3))
    [wts 2 4; wts 1 4] (wts 3 4)
    (wts 1 2) (wts 2 32) (wts 1 16) none.

Lemma ex_file4_ok : file_ok ex_file4.
Proof.
  constructor; cbn [ex_file4 f_num_channels f_l_max f_L_max f_atomic_numbers f_atomic_energies f_has_zbl f_zbl_c f_zbl_covalent_radii
    f_radial_spline_values_0 f_radial_spline_derivs_0 f_radial_spline_values_1 f_radial_spline_derivs_1 f_H0_weights f_A0_weights
    f_A0_scaled f_A0_spline_values f_A0_spline_derivs f_M0_weights f_M0_monomials f_H1_weights f_Phi1_l f_Phi1_l1 f_Phi1_l2 f_Phi1_lme
    f_Phi1_clebsch_gordan f_Phi1_lelm1lm2 f_A1_weights f_A1_scaled f_A1_spline_values f_A1_spline_derivs f_M1_weights f_M1_monomials
    f_H2_weights_for_H1 f_H2_weights_for_M1 f_readout_1_weights f_readout_2_weights_1 f_readout_2_weights_2];
    try (vm_compute; lia); try (vm_compute; reflexivity).
  - intros _. split; [intros Z [<-|[<-|[]]]; vm_compute; lia|vm_compute; lia].
  - split; [vm_compute; lia|]. split; [reflexivity|]. intros q Hq. exists 4.
    assert (q < 3) as Hq' by exact Hq.
    destruct q as [|[|[|q]]]; [| | |lia]; (split; [lia|]); (split; [reflexivity|]); (split; [reflexivity|]);
      (split; intros row H; repeat (destruct H as [<-|H]; [reflexivity|]); destruct H).
  - split; [vm_compute; lia|]. split; [reflexivity|]. intros q Hq. exists 4.
    assert (q < 3) as Hq' by exact Hq.
    destruct q as [|[|[|q]]]; [| | |lia]; (split; [lia|]); (split; [reflexivity|]); (split; [reflexivity|]);
      (split; intros row H; repeat (destruct H as [<-|H]; [reflexivity|]); destruct H).
  - split; [vm_compute; lia|]. intros t Ht. cbn [length] in Ht. destruct t as [|[|t]]; [| |lia];
      (split; [vm_compute; lia|]); intros l Hl; destruct l as [|[|l]]; [| |lia| | |lia]; vm_compute; lia.
  - intros _. split; [vm_compute; lia|]. split; [reflexivity|]. intros q Hq. assert (q < 3) as Hq' by exact Hq.
    destruct q as [|[|[|q]]]; [| | |lia]; split; vm_compute; try lia; reflexivity.
  - intros a lm k Ha Hlm Hk. cbn in Ha, Hlm. split; [|reflexivity].
    destruct lm as [|[|[|[|lm]]]]; [| | | |lia]; repeat constructor; intro; discriminate.
  - intros q Hq. cbn [length] in Hq. destruct q as [|[|[|[|[|q]]]]]; vm_compute; lia.
  - intros q Hq. cbn [length] in Hq. destruct q as [|[|[|[|[|q]]]]]; vm_compute; lia.
  - intros p Hp. assert (p < 6) as Hp' by exact Hp. destruct p as [|[|[|[|[|[|p]]]]]]; [| | | | | |lia]; vm_compute; lia.
  - intros p Hp. assert (p < 6) as Hp' by exact Hp. destruct p as [|[|[|[|[|[|p]]]]]]; [| | | | | |lia]; vm_compute; lia.
  - split; [vm_compute; lia|]. intros l Hl. destruct l as [|[|l]]; [vm_compute; lia|vm_compute; lia|lia].
  - intros _. split; [vm_compute; lia|]. split; [reflexivity|]. intros q Hq. assert (q < 3) as Hq' by exact Hq.
    destruct q as [|[|[|q]]]; [| | |lia]; split; vm_compute; try lia; reflexivity.
  - intros a k Ha Hk. split; [|reflexivity]. repeat constructor; intro; discriminate.
  - split; [vm_compute; lia|]. intros t Ht. cbn [length] in Ht. destruct t as [|[|t]]; [| |lia]; vm_compute; lia.
Qed.


Lemma ex_file4_none : kk_load_from_json (N:=N) (fun l => l) ex_file4 = None.
Proof. vm_compute. reflexivity. Qed.

(** one isolated atom *)
Definition ex_one : input N := mkInput 1 [1] [0] [] [] [] [].
Lemma ex_one_ok : input_ok ex_file ex_one.
Proof. constructor; try reflexivity; intros t H; cbn in H; cbn; try lia; destruct H. Qed.
End Ex.

Lemma lemma_C56_refuted : exists (f : mace_file RNum) m b, file_ok f /\ load_from_json (fun l => l) f = Some (m, b) /\
  kk_load_from_json (fun l => l) f = None.
Proof.
  destruct (load_ok (N:=RNum) (fun l => l) (fun l => Permutation_refl l) ex_file4 ex_file4_ok) as (b & E & _).
  exists ex_file4, (ldm ex_file4), b. split; [exact ex_file4_ok|]. split; [exact E|exact ex_file4_none].
Qed.

Lemma lemma_C48_refuted : exists sph junk srt f hist x km mem, sph_ok (N:=RNum) sph /\ (forall l, Permutation l (srt l)) /\
  file_ok f /\ kk_file_ok f /\ Forall (input_ok f) hist /\ input_ok f x /\ kk_load_from_json srt f = Some km /\
  kk_calls sph junk km kk_fresh (hist ++ [x]) (Some mem) /\ length (kk_node_energies mem) <> i_num_nodes x.
Proof.
  assert (H1 : Forall (input_ok ex_file) [ex_y (N:=RNum) (1/2)%R]) by (constructor; [apply ex_y_ok, ex_in_R; lra|constructor]).
  destruct (lemma_C48 ex_sph (fun _ _ => 0%R) (fun l => l) (fun l => Permutation_refl l) ex_file ex_file_ok ex_kk_file_ok
    [ex_y (1/2)%R] ex_one H1 ex_one_ok) as (km & EL & (mem & E) & H).
  destruct (H mem E) as [HL _].
  exists ex_sph, (fun _ _ => 0%R), (fun l => l), ex_file, [ex_y (1/2)%R], ex_one, km, mem.
  repeat (split; [first [exact ex_sph_ok|intros; apply Permutation_refl|exact ex_file_ok|exact ex_kk_file_ok|exact H1|exact ex_one_ok|exact EL|exact E]|]).
  rewrite HL. cbn. lia.
Qed.
