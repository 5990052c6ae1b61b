(** A small model file and small systems, used in the examples beside the property theorems.
    Two species, two channels, l_max = L_max = 1, density scaling and ZBL switched on; five coupling paths.
    The radial tables have four knots at spacing 1 and vanish from 2 on. *)
From Coq Require Import List Arith ZArith QArith Lia Permutation.
From Verif Require Import Base BaseLemmas Instances SplineModel MpSpec MaceModel MaceSpec MaceSpec2 ExportSpec.
Import ListNotations.
Local Open Scope nat_scope.

Section Ex.
Context {N : Num}.

(** spherical harmonics of degree 0 and 1 as polynomials, padded with zeros *)
Definition ex_sph (l : nat) (x y z : N) : list N * list N :=
  let n := (l + 1) * (l + 1) in
  let one : N := none in let o : N := nzero in
  (firstn n ([one; y; z; x] ++ repeat o n),
   firstn n ([o; o; o; one] ++ repeat o n) ++ firstn n ([o; one; o; o] ++ repeat o n)
     ++ firstn n ([o; o; one; o] ++ repeat o n)).

Lemma ex_sph_ok : sph_ok ex_sph.
Proof.
  intros l x y z. unfold ex_sph. cbn [fst snd]. set (n := (l + 1) * (l + 1)).
  rewrite !app_length, !firstn_length, !app_length, !repeat_length. cbn [length]. lia.
Qed.

(** [c] pseudo-random small integers *)
Definition wts (s c : nat) : list N := map (fun i => nofZ (Z.of_nat ((i * i + s * i + s) mod 5) - 2)) (seq 0 c).
Definition tbl (s c : nat) : list (list N) :=
  map (fun i => [nofZ (Z.of_nat ((i + s) mod 3)); nofZ (Z.of_nat ((i * i + s) mod 4) - 1); nzero; nzero]) (seq 0 c).

Definition ex_monos (lm : nat) : list (list nat) := [[0]; [lm; 1]; [0; lm]; [2; 3; lm]].

Definition ex_V (s : nat) (t u : nat) : list (list N) := tbl (s + 2 * t + 3 * u) 4.
Definition ex_V1 (s : nat) (t u : nat) : list (list N) := tbl (s + 2 * t + 3 * u) 10.
Definition ex_D (s : nat) (t u : nat) : list N := nth 0 (tbl (s + t + 5 * u) 1) [].

Definition ex_file : mace_file N :=
  mkFile 2 1 1 [1; 2] [nofZ (-3); nofZ 5]
    true (nlit 23 100) (nlit 22 25) (wts 3 4) [nlit 1 5; nlit 1 3; nlit 1 2] 6
    none
    (map (fun p => ex_V 0 (fst p) (snd p)) (upairs 2)) (map (fun p => ex_V 1 (fst p) (snd p)) (upairs 2))
    (map (fun p => ex_V1 2 (fst p) (snd p)) (upairs 2)) (map (fun p => ex_V1 3 (fst p) (snd p)) (upairs 2))
    (wts 1 4)
    [[wts 2 4; wts 3 4]; [wts 4 4; wts 1 4]]
    true none (map (fun p => ex_D 0 (fst p) (snd p)) (upairs 2)) (map (fun p => ex_D 1 (fst p) (snd p)) (upairs 2))
    (fun a lm k => wts (a + lm + k) 4) ex_monos
    (wts 2 8)
    [0; 0; 1; 1; 1] [0; 1; 0; 1; 1] [0; 1; 1; 0; 1]
    [0; 1; 2; 6; 10; 9] (wts 1 6) [0; 3; 10; 14; 24; 16]
    [wts 3 8; wts 1 12]
    true none (map (fun p => ex_D 2 (fst p) (snd p)) (upairs 2)) (map (fun p => ex_D 3 (fst p) (snd p)) (upairs 2))
    (fun a k => wts (a + 2 * k) 4) (ex_monos 3)
    [wts 2 4; wts 1 4] (wts 3 4)
    (wts 1 2) (wts 2 32) (wts 1 16) none.

Lemma ex_file_ok : file_ok ex_file.
Proof.
  constructor; cbn [ex_file f_num_channels f_l_max f_L_max f_atomic_numbers f_atomic_energies f_has_zbl f_zbl_c f_zbl_covalent_radii
    f_radial_spline_values_0 f_radial_spline_derivs_0 f_radial_spline_values_1 f_radial_spline_derivs_1 f_H0_weights f_A0_weights
    f_A0_scaled f_A0_spline_values f_A0_spline_derivs f_M0_weights f_M0_monomials f_H1_weights f_Phi1_l f_Phi1_l1 f_Phi1_l2 f_Phi1_lme
    f_Phi1_clebsch_gordan f_Phi1_lelm1lm2 f_A1_weights f_A1_scaled f_A1_spline_values f_A1_spline_derivs f_M1_weights f_M1_monomials
    f_H2_weights_for_H1 f_H2_weights_for_M1 f_readout_1_weights f_readout_2_weights_1 f_readout_2_weights_2];
    try (vm_compute; lia); try (vm_compute; reflexivity).
  - intros _. split; [intros Z [<-|[<-|[]]]; vm_compute; lia|vm_compute; lia].
  - split; [vm_compute; lia|]. split; [reflexivity|]. intros q Hq. exists 4.
    assert (q < 3) as Hq' by exact Hq.
    destruct q as [|[|[|q]]]; [| | |lia]; (split; [lia|]); (split; [reflexivity|]); (split; [reflexivity|]);
      (split; intros row H; repeat (destruct H as [<-|H]; [reflexivity|]); destruct H).
  - split; [vm_compute; lia|]. split; [reflexivity|]. intros q Hq. exists 4.
    assert (q < 3) as Hq' by exact Hq.
    destruct q as [|[|[|q]]]; [| | |lia]; (split; [lia|]); (split; [reflexivity|]); (split; [reflexivity|]);
      (split; intros row H; repeat (destruct H as [<-|H]; [reflexivity|]); destruct H).
  - split; [vm_compute; lia|]. intros t Ht. cbn [length] in Ht. destruct t as [|[|t]]; [| |lia];
      (split; [vm_compute; lia|]); intros l Hl; destruct l as [|[|l]]; [| |lia| | |lia]; vm_compute; lia.
  - intros _. split; [vm_compute; lia|]. split; [reflexivity|]. intros q Hq. assert (q < 3) as Hq' by exact Hq.
    destruct q as [|[|[|q]]]; [| | |lia]; split; vm_compute; try lia; reflexivity.
  - intros a lm k Ha Hlm Hk. cbn in Ha, Hlm. split; [|reflexivity].
    destruct lm as [|[|[|[|lm]]]]; [| | | |lia]; repeat constructor; intro; discriminate.
  - intros q Hq. cbn [length] in Hq. destruct q as [|[|[|[|[|q]]]]]; vm_compute; lia.
  - intros q Hq. cbn [length] in Hq. destruct q as [|[|[|[|[|q]]]]]; vm_compute; lia.
  - intros p Hp. assert (p < 6) as Hp' by exact Hp. destruct p as [|[|[|[|[|[|p]]]]]]; [| | | | | |lia]; vm_compute; lia.
  - intros p Hp. assert (p < 6) as Hp' by exact Hp. destruct p as [|[|[|[|[|[|p]]]]]]; [| | | | | |lia]; vm_compute; lia.
  - split; [vm_compute; lia|]. intros l Hl. destruct l as [|[|l]]; [vm_compute; lia|vm_compute; lia|lia].
  - intros _. split; [vm_compute; lia|]. split; [reflexivity|]. intros q Hq. assert (q < 3) as Hq' by exact Hq.
    destruct q as [|[|[|q]]]; [| | |lia]; split; vm_compute; try lia; reflexivity.
  - intros a k Ha Hk. split; [|reflexivity]. repeat constructor; intro; discriminate.
  - split; [vm_compute; lia|]. intros t Ht. cbn [length] in Ht. destruct t as [|[|t]]; [| |lia]; vm_compute; lia.
Qed.

(** three atoms; atom 0 has neighbours 1, 2, 1; atom 1 has neighbour 0; atom 2 has neighbour 0 *)
Definition ex_x (r1 r2 : N) : input N :=
  mkInput 3 [0; 1; 1] [3; 1; 1] [1; 2; 1; 0; 0] [1; 1; 1; 0; 0]
    (wts 1 15) [r1; r2; r1; r1; r2].
(** two atoms that are neighbours of each other, and an isolated one in between *)
Definition ex_y (r1 : N) : input N :=
  mkInput 3 [0; 1; 1] [1; 0; 1] [2; 0] [1; 0] (wts 2 6) [r1; r1].

Definition ex_in (r : N) : Prop := (0 <= ntrunc (ndiv r none) < 3)%Z.

Lemma ex_domain r : ex_in r -> in_domain ex_file r.
Proof.
  intros H. assert (E : forall row : list N, length row = 4 -> in_cells none (length row) r).
  { intros row ->. exact H. }
  split; [|split; [|split]]; cbn [ex_file f_radial_spline_values_0 f_radial_spline_values_1 f_A0_spline_values f_A1_spline_values
    f_radial_spline_h f_A0_spline_h f_A1_spline_h].
  - intros v row Hv Hr. apply E. repeat (destruct Hv as [<-|Hv]; [repeat (destruct Hr as [<-|Hr]; [reflexivity|]); destruct Hr|]). destruct Hv.
  - intros v row Hv Hr. apply E. repeat (destruct Hv as [<-|Hv]; [repeat (destruct Hr as [<-|Hr]; [reflexivity|]); destruct Hr|]). destruct Hv.
  - intros _ row Hr. apply E. repeat (destruct Hr as [<-|Hr]; [reflexivity|]). destruct Hr.
  - intros _ row Hr. apply E. repeat (destruct Hr as [<-|Hr]; [reflexivity|]). destruct Hr.
Qed.

Lemma ex_x_ok r1 r2 : ex_in r1 -> ex_in r2 -> input_ok ex_file (ex_x r1 r2).
Proof.
  intros H1 H2. constructor; try reflexivity.
  - intros t H. cbn in H. cbn. lia.
  - intros t H. cbn in H. cbn. lia.
  - intros t H. cbn in H. cbn. lia.
  - intros r H. apply ex_domain. cbn in H. intuition congruence.
Qed.

Lemma ex_y_ok r1 : ex_in r1 -> input_ok ex_file (ex_y r1).
Proof.
  intros H1. constructor; try reflexivity.
  - intros t H. cbn in H. cbn. lia.
  - intros t H. cbn in H. cbn. lia.
  - intros t H. cbn in H. cbn. lia.
  - intros r H. apply ex_domain. cbn in H. intuition congruence.
Qed.
End Ex.

Definition ex_run (x : input QNum) : option (list Q * list Q) :=
  ' (m, b) <- load_from_json (N:=QNum) (fun l => l) ex_file ;;
  b <- call (N:=QNum) ex_sph m b x ;;
  Some (b_node_energies b, b_node_forces b).
