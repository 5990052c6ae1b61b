(** Property C90: sizes and offsets computed in [int] do not overflow while all arrays that are used have fewer than 2^31 entries.
    Model: IntModel.v.  Vocabulary: IntSpec.v, MaceSpec.v. *)
From Coq Require Import List Arith ZArith Permutation Lia.
From Verif Require Import Base Instances MaceModel MaceSpec MaceExamples MaceLoad IntModel IntSpec IntLoad.
Import ListNotations.

(** C90, partial: the one exception is the [int] product num_nodes*num_channels*num_lm*num_channels of compute_M1 (mace.cpp:764).
    Without it the left side would hold for all such inputs. *)
Theorem C90_int_arithmetic_partial : forall N srt, (forall l, Permutation l (srt l)) ->
  forall (f : mace_file N) (x : input N) m b, file_ok f -> input_ok f x -> 1 <= i_num_nodes x ->
  Forall indexable (array_sizes f (i_num_nodes x) (list_sum (i_num_neigh x))) ->
  load_from_json srt f = Some (m, b) ->
  (i_compute m x = Some tt <->
   indexable (Z.of_nat (i_num_nodes x) * Z.of_nat (f_num_channels f) * ((Z.of_nat (f_l_max f) + 1) * (Z.of_nat (f_l_max f) + 1)) * Z.of_nat (f_num_channels f))).
Proof. exact @lemma_C90. Qed.
Print Assumptions C90_int_arithmetic_partial.

(** two species, scaled, with ZBL; three atoms with five pairs *)
Example C90_example : exists m b, load_from_json (fun l => l) (ex_file (N:=QNum)) = Some (m, b) /\ i_compute m (ex_x (N:=QNum) none none) = Some tt.
Proof.
  assert (H : ex_in (N:=QNum) none) by (vm_compute; split; congruence).
  destruct (load_eq (N:=QNum) (fun l => l) (fun l => Permutation_refl l) ex_file ex_file_ok) as (r & _ & E). do 2 eexists. split; [exact E|].
  refine (proj2 (C90_int_arithmetic_partial QNum (fun l => l) (fun l => Permutation_refl l) ex_file (ex_x none none) _ _ ex_file_ok (ex_x_ok none none H H) _ _ E) _).
  - cbn [ex_x i_num_nodes]. lia.
  - repeat (apply Forall_cons; [vm_compute; reflexivity|]). apply Forall_nil.
  - vm_compute. reflexivity.
Qed.

(** C90 is false: a model with 128 channels and l_max = 3, and 8192 atoms.  No array has more than 2^26 entries that are used. *)
Theorem C90_int_overflow_refuted : forall N srt, (forall l, Permutation l (srt l)) -> exists (f : mace_file N) (x : input N) m b,
  file_ok f /\ input_ok f x /\ Forall indexable (array_sizes f (i_num_nodes x) (list_sum (i_num_neigh x))) /\
  f_num_channels f = 128 /\ f_l_max f = 3 /\ i_num_nodes x = 64 * 128 /\
  Forall (fun z => (z <= 67108864)%Z) (array_sizes f (i_num_nodes x) (list_sum (i_num_neigh x))) /\
  load_from_json srt f = Some (m, b) /\ i_compute m x = None.
Proof. exact @witness_C90. Qed.
Print Assumptions C90_int_overflow_refuted.
