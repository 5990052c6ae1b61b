(** Property C87: the results of the ASE calculator do not depend on the numbering of the atoms, and a supercell gives the results of the cell. *)
From Coq Require Import List Arith ZArith QArith Permutation Reals Lra Lia.
From Verif Require Import Base BaseLemmas Instances MaceModel MaceSpec MaceSpec2 MaceExamples MaceGradSpec GradExamples EnergySpec AseModel AseSpec AseExamples
  CoverSpec CoverAseSpec CoverAse CoverAseExamples PropertiesCover.
Import ListNotations.
Local Open Scope R_scope.

(** Renumbered atoms: 'energies' and 'forces' are reordered, 'energy' and 'stress' are unchanged, provided the last atom has a neighbour in both orders.
    Missing from the full claim: structures with isolated atoms at the end (see below). *)
Theorem C87_ase_renumbering_partial : forall sph, sph_ok (N:=RNum) sph -> sph_gradient sph -> forall srt, (forall l, Permutation l (srt l)) ->
  forall f : mace_file RNum, file_ok f -> smooth_ok f -> monomials_once f ->
  forall numbers types il jl numbers' types' il' jl', species_map (f_atomic_numbers f) numbers types -> species_map (f_atomic_numbers f) numbers' types' ->
  nl_ok (length numbers) il jl -> nl_ok (length numbers') il' jl' -> il <> [] -> il' <> [] -> S (list_max il) = length numbers -> S (list_max il') = length numbers' ->
  forall sg ep, nl_covers sg ep numbers' il' jl' numbers il jl -> fold_of sg (length numbers') (length numbers) 1 ->
  forall hist V D, List.Forall (input_ok f) hist -> V <> 0 -> length D = (3 * length il)%nat -> smooth_at f (nl_input (N:=RNum) (S (list_max il)) types il jl [] []) D ->
  let evaluate m b numbers il jl D := calculate sph m b numbers (Some V) il jl (lengths3 D) D in
  exists m b0 bh b res b' res', load_from_json srt f = Some (m, b0) /\ calls sph m b0 hist = Some bh /\
    evaluate m bh numbers il jl D = Some (b, res) /\ evaluate m bh numbers' il' jl' (lift3 ep (length il') D) = Some (b', res') /\
    res_energies res' = map (fun i => nth (sg i) (res_energies res) 0) (seq 0 (length numbers')) /\ res_energy res' = res_energy res /\
    res_forces res' = lift3 sg (length numbers') (res_forces res) /\ res_stress res' = res_stress res.
Proof. exact lemma_C87_renumber. Qed.
Print Assumptions C87_ase_renumbering_partial.

(** Supercells of k cells: k times the 'energy', the 'energies', 'forces' and 'stress' of the cell. *)
Theorem C87_ase_supercell_partial : forall sph, sph_ok (N:=RNum) sph -> sph_gradient sph -> forall srt, (forall l, Permutation l (srt l)) ->
  forall f : mace_file RNum, file_ok f -> smooth_ok f -> monomials_once f ->
  forall numbers types il jl numbers' types' il' jl', species_map (f_atomic_numbers f) numbers types -> species_map (f_atomic_numbers f) numbers' types' ->
  nl_ok (length numbers) il jl -> nl_ok (length numbers') il' jl' -> il <> [] -> il' <> [] -> S (list_max il) = length numbers -> S (list_max il') = length numbers' ->
  forall sg ep, nl_covers sg ep numbers' il' jl' numbers il jl -> forall k, fold_of sg (length numbers') (length numbers) k -> nl_translations ep numbers' il' jl' ->
  forall hist V D, List.Forall (input_ok f) hist -> V <> 0 -> length D = (3 * length il)%nat -> smooth_at f (nl_input (N:=RNum) (S (list_max il)) types il jl [] []) D ->
  let evaluate m b numbers V il jl D := calculate sph m b numbers (Some V) il jl (lengths3 D) D in
  exists m b0 bh b res b' res', load_from_json srt f = Some (m, b0) /\ calls sph m b0 hist = Some bh /\
    evaluate m bh numbers V il jl D = Some (b, res) /\ evaluate m bh numbers' (INR k * V) il' jl' (lift3 ep (length il') D) = Some (b', res') /\
    res_energies res' = map (fun i => nth (sg i) (res_energies res) 0) (seq 0 (length numbers')) /\ res_energy res' = INR k * res_energy res /\
    res_forces res' = lift3 sg (length numbers') (res_forces res) /\ res_stress res' = res_stress res.
Proof. exact lemma_C87_supercell. Qed.
Print Assumptions C87_ase_supercell_partial.

(** Without the proviso the energy depends on the numbering: a dimer and an isolated atom, numbered so that the isolated atom is in the middle or at the end. *)
Theorem C87_ase_isolated_refuted : exists (f : mace_file QNum) numbers types il jl il' jl' sg ep r xyz, file_ok f /\ species_map (f_atomic_numbers f) numbers types /\
  nl_ok (length numbers) il jl /\ nl_ok (length numbers) il' jl' /\ il <> [] /\ il' <> [] /\
  nl_covers sg ep numbers il' jl' numbers il jl /\ fold_of sg (length numbers) (length numbers) 1 /\ (forall p, (p < length il)%nat -> ep p = p) /\
  input_ok f (nl_input (length numbers) types il jl r xyz) /\ input_ok f (nl_input (length numbers) types il' jl' r xyz) /\
  exists m b0 b res b' res', load_from_json (fun l => l) f = Some (m, b0) /\
    calculate (N:=QNum) (ex_sph (N:=QNum)) m b0 numbers (Some (2#1)%Q) il jl r xyz = Some (b, res) /\ calculate (N:=QNum) (ex_sph (N:=QNum)) m b0 numbers (Some (2#1)%Q) il' jl' r xyz = Some (b', res') /\
    ~ (res_energy res' == res_energy res)%Q /\ length (res_energies res') <> length (res_energies res).
Proof.
  exists (ex_file (N:=QNum)), [1; 2; 2]%nat, [0; 1; 1]%nat, [0; 2]%nat, [2; 0]%nat, [0; 1]%nat, [1; 0]%nat, (fun i => nth i [0; 2; 1] 0)%nat, (fun p => p),
    [(1#2)%Q; (1#2)%Q], [(1#2)%Q; 0%Q; 0%Q; (-1#2)%Q; 0%Q; 0%Q].
  split; [exact (ex_file_ok (N:=QNum))|]. split; [apply species12; reflexivity|].
  split; [constructor; [reflexivity|intros i H; cbn in *; lia|repeat constructor; lia|intros a; destruct a as [|[|[|a]]]; reflexivity]|].
  split; [constructor; [reflexivity|intros i H; cbn in *; lia|repeat constructor; lia|intros a; destruct a as [|[|[|a]]]; reflexivity]|].
  split; [discriminate|]. split; [discriminate|]. split; [apply nl_covers_test; reflexivity|]. split; [apply fold_test; reflexivity|]. split; [reflexivity|].
  assert (IO : forall nn jl, length nn = 3%nat -> list_sum nn = 2%nat -> length jl = 2%nat -> (forall j, In j jl -> (j < 3)%nat) -> forall nt, length nt = 2%nat -> (forall t, In t nt -> (t < 2)%nat) ->
    input_ok (ex_file (N:=QNum)) (mkInput (N:=QNum) 3 [0; 1; 1]%nat nn jl nt [(1#2)%Q; 0%Q; 0%Q; (-1#2)%Q; 0%Q; 0%Q] [(1#2)%Q; (1#2)%Q])).
  { intros nn jl H1 H2 H3 H4 nt H5 H6. constructor; cbn [i_num_nodes i_node_types i_num_neigh i_neigh_indices i_neigh_types i_xyz i_r]; rewrite ?H2; auto;
      try (intros t Ht; cbn in *; lia). intros r Hr. apply ex_domain. cbn in Hr. unfold ex_in. destruct Hr as [<-|[<-|[]]]; vm_compute; repeat split; congruence. }
  split; [apply IO; try reflexivity; intros j Hj; cbn in Hj; lia|]. split; [apply IO; try reflexivity; intros j Hj; cbn in Hj; lia|].
  set (r := [(1#2)%Q; (1#2)%Q]). set (xyz := [(1#2)%Q; 0%Q; 0%Q; (-1#2)%Q; 0%Q; 0%Q]).
  assert (T : match load_from_json (N:=QNum) (fun l => l) ex_file with
    | Some (m, b0) => match calculate (N:=QNum) ex_sph m b0 [1; 2; 2]%nat (Some (2#1)%Q) [0; 2]%nat [2; 0]%nat r xyz,
                            calculate (N:=QNum) ex_sph m b0 [1; 2; 2]%nat (Some (2#1)%Q) [0; 1]%nat [1; 0]%nat r xyz with
                      | Some (_, x), Some (_, x') => negb (Qeq_bool (res_energy x') (res_energy x)) && negb (length (res_energies x') =? length (res_energies x))%nat
                      | _, _ => false end
    | None => false end = true) by (vm_compute; reflexivity).
  destruct (load_from_json (N:=QNum) (fun l => l) ex_file) as [[m b0]|] eqn:E0; [|discriminate T].
  destruct (calculate (N:=QNum) ex_sph m b0 [1; 2; 2]%nat (Some (2#1)%Q) [0; 2]%nat [2; 0]%nat r xyz) as [[b res]|] eqn:E1; [|discriminate T].
  destruct (calculate (N:=QNum) ex_sph m b0 [1; 2; 2]%nat (Some (2#1)%Q) [0; 1]%nat [1; 0]%nat r xyz) as [[b' res']|] eqn:E2; [|discriminate T].
  exists m, b0, b, res, b', res'. split; [reflexivity|]. split; [exact E1|]. split; [exact E2|].
  apply andb_prop in T. destruct T as (T1 & T2). split.
  - intros E. apply Qeq_bool_iff in E. rewrite E in T1. discriminate T1.
  - intros E. apply Nat.eqb_eq in E. rewrite E in T2. discriminate T2.
Qed.
Print Assumptions C87_ase_isolated_refuted.

Example C87_renumbering_example : let evaluate m b numbers il jl D := calculate (ex_sph (N:=RNum)) m b numbers (Some 2) il jl (lengths3 D) D in
  exists m b0 bh b res b' res', load_from_json (fun l => l) ex_file = Some (m, b0) /\ calls (ex_sph (N:=RNum)) m b0 [with_xyz ex_xi ex_xs] = Some bh /\
    evaluate m bh ax_numbers ax_il ax_jl ax_D = Some (b, res) /\ evaluate m bh rx_numbers rx_il rx_jl (lift3 rx_ep 8 ax_D) = Some (b', res') /\
    res_energies res' = map (fun i => nth (rx_sg i) (res_energies res) 0) (seq 0 3) /\ res_energy res' = res_energy res /\ res_forces res' = lift3 rx_sg 3 (res_forces res) /\ res_stress res' = res_stress res.
Proof.
  apply (C87_ase_renumbering_partial (ex_sph (N:=RNum)) ex_sph_ok ex_sph_gradient (fun l => l) (fun l => Permutation_refl l) ex_file ex_file_ok ex_smooth ex_once
    ax_numbers ax_types ax_il ax_jl rx_numbers rx_types rx_il rx_jl ax_species rx_species ax_nl rx_nl) with (sg := rx_sg) (ep := rx_ep) (hist := [with_xyz ex_xi ex_xs]).
  - discriminate.
  - discriminate.
  - reflexivity.
  - reflexivity.
  - exact rx_covers.
  - apply fold_test. reflexivity.
  - constructor; [exact ex_with_ok|constructor].
  - lra.
  - reflexivity.
  - exact ax_smooth_at.
Qed.
Example C87_supercell_example : let evaluate m b numbers V il jl D := calculate (ex_sph (N:=RNum)) m b numbers (Some V) il jl (lengths3 D) D in
  exists m b0 bh b res b' res', load_from_json (fun l => l) ex_file = Some (m, b0) /\ calls (ex_sph (N:=RNum)) m b0 [with_xyz ex_xi ex_xs] = Some bh /\
    evaluate m bh ax_numbers 2 ax_il ax_jl ax_D = Some (b, res) /\ evaluate m bh dx_numbers (INR 2 * 2) dx_il dx_jl (lift3 dx_ep 16 ax_D) = Some (b', res') /\
    res_energies res' = map (fun i => nth (dx_sg i) (res_energies res) 0) (seq 0 6) /\ res_energy res' = INR 2 * res_energy res /\ res_forces res' = lift3 dx_sg 6 (res_forces res) /\ res_stress res' = res_stress res.
Proof.
  apply (C87_ase_supercell_partial (ex_sph (N:=RNum)) ex_sph_ok ex_sph_gradient (fun l => l) (fun l => Permutation_refl l) ex_file ex_file_ok ex_smooth ex_once
    ax_numbers ax_types ax_il ax_jl dx_numbers dx_types dx_il dx_jl ax_species dx_species ax_nl dx_nl) with (sg := dx_sg) (ep := dx_ep) (hist := [with_xyz ex_xi ex_xs]).
  - discriminate.
  - discriminate.
  - reflexivity.
  - reflexivity.
  - exact dx_covers.
  - apply fold_test. reflexivity.
  - exact dx_translations.
  - constructor; [exact ex_with_ok|constructor].
  - lra.
  - reflexivity.
  - exact ax_smooth_at.
Qed.
