(** Well-formed models, systems and buffers, and the quantities computed by every stage of [MACE] as
    functions of node, edge, row and channel indices (for every [Num]).  Used in proofs only. *)
From Coq Require Import List Arith ZArith Lia.
From Verif Require Import Base BaseLemmas Segs BlasModel BlasLemmas SplineModel MpModel MpProofs MlpModel MlpProofs
  ZblModel MaceModel Sys SysLoops MaceGrid.
Import ListNotations.

Section Pure.
Context {N : Num}.
Local Open Scope num_scope.
Variable sph : nat -> N -> N -> N -> list N * list N.
Variable m : mace_model N.

Notation K := (m_num_channels m).
Notation lmax := (m_l_max m).
Notation Lmax := (m_L_max m).
Notation T := (length (m_atomic_numbers m)).
Notation lms := (num_lm m).
Notation LMs := (num_LM m).
Notation nle := (length (m_Phi1_l m)).
Notation ncg := (length (m_Phi1_clebsch_gordan m)).

(** ** static data as functions *)
Definition tyij (t u : nat) : nat :=
  if (t <=? u)%nat then (t * (2 * T - t - 1) / 2 + u)%nat else (u * (2 * T - u - 1) / 2 + t)%nat.

Definition at_ (l : list N) (p : nat) : N := nth p l nzero.

Definition cell (S : @spline_set N) (r : N) : nat := Z.to_nat (ntrunc (r / css_h S)).
Definition coef (S : @spline_set N) (r : N) (q p : nat) : N :=
  at_ (css_c S) ((4 * cell S r + q) * css_num S + p).
Definition locx (S : @spline_set N) (r : N) : N := r - css_h S * nofnat (cell S r).
Definition setv (S : @spline_set N) (r : N) (p : nat) : N :=
  let x := locx S r in coef S r 0 p + x * coef S r 1 p + x * x * coef S r 2 p + x * x * x * coef S r 3 p.
Definition setd (S : @spline_set N) (r : N) (p : nat) : N :=
  let x := locx S r in coef S r 1 p + nofZ 2 * x * coef S r 2 p + nofZ 3 * (x * x) * coef S r 3 p.

Definition dset : @spline_set N := mkCSS 0 nzero 0 [].
Definition dspl : @cubic_spline N := mkCS nzero [].
Definition set0 t u := nth (tyij t u) (m_spl_set_0 m) dset.
Definition set1 t u := nth (tyij t u) (m_spl_set_1 m) dset.
Definition spl0 t u := nth (tyij t u) (m_A0_splines m) dspl.
Definition spl1 t u := nth (tyij t u) (m_A1_splines m) dspl.
Definition csv (c : @cubic_spline N) (r : N) : N := match cs_evaluate_deriv c r with Ret (y, _) => y | _ => nzero end.
Definition csd (c : @cubic_spline N) (r : N) : N := match cs_evaluate_deriv c r with Ret (_, d) => d | _ => nzero end.

Definition W0 t l p : N := at_ (nth l (nth t (m_A0_weights m) []) []) p.
Definition WH1 p : N := at_ (m_H1_weights m) p.
Definition W1 l p : N := at_ (nth l (m_A1_weights m) []) p.
Definition WHH t p : N := at_ (nth t (m_H2_weights_for_H1 m) []) p.
Definition WHM p : N := at_ (m_H2_weights_for_M1 m) p.

Definition pl1 le := nth le (m_Phi1_l1 m) 0%nat.
Definition pl2 le := nth le (m_Phi1_l2 m) 0%nat.
(** the triples (lel1l2, lm1, lm2) in the order of the counter lelm1lm2 *)
Definition paths_at (le : nat) : list (nat * nat * nat) :=
  flat_map (fun lm1 => map (fun lm2 => (le, lm1, lm2)) (seq (pl2 le * pl2 le) (2 * pl2 le + 1)))
    (seq (pl1 le * pl1 le) (2 * pl1 le + 1)).
Definition paths : list (nat * nat * nat) := flat_map paths_at (seq 0 nle).
Definition path c := nth c paths (0, 0, 0)%nat.
Definition ple c := fst (fst (path c)).
Definition plm1 c := snd (fst (path c)).
Definition plm2 c := snd (path c).
Definition cgC p : N := at_ (m_Phi1_clebsch_gordan m) p.
Definition cgl p := nth p (m_Phi1_lme m) 0%nat.
Definition cgr p := nth p (m_Phi1_lelm1lm2 m) 0%nat.
(** multiplicity of l among the paths *)
Definition mult l := count_occ Nat.eq_dec (m_Phi1_l m) l.
(** first row of the block of l *)
Definition moff l := lsum (map (fun l' => (2 * l' + 1) * mult l')%nat (seq 0 l)).

Definition tables_ok (S : list (@spline_set N)) (c : nat) : Prop :=
  (T * (T + 1) / 2 <= length S)%nat /\
  forall x, In x S -> css_num x = c /\ length (css_c x) = (4 * c * (css_nodes x - 1))%nat.

Record mace_wf : Prop := {
  mw_K : (1 <= K)%nat;
  mw_T : (1 <= T)%nat;
  mw_s0 : tables_ok (m_spl_set_0 m) ((lmax + 1) * K);
  mw_s1 : tables_ok (m_spl_set_1 m) (nle * K);
  mw_H0 : (T * K <= length (m_H0_weights m))%nat;
  mw_A0a : (T <= length (m_A0_weights m))%nat;
  mw_A0b : forall t, (t < T)%nat -> (lmax + 1 <= length (nth t (m_A0_weights m) []))%nat;
  mw_A0c : forall t l, (t < T)%nat -> (l <= lmax)%nat -> (K * K <= length (nth l (nth t (m_A0_weights m) []) []))%nat;
  mw_A0s : m_A0_scaled m = true -> (T * (T + 1) / 2 <= length (m_A0_splines m))%nat;
  mw_H1 : ((Lmax + 1) * K * K <= length (m_H1_weights m))%nat;
  mw_l1 : (nle <= length (m_Phi1_l1 m))%nat;
  mw_l2 : (nle <= length (m_Phi1_l2 m))%nat;
  mw_l_le : forall l, In l (m_Phi1_l m) -> (l <= lmax)%nat;
  mw_l1_le : forall q, (q < nle)%nat -> (pl1 q <= lmax)%nat;
  mw_l2_le : forall q, (q < nle)%nat -> (pl2 q <= Lmax)%nat;
  mw_lme : (ncg <= length (m_Phi1_lme m))%nat;
  mw_lel : (ncg <= length (m_Phi1_lelm1lm2 m))%nat;
  mw_lme_lt : forall p, (p < ncg)%nat -> (cgl p < m_num_lme m)%nat;
  mw_lel_lt : forall p, (p < ncg)%nat -> (cgr p < m_num_lelm1lm2 m)%nat;
  mw_nlme : m_num_lme m = lsum (map (fun l => 2 * l + 1) (m_Phi1_l m))%nat;
  mw_nlel : m_num_lelm1lm2 m = length paths;
  mw_mult : forall l, (l <= lmax)%nat -> (1 <= mult l)%nat;
  mw_A1a : (lmax + 1 <= length (m_A1_weights m))%nat;
  mw_A1b : forall l, (l <= lmax)%nat -> (mult l * K * K <= length (nth l (m_A1_weights m) []))%nat;
  mw_A1s : m_A1_scaled m = true -> (T * (T + 1) / 2 <= length (m_A1_splines m))%nat;
  mw_HHa : (T <= length (m_H2_weights_for_H1 m))%nat;
  mw_HHb : forall t, (t < T)%nat -> (K * K <= length (nth t (m_H2_weights_for_H1 m) []))%nat;
  mw_HM : (K * K <= length (m_H2_weights_for_M1 m))%nat;
  mw_r1 : (K <= length (m_readout_1_weights m))%nat;
  mw_E0 : (T <= length (m_atomic_energies m))%nat
}.

(** the distance lies inside the table *)
Definition in_set (S : @spline_set N) (r : N) : Prop :=
  (0 <= ntrunc (r / css_h S)%num < Z.of_nat (css_nodes S - 1))%Z.
Definition in_spl (c : @cubic_spline N) (r : N) : Prop := exists y d, cs_evaluate_deriv c r = Ret (y, d).

(** ** systems *)
Variable s : sys N.
Notation n := (length s).
Definition nd_ (i : nat) : node N := nth i s (mkNode 0 []).
Definition ty (i : nat) : nat := n_type (nd_ i).
Definition es (i : nat) : list (edge N) := n_edges (nd_ i).

(** edges with the index of their owner *)
Definition epairs : list (nat * edge N) := flat_map (fun i => map (pair i) (es i)) (seq 0 n).
Notation nE := (length epairs).

Record sys_wf (nH : nat) : Prop := {
  sw_ty : forall i, (i < n)%nat -> (ty i < T)%nat;
  sw_ety : forall i e, (i < n)%nat -> In e (es i) -> (e_type e < T)%nat;
  sw_idx : forall i e, (i < n)%nat -> In e (es i) -> (e_idx e < nH)%nat;
  sw_s0 : forall i e, (i < n)%nat -> In e (es i) -> in_set (set0 (ty i) (e_type e)) (e_r e);
  sw_s1 : forall i e, (i < n)%nat -> In e (es i) -> in_set (set1 (ty i) (e_type e)) (e_r e);
  sw_A0 : m_A0_scaled m = true -> forall i e, (i < n)%nat -> In e (es i) -> in_spl (spl0 (ty i) (e_type e)) (e_r e);
  sw_A1 : m_A1_scaled m = true -> forall i e, (i < n)%nat -> In e (es i) -> in_spl (spl1 (ty i) (e_type e)) (e_r e)
}.

(** per-edge buffer with [c] entries for every edge *)
Definition eb (c : nat) (f : nat -> edge N -> nat -> N) : list N :=
  flat_map (fun p => tab c (f (fst p) (snd p))) epairs.

(** ** stage functions *)
Definition R0v i (e : edge N) p := setv (set0 (ty i) (e_type e)) (e_r e) p.
Definition R0d i (e : edge N) p := setd (set0 (ty i) (e_type e)) (e_r e) p.
Definition R1v i (e : edge N) p := setv (set1 (ty i) (e_type e)) (e_r e) p.
Definition R1d i (e : edge N) p := setd (set1 (ty i) (e_type e)) (e_r e) p.

Definition ynorm : N := nofZ 2 * nsqrt npi.
Definition Yv (i : nat) (e : edge N) lm := at_ (fst (sph lmax (e_z e) (e_x e) (e_y e))) lm * ynorm.
(** position [a*lms + lm], a = 0,1,2 for x,y,z *)
Definition Yg (i : nat) (e : edge N) p :=
  at_ (snd (sph lmax (e_z e) (e_x e) (e_y e))) ((p + lms) mod (3 * lms)) * ynorm.

Definition phi0 (Rf Yf : nat -> edge N -> nat -> N) i lm k : N :=
  nfold (es i) (fun e => Rf i e (Nat.sqrt lm * K + k)%nat * Yf i e lm * at_ (m_H0_weights m) (e_type e * K + k)) nzero.
Definition mulW0 (f : nat -> nat -> nat -> N) i lm k : N :=
  nsum K (fun q => f i lm q * W0 (ty i) (Nat.sqrt lm) (q * K + k)).
Definition mulW0T (f : nat -> nat -> nat -> N) i lm k : N :=
  nsum K (fun q => W0 (ty i) (Nat.sqrt lm) (k * K + q) * f i lm q).
Definition sc0 i : N := nfold (es i) (fun e => csv (spl0 (ty i) (e_type e)) (e_r e)) none.
Definition sc1 i : N := nfold (es i) (fun e => csv (spl1 (ty i) (e_type e)) (e_r e)) none.
Definition divs (sc : nat -> N) (f : nat -> nat -> nat -> N) i lm k : N := f i lm k / sc i.
Definition dotlk (f g : nat -> nat -> nat -> N) i : N :=
  nsum (lms * K) (fun p => f i (p / K)%nat (p mod K)%nat * g i (p / K)%nat (p mod K)%nat).

Definition comp (e : edge N) (a : nat) : N := match a with 0 => e_x e | 1 => e_y e | _ => e_z e end%nat.

(** scaled reverse pass: added to the force on edge [e] *)
Definition fsc (sp : nat -> nat -> @cubic_spline N) (sc : nat -> N) (dot : nat -> N)
    (F : nat -> edge N -> nat -> N) i e a : N :=
  F i e a + dot i / sc i * csd (sp (ty i) (e_type e)) (e_r e) * comp e a / e_r e.

Definition xcol (A : nat -> nat -> nat -> N) i k : list N := tab lms (fun lm => A i lm k).
Definition m0 (P : nat -> @mpoly N) (A : nat -> nat -> nat -> N) i L k : N :=
  pval (P (ty i * LMs * K + (L * K + k))%nat) (xcol A i k).
Definition g0 (P : nat -> @mpoly N) (A : nat -> nat -> nat -> N) i L lm k : N :=
  at_ (pgrad (P (ty i * LMs * K + (L * K + k))%nat) (xcol A i k)) lm.
Definition m1 (P : nat -> @mpoly N) (A : nat -> nat -> nat -> N) i k : N :=
  pval (P (ty i * K + k)%nat) (xcol A i k).
Definition g1 (P : nat -> @mpoly N) (A : nat -> nat -> nat -> N) i lm k : N :=
  at_ (pgrad (P (ty i * K + k)%nat) (xcol A i k)) lm.

Definition rm0 (g : nat -> nat -> nat -> nat -> N) (Ma : nat -> nat -> nat -> N) i lm k : N :=
  nfold (seq 0 LMs) (fun L => g i L lm k * Ma i L k) nzero.
Definition rm1 (g : nat -> nat -> nat -> N) (Ma : nat -> nat -> N) i lm k : N := g i lm k * Ma i k.

Definition mulH1 (M : nat -> nat -> nat -> N) i L k : N :=
  nsum K (fun q => M i L q * WH1 (Nat.sqrt L * K * K + (q * K + k))).
Definition mulH1T (Ha : nat -> nat -> nat -> N) i L k : N :=
  nsum K (fun q => WH1 (Nat.sqrt L * K * K + (k * K + q)) * Ha i L q).

Definition phi1r (Rf Yf : nat -> edge N -> nat -> N) (H : nat -> nat -> nat -> N) i c k : N :=
  nfold (es i) (fun e => Rf i e (ple c * K + k)%nat * Yf i e (plm1 c) * H (e_idx e) (plm2 c) k) nzero.
Definition phi1 (f : nat -> nat -> nat -> N) i a k : N :=
  nfold (filter (fun p => cgl p =? a)%nat (seq 0 ncg)) (fun p => cgC p * f i (cgr p) k) nzero.
Definition phi1T (f : nat -> nat -> nat -> N) i c k : N :=
  nfold (filter (fun p => cgr p =? c)%nat (seq 0 ncg)) (fun p => cgC p * f i (cgl p) k) nzero.

(** blocks of different row lengths: row [mm] of block [l] has [mult l * K] entries *)
Definition a1raw (f : nat -> nat -> nat -> N) i lm k : N :=
  let l := Nat.sqrt lm in
  nsum (mult l * K) (fun p => f i (moff l + (lm - l * l) * mult l + p / K)%nat (p mod K)%nat * W1 l (p * K + k)).
Definition rA1 (Aa : nat -> nat -> nat -> N) i : list N :=
  flat_map (fun l => flat_map (fun mm => tab (mult l * K) (fun p =>
    nsum K (fun q => W1 l (p * K + q) * Aa i (l * l + mm)%nat q))) (seq 0 (2 * l + 1))) (seq 0 (lmax + 1)).
Definition rA1f (Aa : nat -> nat -> nat -> N) i a k : N := at_ (rA1 Aa i) (a * K + k).

(** the (row, channel) pairs in loop order *)
Definition lmk : list (nat * nat) := flat_map (fun a => map (pair a) (seq 0 K)) (seq 0 lms).
Definition pck : list (nat * nat) := flat_map (fun c => map (pair c) (seq 0 K)) (seq 0 (length paths)).

Definition f0term (Rf Rd Yf Yd : nat -> edge N -> nat -> N) (Pa : nat -> nat -> nat -> N) i e a (p : nat * nat) : N :=
  let '(lm, k) := p in
  - Pa i lm k * (comp e a / e_r e * Rd i e (Nat.sqrt lm * K + k)%nat * Yf i e lm * at_ (m_H0_weights m) (e_type e * K + k)
                 + Rf i e (Nat.sqrt lm * K + k)%nat * Yd i e (a * lms + lm)%nat * at_ (m_H0_weights m) (e_type e * K + k)).
Definition f1term (Rf Rd Yf Yd : nat -> edge N -> nat -> N) (H dP : nat -> nat -> nat -> N) i e a (p : nat * nat) : N :=
  let '(c, k) := p in
  - dP i c k * (comp e a / e_r e * Rd i e (ple c * K + k)%nat * Yf i e (plm1 c) * H (e_idx e) (plm2 c) k
                + Rf i e (ple c * K + k)%nat * Yd i e (a * lms + plm1 c)%nat * H (e_idx e) (plm2 c) k).
Definition fold0 Rf Rd Yf Yd Pa (F : nat -> edge N -> nat -> N) i e a : N :=
  nfold lmk (f0term Rf Rd Yf Yd Pa i e a) (F i e a).
Definition fold1 Rf Rd Yf Yd H dP (F : nat -> edge N -> nat -> N) i e a : N :=
  nfold pck (f1term Rf Rd Yf Yd H dP i e a) (F i e a).

(** additions into H1_adj *)
Definition hadd1 (Rf Yf : nat -> edge N -> nat -> N) (dP : nat -> nat -> nat -> N) (p : nat * edge N) : list (nat * N) :=
  let '(i, e) := p in
  map (fun '(c, k) => (((e_idx e * LMs + plm2 c) * K + k)%nat,
         Rf i e (ple c * K + k)%nat * Yf i e (plm1 c) * dP i c k)) pck.
Definition hadds Rf Yf dP : list (nat * N) := flat_map (hadd1 Rf Yf dP) epairs.

Definition h2 (H M : nat -> nat -> N) i k : N :=
  nsum K (fun q => WHH (ty i) (q * K + k) * H i q) + nsum K (fun q => WHM (q * K + k) * M i q).
Definition rH2h (Ha : nat -> nat -> nat -> N) (g2 : nat -> nat -> N) i L k : N :=
  if (L =? 0)%nat then Ha i L k + nsum K (fun q => WHH (ty i) (k * K + q) * g2 i q) else Ha i L k.
Definition rH2m (g2 : nat -> nat -> N) i k : N := nsum K (fun q => WHM (k * K + q) * g2 i q).

End Pure.

(** ** polynomial objects up to their scratch buffers *)
Section Sim.
Context {N : Num}.
Definition mp_sim (p q : @mpoly N) : Prop :=
  mp_nvars p = mp_nvars q /\ mp_coeffs p = mp_coeffs q /\ mp_monos p = mp_monos q /\ mp_naux p = mp_naux q /\
  mp_nodes p = mp_nodes q /\ mp_edges p = mp_edges q /\ mp_ncoeffs p = mp_ncoeffs q.
(** a usable object that is [p] up to scratch *)
Definition mp_live (v : nat) (p q : @mpoly N) : Prop :=
  mp_sim p q /\ mp_wf p /\ mp_nvars p = v /\
  length (mp_nodes p) <= length (mp_nvals q) /\ length (mp_nodes p) <= length (mp_nadjs q).
Definition mps_live (v cnt : nat) (P : nat -> @mpoly N) (l : list (@mpoly N)) : Prop :=
  forall q, q < cnt -> exists p, rd l q = Some p /\ mp_live v (P q) p.
End Sim.
