(** Properties C145 and C146: Donaldson steps on symmetric samples. *)
From Coq Require Import ZArith Lia Reals.
From mathcomp Require Import all_ssreflect all_algebra all_fingroup.
From mathcomp Require Import complex.
From SsrMultinomials Require Import mpoly.
From Verif Require Import Base ModelUtil ModelVariety ModelBasis ModelDonaldson ModelAlg ModelPipe.
From Verif Require Import SpecGeom SpecBasis SpecPatch SpecAlg SpecDonaldson SpecPipe SpecStep SpecSymmetry Herm PolyGrad Bridge.
From Verif Require Import ComplexR ProofAlg ProofStep ProofStep2 ProofSymmetry ProofSymmetry2 ProofSymmetry3 ProofSymmetry4.
Delimit Scope Z_scope with Z.

Set Implicit Arguments.
Unset Strict Implicit.
Unset Printing Implicit Defensive.

Import GRing.Theory Num.Theory Order.POrderTheory.
Local Open Scope ring_scope.

(** ** C145: symmetric samples *)
Theorem step_keeps_symmetry : forall (C : numClosedFieldType) N (vol : C) (bs : seq (seq (sample C N))) (A h H' : 'M[C]_N),
  A \in unitmx -> equal_batches bs -> symmetric_under A (flatten bs) -> T_of (sym_h h) vol (flatten bs) \in unitmx ->
  invariant A h -> donaldson_step true h vol bs = Ok H' -> invariant A H'.
Proof. exact step_symmetric. Qed.
Print Assumptions step_keeps_symmetry.

Theorem steps_keep_symmetry : forall (C : numClosedFieldType) N (vol : C) (bs : seq (seq (sample C N))),
  good_sample vol bs -> forall (A : 'M[C]_N) (hs : nat -> 'M[C]_N), A \in unitmx -> symmetric_under A (flatten bs) ->
  hermitian (hs 0%N) -> posdef (hs 0%N) -> iterates vol bs hs -> invariant A (hs 0%N) -> forall k, invariant A (hs k).
Proof. exact iterates_symmetric. Qed.
Print Assumptions steps_keep_symmetry.

(** The balanced metric has the symmetries of the sample. *)
Theorem balanced_is_symmetric : forall (C : numClosedFieldType) N (vol : C) (bs : seq (seq (sample C N))),
  good_sample vol bs -> forall A g : 'M[C]_N, A \in unitmx -> symmetric_under A (flatten bs) ->
  indecomposable (flatten bs) -> balanced vol bs g -> `|\det A| = 1 -> invariant A g.
Proof. exact balanced_symmetric. Qed.
Print Assumptions balanced_is_symmetric.

(** So the steps restore a symmetry which the first matrix does not have. *)
Theorem steps_restore_symmetry : forall N (vol : CR) (bs : seq (seq (sample CR N))), good_sample vol bs ->
  forall (A : 'M[CR]_N) (hs : nat -> 'M[CR]_N), `|\det A| = 1 -> symmetric_under A (flatten bs) -> stable (flatten bs) ->
  hermitian (hs 0%N) -> posdef (hs 0%N) -> iterates vol bs hs ->
  exists L, [/\ balanced vol bs L, converges_to hs L & invariant A L].
Proof. exact stable_symmetric_limit. Qed.
Print Assumptions steps_restore_symmetry.

(** Three points of the projective line: the rotation of the three points is a symmetry
    of the sample and of its balanced metric, not of the identity. *)
Example three_rotated (C : numClosedFieldType) : [/\ symmetric_under (turn C) (flatten (three C)),
  `|\det (turn C)| = 1, invariant (turn C) (h3 C) & ~ invariant (turn C) 1%:M].
Proof. split; [exact: three_turn|exact: turn_det|exact: turn_h3|exact: turn_one]. Qed.

(** Complex conjugation of sample and matrix. *)
Theorem step_conjugate : forall (C : numClosedFieldType) N (vol : C) (bs : seq (seq (sample C N))) (h H' : 'M[C]_N),
  donaldson_step true h vol bs = Ok H' ->
  donaldson_step true (map_mx conjC h) vol^* (conj_sample bs) = Ok (map_mx conjC H').
Proof. exact step_conj. Qed.
Print Assumptions step_conjugate.

(** ** C146: symmetries of the coordinates *)
Theorem sampled_steps_symmetric : forall (C : numClosedFieldType) (D : forall n : nat, ('rV[C]_n -> C) -> 'rV[C]_n -> 'rV[C]_n),
  diff_ok D -> forall (lg ex : C -> C) (pi : C) m e (V : variety C) ps (Q : {mpoly C[m.+2]}),
  hypersurface V ps m e -> defined_by V ps Q -> 0 < pi -> smooth D V ps m ->
  forall (key : Type) (draw : key -> seq C -> nat -> res (seq (seq C))) k B,
  basis_for k Q B -> (0 < k)%N ->
  forall (l : 'I_m.+2 -> C) (s : {perm 'I_m.+2}) (sg : {perm 'I_(size (power_matrix B))}),
  (forall j, `|l j| = 1) -> (exists2 c, `|c| = 1 & forall x, peval Q (move l s x) = c * peval Q x) -> permutes_basis s sg ->
  forall (splitn : key -> nat -> seq key) kk batches bs zss W,
  rseq [seq draw k' ps bs | k' <- splitn kk batches] = Ok zss ->
  (forall zs, zs \in zss -> size zs = bs /\ points_on V ps m zs) ->
  (forall z, z \in flatten zss -> has_weight pi e Q z (W z)) ->
  (forall v : 'rV[C]_(size (power_matrix B)), v != 0 ->
     exists2 z, z \in flatten zss & \sum_a v 0 a * hom_sections B z 0 a != 0) ->
  zss != [::] -> (0 < bs)%N -> moved_to_itself l s (flatten zss) ->
  forall h H' : 'M[C]_(size (power_matrix B)), hermitian h -> posdef h -> h_symmetric l sg h ->
  alg_donaldson_step D lg ex pi splitn m V draw true kk h ps (avg W (flatten zss)) batches bs = Ok H' -> h_symmetric l sg H'.
Proof. exact sampled_symmetric. Qed.
Print Assumptions sampled_steps_symmetric.

Theorem sampled_steps_symmetric_limit : forall (D : forall n : nat, ('rV[CR]_n -> CR) -> 'rV[CR]_n -> 'rV[CR]_n),
  diff_ok D -> forall (lg ex : CR -> CR) (pi : CR) m e (V : variety CR) ps (Q : {mpoly CR[m.+2]}),
  hypersurface V ps m e -> defined_by V ps Q -> 0 < pi -> smooth D V ps m ->
  forall (key : Type) (draw : key -> seq CR -> nat -> res (seq (seq CR))) k B,
  basis_for k Q B -> (0 < k)%N ->
  forall (l : 'I_m.+2 -> CR) (s : {perm 'I_m.+2}) (sg : {perm 'I_(size (power_matrix B))}),
  (forall j, `|l j| = 1) -> (exists2 c, `|c| = 1 & forall x, peval Q (move l s x) = c * peval Q x) -> permutes_basis s sg ->
  forall (splitn : key -> nat -> seq key) kk batches bs zss W,
  rseq [seq draw k' ps bs | k' <- splitn kk batches] = Ok zss ->
  (forall zs, zs \in zss -> size zs = bs /\ points_on V ps m zs) ->
  (forall z, z \in flatten zss -> has_weight pi e Q z (W z)) ->
  (forall v : 'rV[CR]_(size (power_matrix B)), v != 0 ->
     exists2 z, z \in flatten zss & \sum_a v 0 a * hom_sections B z 0 a != 0) ->
  zss != [::] -> (0 < bs)%N -> moved_to_itself l s (flatten zss) ->
  let pts := [seq [seq (hom_sections B z, Some (W z)) | z <- zs] | zs <- zss] in let vol := avg W (flatten zss) in
  stable (flatten pts) ->
  forall hs : nat -> 'M[CR]_(size (power_matrix B)), hermitian (hs 0%N) -> posdef (hs 0%N) ->
  (forall j, alg_donaldson_step D lg ex pi splitn m V draw true kk (hs j) ps vol batches bs = Ok (hs j.+1)) ->
  exists L, [/\ hermitian L, posdef L, converges_to hs L & h_symmetric l sg L].
Proof. exact sampled_symmetric_limit. Qed.
Print Assumptions sampled_steps_symmetric_limit.

(** With phases only: no entry between monomials of different character. *)
Theorem symmetric_entries_vanish : forall (C : numClosedFieldType) n (l : 'I_n -> C) B (h : 'M[C]_(size (power_matrix B))),
  (forall j, `|l j| = 1) -> h_symmetric l 1 h -> forall a b, chi l a != chi l b -> h a b = 0.
Proof. exact phases_vanish. Qed.
Print Assumptions symmetric_entries_vanish.

(** The hypotheses for the Fermat (c = 0) and Dwork equations, for all permutations of
    the monomials of the full basis, and for phases in each basis. *)
Theorem dwork_equation_symmetries : forall (C : numClosedFieldType) m (c : C) (l : 'I_m.+2 -> C) (s : {perm 'I_m.+2}),
  (forall j, l j ^+ m.+2 = 1) -> (c = 0 \/ \prod_j l j = 1) ->
  forall x, peval (dwork_Q m c) (move l s x) = peval (dwork_Q m c) x.
Proof. exact dwork_symmetry. Qed.
Print Assumptions dwork_equation_symmetries.

Theorem full_basis_permuted : forall n k B (s : {perm 'I_n.+1}), basis_full n k = Ok B ->
  exists sg : {perm 'I_(size (power_matrix B))}, permutes_basis s sg.
Proof. exact full_permuted. Qed.
Print Assumptions full_basis_permuted.

Example basis_not_permuted n B : permutes_basis (1%g : {perm 'I_n}) (1%g : {perm 'I_(size (power_matrix B))}).
Proof. exact: unpermuted. Qed.

(** The two points (1 : i), (1 : -i) of the Fermat quadric are moved to each other by the
    phases 1, -1, under which the two coordinates have different characters. *)
Example pair_moved (C : numClosedFieldType) : moved_to_itself (flip C) 1 (pair_points C) /\
  chi (flip C) (0 : 'I_(size (power_matrix pair_basis))) != chi (flip C) (1 : 'I_(size (power_matrix pair_basis))).
Proof.
split; first exact: pair_flip.
by have [-> ->] := pair_chi C; rewrite -subr_eq0 opprK -[1 + 1]/(2%:R) pnatr_eq0.
Qed.
