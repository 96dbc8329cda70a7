(** Property C163: Donaldson steps on samples with a unitary symmetry. *)
From Coq Require Import ZArith.
From mathcomp Require Import all_ssreflect all_algebra.
From SsrMultinomials Require Import mpoly.
From Verif Require Import Base ModelUtil ModelVariety ModelBasis ModelDonaldson ModelAlg ModelPipe.
From Verif Require Import SpecPoly SpecVariety SpecGeom SpecBasis SpecSections SpecPatch SpecAlg SpecDonaldson SpecPipe SpecStep Herm.
From Verif Require Import Bridge PolyGrad ProofAlg ProofStep ProofStep2 ComplexR ProofStep7 SpecLinear SpecRotate ProofLinear10.
Delimit Scope Z_scope with Z.

Set Implicit Arguments.
Unset Strict Implicit.
Unset Printing Implicit Defensive.

Import GRing.Theory Num.Theory.
Local Open Scope ring_scope.

(** A is unitary and keeps Q, and the sample is its own image under A: the step keeps the norms which A keeps. *)
Theorem rotation_steps : forall (C : numClosedFieldType) (D : forall n : nat, ('rV[C]_n -> C) -> 'rV[C]_n -> 'rV[C]_n), diff_ok D ->
  forall (lg ex : C -> C) (pi : C) m (V : variety C) ps (Q : {mpoly C[m.+2]}),
  hypersurface V ps m m.+2 -> defined_by V ps Q -> 0 < pi -> smooth D V ps m ->
  forall A : 'M[C]_m.+2, unitary A -> (forall x, peval Q (x *m A) = peval Q x) ->
  forall (key : Type) (draw : key -> seq C -> nat -> res (seq (seq C))) k B, basis_full m.+1 k = Ok B -> (0 < k)%N ->
  forall (splitn : key -> nat -> seq key) kk batches bs zss W,
  rseq [seq draw k' ps bs | k' <- splitn kk batches] = Ok zss ->
  (forall zs, zs \in zss -> size zs = bs /\ points_on V ps m zs) ->
  (forall z, z \in flatten zss -> has_weight pi m.+2 Q z (W z)) ->
  (forall v : 'rV[C]_(size (power_matrix B)), v != 0 ->
     exists2 z, z \in flatten zss & \sum_a v 0 a * hom_sections B z 0 a != 0) ->
  zss != [::] -> (0 < bs)%N -> rotated_to_itself A (flatten zss) ->
  forall h H' : 'M[C]_(size (power_matrix B)), hermitian h -> posdef h -> norm_invariant A h ->
  alg_donaldson_step D lg ex pi splitn m V draw true kk h ps (avg W (flatten zss)) batches bs = Ok H' -> norm_invariant A H'.
Proof. exact rot_step_all. Qed.
Print Assumptions rotation_steps.

(** A fixed point of the step on a sample which does not split is invariant. *)
Theorem rotation_balanced : forall (C : numClosedFieldType) (D : forall n : nat, ('rV[C]_n -> C) -> 'rV[C]_n -> 'rV[C]_n), diff_ok D ->
  forall (lg ex : C -> C) (pi : C) m (V : variety C) ps (Q : {mpoly C[m.+2]}),
  hypersurface V ps m m.+2 -> defined_by V ps Q -> 0 < pi -> smooth D V ps m ->
  forall A : 'M[C]_m.+2, unitary A -> (forall x, peval Q (x *m A) = peval Q x) ->
  forall (key : Type) (draw : key -> seq C -> nat -> res (seq (seq C))) k B, basis_full m.+1 k = Ok B -> (0 < k)%N ->
  forall (splitn : key -> nat -> seq key) kk batches bs zss W,
  rseq [seq draw k' ps bs | k' <- splitn kk batches] = Ok zss ->
  (forall zs, zs \in zss -> size zs = bs /\ points_on V ps m zs) ->
  (forall z, z \in flatten zss -> has_weight pi m.+2 Q z (W z)) ->
  (forall v : 'rV[C]_(size (power_matrix B)), v != 0 ->
     exists2 z, z \in flatten zss & \sum_a v 0 a * hom_sections B z 0 a != 0) ->
  zss != [::] -> (0 < bs)%N -> rotated_to_itself A (flatten zss) ->
  let pts := [seq [seq (hom_sections B z, Some (W z)) | z <- zs] | zs <- zss] in let vol := avg W (flatten zss) in
  forall g : 'M[C]_(size (power_matrix B)), hermitian g -> posdef g ->
  alg_donaldson_step D lg ex pi splitn m V draw true kk g ps vol batches bs = Ok g ->
  indecomposable (flatten pts) -> norm_invariant A g.
Proof. exact rot_balanced_all. Qed.
Print Assumptions rotation_balanced.

(** On a stable sample the steps converge to an invariant matrix, whatever the first matrix is. *)
Theorem rotation_limit : forall (D : forall n : nat, ('rV[CR]_n -> CR) -> 'rV[CR]_n -> 'rV[CR]_n), diff_ok D ->
  forall (lg ex : CR -> CR) (pi : CR) m (V : variety CR) ps (Q : {mpoly CR[m.+2]}),
  hypersurface V ps m m.+2 -> defined_by V ps Q -> 0 < pi -> smooth D V ps m ->
  forall A : 'M[CR]_m.+2, unitary A -> (forall x, peval Q (x *m A) = peval Q x) ->
  forall (key : Type) (draw : key -> seq CR -> nat -> res (seq (seq CR))) k B, basis_full m.+1 k = Ok B -> (0 < k)%N ->
  forall (splitn : key -> nat -> seq key) kk batches bs zss W,
  rseq [seq draw k' ps bs | k' <- splitn kk batches] = Ok zss ->
  (forall zs, zs \in zss -> size zs = bs /\ points_on V ps m zs) ->
  (forall z, z \in flatten zss -> has_weight pi m.+2 Q z (W z)) ->
  (forall v : 'rV[CR]_(size (power_matrix B)), v != 0 ->
     exists2 z, z \in flatten zss & \sum_a v 0 a * hom_sections B z 0 a != 0) ->
  zss != [::] -> (0 < bs)%N -> rotated_to_itself A (flatten zss) ->
  let pts := [seq [seq (hom_sections B z, Some (W z)) | z <- zs] | zs <- zss] in let vol := avg W (flatten zss) in
  stable (flatten pts) ->
  forall hs : nat -> 'M[CR]_(size (power_matrix B)), hermitian (hs 0%N) -> posdef (hs 0%N) ->
  (forall j, alg_donaldson_step D lg ex pi splitn m V draw true kk (hs j) ps vol batches bs = Ok (hs j.+1)) ->
  exists L, [/\ hermitian L, posdef L, converges_to hs L & norm_invariant A L].
Proof. exact rot_limit. Qed.
Print Assumptions rotation_limit.

(** The rotation with cosine 3/5 on x0^2 + x1^2 = 0, which consists of the points (1 : i) and (1 : -i). *)
Example rotation_of_pair (C : numClosedFieldType) : [/\ unitary (rot2 C),
  forall x, peval (dwork_Q 0 (0 : C)) (x *m rot2 C) = peval (dwork_Q 0 0) x,
  rotated_to_itself (rot2 C) (pair_points C),
  norm_invariant (rot2 C) (1%:M : 'M[C]_(size (power_matrix pair_basis))) &
  ~ norm_invariant (rot2 C) (diag_mx (\row_j (if j == 0 then 1 else 2%:R)) : 'M[C]_(size (power_matrix pair_basis)))].
Proof.
by have [a b] := rot2_norm C; split=> //; [exact: rot2_unitary|exact: rot2_quadric|exact: rot2_points].
Qed.
