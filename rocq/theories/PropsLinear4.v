(** Property C166: Donaldson steps on samples with a unitary symmetry, for the full and the reduced basis. *)
From Coq Require Import ZArith.
From mathcomp Require Import all_ssreflect all_algebra.
From SsrMultinomials Require Import mpoly.
From Verif Require Import Base ModelUtil ModelVariety ModelBasis ModelDonaldson ModelAlg ModelPipe.
From Verif Require Import SpecPoly SpecVariety SpecGeom SpecBasis SpecSections SpecPatch SpecAlg SpecDonaldson SpecPipe SpecStep Herm.
From Verif Require Import Bridge PolyGrad ProofAlg ProofStep ProofStep2 ComplexR ProofStep7 SpecLinear SpecRotate ProofLinear10 SpecRank SpecRotate2 ProofLinear12.
Delimit Scope Z_scope with Z.

Set Implicit Arguments.
Unset Strict Implicit.
Unset Printing Implicit Defensive.

Import GRing.Theory Num.Theory.
Local Open Scope ring_scope.

(** A is unitary and keeps Q, and the sample is its own image under A: the step keeps the kernels which A keeps. *)
Theorem rotation_kernel_steps : forall (C : numClosedFieldType) (D : forall n : nat, ('rV[C]_n -> C) -> 'rV[C]_n -> 'rV[C]_n), diff_ok D ->
  forall (lg ex : C -> C) (pi : C) m (V : variety C) ps (Q : {mpoly C[m.+2]}),
  hypersurface V ps m m.+2 -> defined_by V ps Q -> 0 < pi -> smooth D V ps m ->
  forall A : 'M[C]_m.+2, unitary A -> (forall x, peval Q (x *m A) = peval Q x) ->
  forall (key : Type) (draw : key -> seq C -> nat -> res (seq (seq C))) k B, basis_for k Q B -> (0 < k)%N ->
  forall (splitn : key -> nat -> seq key) kk batches bs zss W,
  rseq [seq draw k' ps bs | k' <- splitn kk batches] = Ok zss ->
  (forall zs, zs \in zss -> size zs = bs /\ points_on V ps m zs) ->
  (forall z, z \in flatten zss -> has_weight pi m.+2 Q z (W z)) ->
  (forall v : 'rV[C]_(size (power_matrix B)), v != 0 ->
     exists2 z, z \in flatten zss & \sum_a v 0 a * hom_sections B z 0 a != 0) ->
  zss != [::] -> (0 < bs)%N -> rotated_to_itself A (flatten zss) ->
  forall h H' : 'M[C]_(size (power_matrix B)), hermitian h -> posdef h -> kernel_invariant V ps A h ->
  alg_donaldson_step D lg ex pi splitn m V draw true kk h ps (avg W (flatten zss)) batches bs = Ok H' -> kernel_invariant V ps A H'.
Proof. exact ker_step_all. Qed.
Print Assumptions rotation_kernel_steps.

(** A fixed point of the step on a sample which does not split has an invariant kernel. *)
Theorem rotation_kernel_balanced : forall (C : numClosedFieldType) (D : forall n : nat, ('rV[C]_n -> C) -> 'rV[C]_n -> 'rV[C]_n), diff_ok D ->
  forall (lg ex : C -> C) (pi : C) m (V : variety C) ps (Q : {mpoly C[m.+2]}),
  hypersurface V ps m m.+2 -> defined_by V ps Q -> 0 < pi -> smooth D V ps m ->
  forall A : 'M[C]_m.+2, unitary A -> (forall x, peval Q (x *m A) = peval Q x) ->
  forall (key : Type) (draw : key -> seq C -> nat -> res (seq (seq C))) k B, basis_for k Q B -> (0 < k)%N ->
  forall (splitn : key -> nat -> seq key) kk batches bs zss W,
  rseq [seq draw k' ps bs | k' <- splitn kk batches] = Ok zss ->
  (forall zs, zs \in zss -> size zs = bs /\ points_on V ps m zs) ->
  (forall z, z \in flatten zss -> has_weight pi m.+2 Q z (W z)) ->
  (forall v : 'rV[C]_(size (power_matrix B)), v != 0 ->
     exists2 z, z \in flatten zss & \sum_a v 0 a * hom_sections B z 0 a != 0) ->
  zss != [::] -> (0 < bs)%N -> rotated_to_itself A (flatten zss) ->
  let pts := [seq [seq (hom_sections B z, Some (W z)) | z <- zs] | zs <- zss] in let vol := avg W (flatten zss) in
  forall g : 'M[C]_(size (power_matrix B)), hermitian g -> posdef g ->
  alg_donaldson_step D lg ex pi splitn m V draw true kk g ps vol batches bs = Ok g ->
  indecomposable (flatten pts) -> kernel_invariant V ps A g.
Proof. exact ker_balanced_all. Qed.
Print Assumptions rotation_kernel_balanced.

(** On a stable sample the steps converge to a matrix with an invariant kernel, whatever the first matrix is. *)
Theorem rotation_kernel_limit : forall (D : forall n : nat, ('rV[CR]_n -> CR) -> 'rV[CR]_n -> 'rV[CR]_n), diff_ok D ->
  forall (lg ex : CR -> CR) (pi : CR) m (V : variety CR) ps (Q : {mpoly CR[m.+2]}),
  hypersurface V ps m m.+2 -> defined_by V ps Q -> 0 < pi -> smooth D V ps m ->
  forall A : 'M[CR]_m.+2, unitary A -> (forall x, peval Q (x *m A) = peval Q x) ->
  forall (key : Type) (draw : key -> seq CR -> nat -> res (seq (seq CR))) k B, basis_for k Q B -> (0 < k)%N ->
  forall (splitn : key -> nat -> seq key) kk batches bs zss W,
  rseq [seq draw k' ps bs | k' <- splitn kk batches] = Ok zss ->
  (forall zs, zs \in zss -> size zs = bs /\ points_on V ps m zs) ->
  (forall z, z \in flatten zss -> has_weight pi m.+2 Q z (W z)) ->
  (forall v : 'rV[CR]_(size (power_matrix B)), v != 0 ->
     exists2 z, z \in flatten zss & \sum_a v 0 a * hom_sections B z 0 a != 0) ->
  zss != [::] -> (0 < bs)%N -> rotated_to_itself A (flatten zss) ->
  let pts := [seq [seq (hom_sections B z, Some (W z)) | z <- zs] | zs <- zss] in let vol := avg W (flatten zss) in
  stable (flatten pts) ->
  forall hs : nat -> 'M[CR]_(size (power_matrix B)), hermitian (hs 0%N) -> posdef (hs 0%N) ->
  (forall j, alg_donaldson_step D lg ex pi splitn m V draw true kk (hs j) ps vol batches bs = Ok (hs j.+1)) ->
  exists L, [/\ hermitian L, posdef L, converges_to hs L & kernel_invariant V ps A L].
Proof. exact ker_limit. Qed.
Print Assumptions rotation_kernel_limit.

(** With an invariant kernel the norms of the sections on the hypersurface are invariant. *)
Theorem kernel_invariant_norms : forall (C : numClosedFieldType) m (V : variety C) ps (A : 'M[C]_m.+2) B (h : 'M[C]_(size (power_matrix B))),
  kernel_invariant V ps A h -> forall x : 'rV[C]_m.+2, point_on V ps x ->
  hform h (hom_sections B (row_seq (x *m A))) = hform h (hom_sections B (row_seq x)).
Proof. exact ker_norms. Qed.
Print Assumptions kernel_invariant_norms.

(** The points (1 : i) and (1 : -i) of x0^2 + x1^2 = 0 are their own images under the rotation with cosine 3/5,
    and the monomials of a reduced basis of any degree are independent on them. *)
Example reduced_rotation_of_pair (C : numClosedFieldType) k : [/\ unitary (rot2 C),
  forall x, peval (dwork_Q 0 (0 : C)) (x *m rot2 C) = peval (dwork_Q 0 0) x,
  rotated_to_itself (rot2 C) (pair_points C) & exists B,
  [/\ basis_reduced (dwork_Q 0 (0 : C)) k = Ok B, basis_for k (dwork_Q 0 (0 : C)) B &
      forall v : 'rV[C]_(size (power_matrix B)), v != 0 ->
      exists2 z, z \in pair_points C & \sum_a v 0 a * hom_sections B z 0 a != 0]].
Proof. by split; [exact: rot2_unitary|exact: rot2_quadric|exact: rot2_points|exact: pair_reduced]. Qed.
