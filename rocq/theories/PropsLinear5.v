(** Property C167: metric, eta and curvature at x and x A, for an invariant kernel over the reduced basis. *)
From Coq Require Import ZArith Reals.
From mathcomp Require Import all_ssreflect all_algebra all_fingroup.
From mathcomp Require Import complex.
From SsrMultinomials Require Import mpoly.
From Verif Require Import Base ModelUtil ModelExpr ModelPoly ModelHom ModelBasis ModelGeom ModelVariety ModelAlg ModelPipe
  Bridge Herm SpecGeom SpecBasis SpecSections SpecPatch SpecAlg SpecPipe PolyGrad ProofAlg RealField ComplexR
  SpecLinear SpecRank SpecRotate2 ProofLinear14.
Delimit Scope Z_scope with Z.

Set Implicit Arguments.
Unset Strict Implicit.
Unset Printing Implicit Defensive.

Import GRing.Theory Num.Theory.
Local Open Scope ring_scope.

(** A keeps Q and the kernel of M: x -> x A is an isometry of the metric of M. *)
Theorem kernel_isometry : forall (C : numClosedFieldType) m k e (V : variety C) ps (Q : {mpoly C[m.+2]}) (B : basis),
  defined_by V ps Q -> Q != 0 -> Q \is e.-homog -> (forall i, variable_occurs Q i) -> basis_reduced Q k = Ok B -> (0 < k)%N ->
  independent_on V ps m B -> forall (A : 'M[C]_m.+2), A \in unitmx -> (forall x, peval Q (x *m A) = peval Q x) ->
  forall M : 'M[C]_(size (power_matrix B)), hermitian M -> posdef M -> kernel_invariant V ps A M ->
  forall (i j : 'I_m.+2) (d d' : 'I_m.+1) (z w : 'rV[C]_m.+1) (T : 'M[C]_m.+1),
  lin_hom A i z 0 j != 0 -> lin_change A i j z w T ->
  peval (dehom i Q) z = 0 -> peval ((dehom i Q)^`M(d)) z != 0 -> peval ((dehom j Q)^`M(d')) w != 0 ->
  forall pi : C, 0 < pi -> exists g1 g2 J1 J2 S e1 e2,
  [/\ ob_g_loc pi (on_patch k M Q i d z) = Ok g1 /\ ob_g_loc pi (on_patch k M Q j d' w) = Ok g2,
     ob_jac (on_patch k M Q i d z) = Ok J1 /\ ob_jac (on_patch k M Q j d' w) = Ok J2,
     [/\ S \in unitmx, J1 *m T = S *m J2 & g1 = S *m g2 *m adjm S],
     ob_eta pi (on_patch k M Q i d z) = Ok e1 /\ ob_eta pi (on_patch k M Q j d' w) = Ok e2 &
     e = m.+2 -> e1 = `|\det A| ^+ 2 * e2].
Proof. exact sym_metric_all. Qed.
Print Assumptions kernel_isometry.

(** It keeps the Ricci tensor and the Ricci scalar as well. *)
Theorem kernel_curvature : forall m k e (V : variety CR) ps (Q : {mpoly CR[m.+2]}) (B : basis),
  defined_by V ps Q -> Q != 0 -> Q \is e.-homog -> (forall i, variable_occurs Q i) -> basis_reduced Q k = Ok B -> (0 < k)%N ->
  independent_on V ps m B -> forall (A : 'M[CR]_m.+2), A \in unitmx -> (forall x, peval Q (x *m A) = peval Q x) ->
  forall M : 'M[CR]_(size (power_matrix B)), hermitian M -> posdef M -> kernel_invariant V ps A M ->
  forall (i j : 'I_m.+2) (d d' : 'I_m.+1) (z w : 'rV[CR]_m.+1) (T : 'M[CR]_m.+1),
  lin_hom A i z 0 j != 0 -> lin_change A i j z w T ->
  peval (dehom i Q) z = 0 -> peval ((dehom i Q)^`M(d)) z != 0 -> peval ((dehom j Q)^`M(d')) w != 0 ->
  same_curvature (rc PI) (on_patch k M Q i d z) (on_patch k M Q j d' w).
Proof. exact sym_curvature. Qed.
Print Assumptions kernel_curvature.

(** One matrix over the reduced basis has a kernel which all unitary A keeping Q keep. *)
Theorem invariant_kernel_exists : forall (C : numClosedFieldType) m k e (V : variety C) ps (Q : {mpoly C[m.+2]}) (B : basis),
  defined_by V ps Q -> Q != 0 -> Q \is e.-homog -> (forall i, variable_occurs Q i) -> basis_reduced Q k = Ok B ->
  exists M : 'M[C]_(size (power_matrix B)), [/\ hermitian M, posdef M &
    forall A : 'M[C]_m.+2, unitary A -> (forall x, peval Q (x *m A) = peval Q x) -> kernel_invariant V ps A M].
Proof. exact sym_exists. Qed.
Print Assumptions invariant_kernel_exists.

(** All permutations of the coordinates of a Fermat hypersurface, in all degrees. *)
Example fermat_permutations : forall (C : numClosedFieldType) m k (s : {perm 'I_m.+3}), exists B (M : 'M[C]_(size (power_matrix B))),
  [/\ basis_reduced (dwork_Q m.+1 (0 : C)) k = Ok B, independent_on (fermat_variety C m.+1) [::] m.+1 B,
    (perm_mx s : 'M[C]_m.+3) \in unitmx /\ (forall x : 'rV[C]_m.+3, peval (dwork_Q m.+1 0) (x *m perm_mx s) = peval (dwork_Q m.+1 0) x),
    hermitian M /\ posdef M & kernel_invariant (fermat_variety C m.+1) [::] (perm_mx s) M].
Proof. exact fermat_perm. Qed.
