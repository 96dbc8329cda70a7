(** Property C164: the full and the reduced basis give the same metrics on the hypersurface. *)
From Coq Require Import ZArith Reals.
From mathcomp Require Import all_ssreflect all_algebra.
From mathcomp Require Import complex.
From SsrMultinomials Require Import mpoly.
From Verif Require Import Base ModelUtil ModelVariety ModelBasis ModelGeom ModelAlg ModelPipe.
From Verif Require Import SpecPoly SpecVariety SpecGeom SpecBasis SpecSections SpecPatch SpecAlg SpecPipe SpecReduce Herm.
From Verif Require Import Bridge PolyGrad ProofAlg ProofAlg3 RealField ComplexR ProofComplex ProofReduce2 ProofReduce3.
Delimit Scope Z_scope with Z.

Set Implicit Arguments.
Unset Strict Implicit.
Unset Printing Implicit Defensive.

Import GRing.Theory Num.Theory.
Local Open Scope ring_scope.
Delimit Scope R_scope with RR.

(** Every metric of one basis is a metric of the other. *)
Theorem reduced_same_metrics : forall (C : numClosedFieldType) (D : forall n : nat, ('rV[C]_n -> C) -> 'rV[C]_n -> 'rV[C]_n), diff_ok D ->
  forall (pi : C) m e (V : variety C) ps (Q : {mpoly C[m.+2]}),
  hypersurface V ps m e -> defined_by V ps Q -> 0 < pi -> Q != 0 -> (forall i, variable_occurs Q i) ->
  forall k F B, (0 < k)%N -> basis_full m.+1 k = Ok F -> basis_reduced Q k = Ok B ->
  (forall h : 'M[C]_(size (power_matrix F)), hermitian h -> posdef h ->
     exists h' : 'M[C]_(size (power_matrix B)), [/\ hermitian h', posdef h' & same_metrics D pi m V ps h h']) /\
  (forall h' : 'M[C]_(size (power_matrix B)), hermitian h' -> posdef h' ->
     exists h : 'M[C]_(size (power_matrix F)), [/\ hermitian h, posdef h & same_metrics D pi m V ps h h']).
Proof. exact reduced_all. Qed.
Print Assumptions reduced_same_metrics.

(** Over the complex numbers, with the curvature. *)
Theorem reduced_same_ricci : forall (D : forall n : nat, ('rV[CR]_n -> CR) -> 'rV[CR]_n -> 'rV[CR]_n), diff_ok D ->
  forall m e (V : variety CR) ps (Q : {mpoly CR[m.+2]}),
  hypersurface V ps m e -> defined_by V ps Q -> Q != 0 -> (forall i, variable_occurs Q i) ->
  forall k F B, (0 < k)%N -> basis_full m.+1 k = Ok F -> basis_reduced Q k = Ok B ->
  (forall h : 'M[CR]_(size (power_matrix F)), hermitian h -> posdef h ->
     exists h' : 'M[CR]_(size (power_matrix B)),
     [/\ hermitian h', posdef h', same_metrics D (rc PI) m V ps h h' & same_ricci D (rc PI) m V ps h h']) /\
  (forall h' : 'M[CR]_(size (power_matrix B)), hermitian h' -> posdef h' ->
     exists h : 'M[CR]_(size (power_matrix F)),
     [/\ hermitian h, posdef h, same_metrics D (rc PI) m V ps h h' & same_ricci D (rc PI) m V ps h h']).
Proof. exact reduced_ricci_all. Qed.
Print Assumptions reduced_same_ricci.

(** Matrices which give the same metrics have the same sigma accuracy on every sample. *)
Theorem same_metrics_same_sigma : forall (C : numClosedFieldType) (D : forall n : nat, ('rV[C]_n -> C) -> 'rV[C]_n -> 'rV[C]_n), diff_ok D ->
  forall (lg ex : C -> C) (pi : C) m e (V : variety C) ps (Q : {mpoly C[m.+2]}),
  hypersurface V ps m e -> defined_by V ps Q -> 0 < pi -> smooth D V ps m ->
  forall (key : Type) (draw : key -> seq C -> nat -> res (seq (seq C))) k k' B B',
  basis_for k Q B -> basis_for k' Q B' -> (0 < k)%N -> (0 < k')%N ->
  forall (h : 'M[C]_(size (power_matrix B))) (h' : 'M[C]_(size (power_matrix B'))) kk count zs,
  hermitian h -> posdef h -> hermitian h' -> posdef h' -> same_metrics D pi m V ps h h' ->
  draw kk ps count = Ok zs -> points_on V ps m zs -> zs != [::] ->
  alg_sigma_accuracy D lg ex pi m V draw kk ps (HMat h) count =
  alg_sigma_accuracy D lg ex pi m V draw kk ps (HMat h') count.
Proof. exact same_sigma. Qed.
Print Assumptions same_metrics_same_sigma.

(** The Dwork polynomials meet the hypotheses, and from degree m + 2 on the reduced basis is smaller. *)
Example dwork_bases_differ : forall (C : numClosedFieldType) m (c : C),
  [/\ dwork_Q m c != 0, forall i, variable_occurs (dwork_Q m c) i & forall k, (m.+2 <= k)%N ->
   exists F B, [/\ basis_full m.+1 k = Ok F, basis_reduced (dwork_Q m c) k = Ok B,
     (size (power_matrix B) < size (power_matrix F))%N &
     (basis_size F - basis_size B)%N = 'C(m.+1 + (k - m.+2), k - m.+2)]].
Proof. by move=> C m c; split; [exact: dwork_neq0|exact: dwork_occurs|exact: dwork_bases]. Qed.

(** There are points at which the metrics are compared. *)
Example fermat_has_points : forall (C : numClosedFieldType) m, exists (x : 'rV[C]_m.+2) zs i d,
  point_args (@choice_D C) (fermat_variety C m) [::] x zs (Some i) (Some d) /\
  point_args (@choice_D C) (fermat_variety C m) [::] x (row_seq x) None None.
Proof. exact fermat_args. Qed.
