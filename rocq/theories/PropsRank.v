(** Property C165: when the matrix that a Donaldson step inverts is invertible. *)
From Coq Require Import ZArith.
From mathcomp Require Import all_ssreflect all_algebra.
From SsrMultinomials Require Import mpoly.
From Verif Require Import Base ModelUtil ModelExpr ModelPoly ModelHom ModelVariety ModelBasis ModelDonaldson ModelAlg ModelPipe.
From Verif Require Import SpecPoly SpecVariety SpecGeom SpecBasis SpecSections SpecPatch SpecAlg SpecPipe SpecDonaldson SpecRank Herm.
From Verif Require Import Bridge PolyGrad ProofAlg ProofReduce3 ProofRank ProofRank2.
Delimit Scope Z_scope with Z.

Set Implicit Arguments.
Unset Strict Implicit.
Unset Printing Implicit Defensive.

Import GRing.Theory Num.Theory.
Local Open Scope ring_scope.

(** T is invertible exactly if no combination of the sections vanishes at all points. *)
Theorem T_invertible_iff : forall (C : numClosedFieldType) (B : basis) (h : 'M[C]_(size (power_matrix B))) vol W zs,
  hermitian h -> posdef h -> 0 < vol -> (forall z, z \in zs -> 0 < W z /\ hom_sections B z != 0) ->
  T_mean h vol W zs \in unitmx <-> (forall v : 'rV[C]_(size (power_matrix B)),
    (forall z, z \in zs -> \sum_a v 0 a * hom_sections B z 0 a = 0) -> v = 0).
Proof. exact mean_unit. Qed.
Print Assumptions T_invertible_iff.

(** With fewer points than sections it never is. *)
Theorem T_few_points : forall (C : numClosedFieldType) (B : basis) (h : 'M[C]_(size (power_matrix B))) vol W zs,
  (size zs < size (power_matrix B))%N -> T_mean h vol W zs \notin unitmx.
Proof. exact rank_few_all. Qed.
Print Assumptions T_few_points.

(** With the full basis, from the degree of the hypersurface on, it never is. *)
Theorem T_full_basis_singular : forall (C : numClosedFieldType) m e (V : variety C) ps (Q : {mpoly C[m.+2]}),
  defined_by V ps Q -> Q != 0 -> Q \is e.-homog -> forall k F, (e <= k)%N -> basis_full m.+1 k = Ok F ->
  forall (h : 'M[C]_(size (power_matrix F))) vol W zs, points_on V ps m zs -> T_mean h vol W zs \notin unitmx.
Proof. exact rank_full_all. Qed.
Print Assumptions T_full_basis_singular.

(** The reduced basis is a basis on the hypersurface exactly if the polynomial divides all forms vanishing there. *)
Theorem reduced_independent_iff : forall (C : numClosedFieldType) m (V : variety C) ps (Q : {mpoly C[m.+2]}),
  defined_by V ps Q -> forall k e B, Q != 0 -> Q \is e.-homog -> (forall i, variable_occurs Q i) -> basis_reduced Q k = Ok B ->
  independent_on V ps m B <-> forall f : {mpoly C[m.+2]}, f \is k.-homog -> vanishes_on V ps f -> exists q, f = q * Q.
Proof. exact reduced_iff. Qed.
Print Assumptions reduced_independent_iff.

(** It is, if some line through (1 : 0 : ... : 0) meets the hypersurface in as many points as its degree. *)
Theorem reduced_independent_line : forall (C : numClosedFieldType) m e (V : variety C) ps (Q : {mpoly C[m.+2]}),
  defined_by V ps Q -> Q \is e.-homog -> (forall i, variable_occurs Q i) -> (0 < e)%N -> Q@_(U_(ord0) *+ e) != 0 ->
  forall (y : 'rV[C]_m.+1) ts, uniq ts -> size ts = e ->
  (forall t, t \in ts -> v_defining V (t :: row_seq y) (PArr ps) (PatchNone C) = Ok 0) ->
  forall k B, basis_reduced Q k = Ok B -> independent_on V ps m B.
Proof. exact rank_line_all. Qed.
Print Assumptions reduced_independent_line.

(** Every Dwork and Fermat variety of positive dimension, at every value of the parameter *)
Theorem reduced_independent_dwork : forall (C : numClosedFieldType) m f (c : C) k B,
  basis_reduced (dwork_Q m.+1 (dwork_factor_value f * c)) k = Ok B ->
  independent_on (dwork_variety m.+1 f) [:: c] m.+1 B.
Proof. exact dwork_independent. Qed.
Print Assumptions reduced_independent_dwork.

Theorem reduced_independent_fermat : forall (C : numClosedFieldType) m k B,
  basis_reduced (dwork_Q m.+1 0 : {mpoly C[m.+3]}) k = Ok B -> independent_on (fermat_variety C m.+1) [::] m.+1 B.
Proof. exact fermat_independent. Qed.
Print Assumptions reduced_independent_fermat.

(** Then as many points as sections are enough. *)
Theorem T_sample_exists : forall (C : numClosedFieldType) m (V : variety C) ps (B : basis), independent_on V ps m B ->
  exists zs, [/\ size zs = size (power_matrix B), points_on V ps m zs &
  forall (h : 'M[C]_(size (power_matrix B))) vol W, hermitian h -> posdef h -> 0 < vol ->
  (forall z, z \in zs -> 0 < W z) -> T_mean h vol W zs \in unitmx].
Proof. exact good_sample. Qed.
Print Assumptions T_sample_exists.

(** The hypotheses are met, with a full and a reduced basis of the same degree. *)
Example fermat_both : forall (C : numClosedFieldType) m k, (m.+3 <= k)%N -> exists F B zs,
  [/\ basis_full m.+2 k = Ok F, basis_reduced (dwork_Q m.+1 0 : {mpoly C[m.+3]}) k = Ok B,
      points_on (fermat_variety C m.+1) [::] m.+1 zs,
      T_mean (1%:M : 'M[C]_(size (power_matrix F))) 1 (fun _ => 1) zs \notin unitmx &
      T_mean (1%:M : 'M[C]_(size (power_matrix B))) 1 (fun _ => 1) zs \in unitmx].
Proof. exact fermat_both_bases. Qed.
