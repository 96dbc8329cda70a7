(** Notions for linear dependence of the sections on a hypersurface. *)
From Coq Require Import ZArith.
From mathcomp Require Import all_ssreflect all_algebra.
From SsrMultinomials Require Import mpoly.
From Verif Require Import Base ModelExpr ModelPoly ModelHom ModelVariety ModelBasis ModelAlg Bridge PolyGrad SpecPipe.

Set Implicit Arguments.
Unset Strict Implicit.
Unset Printing Implicit Defensive.

Import GRing.Theory Num.Theory.
Local Open Scope ring_scope.

Section Spec.
Variable C : numClosedFieldType.

(** x are homogeneous coordinates of a point of the hypersurface. *)
Definition point_on (V : variety C) (ps : seq C) m (x : 'rV[C]_m.+2) : Prop :=
  x != 0 /\ v_defining V (row_seq x) (PArr ps) (PatchNone C) = Ok 0.

(** The polynomial vanishes on the hypersurface. *)
Definition vanishes_on (V : variety C) (ps : seq C) m (f : {mpoly C[m.+2]}) : Prop :=
  forall x, point_on V ps x -> peval f x = 0.

(** No non-zero combination of the monomials of the basis vanishes on the hypersurface. *)
Definition independent_on (V : variety C) (ps : seq C) m (B : basis) : Prop :=
  forall v : 'rV[C]_(size (power_matrix B)),
  (forall x : 'rV[C]_m.+2, point_on V ps x -> \sum_a v 0 a * hom_sections B (row_seq x) 0 a = 0) -> v = 0.
End Spec.
