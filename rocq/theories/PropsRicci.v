(** Properties C92-C93: the curvature does not depend on the coordinates. *)
From Coq Require Import ZArith Reals.
From mathcomp Require Import all_ssreflect all_algebra.
From mathcomp Require Import complex.
From SsrMultinomials Require Import mpoly.
From Verif Require Import Base ModelUtil ModelBasis ModelGeom SpecGeom Herm SpecBasis SpecSections SpecPatch PolyGrad
  RealField ComplexR ProofSections ProofPatch ProofRicci2.
Delimit Scope Z_scope with Z.

Set Implicit Arguments.
Unset Strict Implicit.
Unset Printing Implicit Defensive.

Import GRing.Theory Num.Theory.
Local Open Scope ring_scope.
Delimit Scope R_scope with RR.

(** *** C92: on two patches, with any dependent coordinates *)
Theorem ricci_patch : forall (m k e : nat) (P : {mpoly CR[m.+2]}) (B : basis), basis_for k P B ->
  P \is e.-homog -> (0 < k)%N ->
  forall M : 'M[CR]_(size (power_matrix B)), hermitian M -> posdef M ->
  forall (i j : 'I_m.+2) (d d' : 'I_m.+1) (z w : 'rV[CR]_m.+1) (T : 'M[CR]_m.+1),
  i != j -> hom_coord i j z != 0 -> chart_change i j z w T ->
  peval (dehom i P) z = 0 -> peval ((dehom i P)^`M(d)) z != 0 -> peval ((dehom j P)^`M(d')) w != 0 ->
  same_curvature (rc PI) (on_patch k M P i d z) (on_patch k M P j d' w).
Proof. exact curvature_patch. Qed.
Print Assumptions ricci_patch.

(** *** C93: on one patch, with two dependent coordinates *)
Theorem ricci_dependent : forall (m k e : nat) (P : {mpoly CR[m.+2]}) (B : basis), basis_for k P B ->
  P \is e.-homog -> (0 < k)%N ->
  forall M : 'M[CR]_(size (power_matrix B)), hermitian M -> posdef M ->
  forall (i : 'I_m.+2) (d d' : 'I_m.+1) (z : 'rV[CR]_m.+1),
  peval (dehom i P) z = 0 -> peval ((dehom i P)^`M(d)) z != 0 -> peval ((dehom i P)^`M(d')) z != 0 ->
  same_curvature (rc PI) (on_patch k M P i d z) (on_patch k M P i d' z).
Proof. exact curvature_dep. Qed.
Print Assumptions ricci_dependent.

(** The point (1 : 2 : 0) of X1^e = 2^e X0^e on patches 0 and 1, full basis of degree k, H the identity. *)
Example ricci_two_patches (e k : nat) : (0 < e)%N -> (0 < k)%N -> exists2 B, basis_full 2 k = Ok B &
  same_curvature (rc PI) (on_patch (B := B) k 1%:M (two_P CR e) 0 0 (two_pt CR))
    (on_patch (B := B) k 1%:M (two_P CR e) 1 0 (half_pt CR)).
Proof. exact: two_curvature. Qed.

(** The line X0 + X1 + X2 at (1 : -1 : 0), where both coordinates can be dependent. *)
Example ricci_two_dependent (k : nat) : (0 < k)%N -> exists2 B, basis_full 2 k = Ok B &
  same_curvature (rc PI) (on_patch (B := B) k 1%:M line_P 0 0 (cubic_pt CR)) (on_patch (B := B) k 1%:M line_P 0 1 (cubic_pt CR)).
Proof. exact: line_curvature. Qed.
