(** Property C159: the curvature under linear changes of the homogeneous coordinates. *)
From Coq Require Import ZArith Reals.
From mathcomp Require Import all_ssreflect all_algebra.
From mathcomp Require Import complex.
From SsrMultinomials Require Import mpoly.
From Verif Require Import Base ModelUtil ModelBasis ModelGeom SpecGeom Herm SpecBasis SpecSections SpecPatch PolyGrad
  RealField ComplexR ProofPatch SpecLinear ProofLinear4 ProofLinear8.
Delimit Scope Z_scope with Z.

Set Implicit Arguments.
Unset Strict Implicit.
Unset Printing Implicit Defensive.

Import GRing.Theory Num.Theory.
Local Open Scope ring_scope.
Delimit Scope R_scope with RR.

(** The metric, the Ricci tensor and the Ricci scalar of R H R^* on P'(x) = P(x A) = 0
    at x and those of H on P = 0 at x A. *)
Theorem linear_curvature : forall (m k e : nat) (B : basis), basis_full m.+1 k = Ok B -> (0 < k)%N ->
  forall (A : 'M[CR]_m.+2) (R : 'M[CR]_(size (power_matrix B))), A \in unitmx -> lin_sections A R ->
  forall (M : 'M[CR]_(size (power_matrix B))) (P P' : {mpoly CR[m.+2]}), hermitian M -> posdef M ->
  P \is e.-homog -> (forall u, peval P' u = peval P (u *m A)) ->
  forall (i j : 'I_m.+2) (d d' : 'I_m.+1) (z w : 'rV[CR]_m.+1) (T : 'M[CR]_m.+1),
  lin_hom A i z 0 j != 0 -> lin_change A i j z w T ->
  peval (dehom i P') z = 0 -> peval ((dehom i P')^`M(d)) z != 0 -> peval ((dehom j P)^`M(d')) w != 0 ->
  same_curvature (rc PI) (on_patch k (R *m M *m adjm R) P' i d z) (on_patch k M P j d' w).
Proof. exact curvature_lin. Qed.
Print Assumptions linear_curvature.

(** The rotation which takes (1 : 2/11 : 0) to (1 : 2 : 0), a point of X1^e = 2^e X0^e. *)
Example rotation_curvature (e k : nat) : (0 < e)%N -> (0 < k)%N -> exists2 B, basis_full 2 k = Ok B &
  exists (R : 'M[CR]_(size (power_matrix B))) (d : 'I_2), [/\ R \in unitmx, lin_sections (rot CR) R &
  same_curvature (rc PI) (on_patch k (R *m adjm R) (rot_P CR e) 0 d (rot_pt CR))
    (on_patch k 1%:M (two_P CR e) 1 0 (half_pt CR))].
Proof. exact: rot_curvature. Qed.
