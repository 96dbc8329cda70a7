(** Conclusion of the theorems about the metric over the complex numbers. *)
From Coq Require Import ZArith Reals.
From mathcomp Require Import all_ssreflect all_algebra.
From mathcomp Require Import complex.
From SsrMultinomials Require Import mpoly.
From Verif Require Import Base ModelGeom Deriv Wirtinger SpecGeom Herm PolyGrad RealField ComplexR.
Delimit Scope Z_scope with Z.

Set Implicit Arguments.
Unset Strict Implicit.
Unset Printing Implicit Defensive.

Import GRing.Theory Num.Theory.
Local Open Scope ring_scope.

(** At the point [z] of the hypersurface [Q] = 0: g_loc is positive definite and,
    in the coordinates other than [d] of a parametrisation [phi] of the
    hypersurface near [z], the matrix of mixed derivatives of the potential;
    ricci_loc is that of - log det g_loc. *)
Definition metric_conclusion (m N : nat) (Q : {mpoly CR[m.+1]}) (d : 'I_m.+1) (z : 'rV[CR]_m.+1)
    (o : 'rV[CR]_m.+1 -> objects CR N m) : Prop :=
  exists g R (phi : 'rV[CR]_m -> 'rV[CR]_m.+1), let x := \row_a z 0 (lift d a) in
  [/\ ob_g_loc (rc PI) (o z) = Ok g /\ ob_ricci_loc (rc PI) (o z) = Ok R, posdef g,
      phi x = z /\ local_parametrisation (peval Q) (pgrad Q) d phi x,
      is_mixed (fun y => ob_kahler clog (rc PI) (o (phi y))) x g &
      is_mixed (fun y => - clog (\det (res_mx (ob_g_loc (rc PI) (o (phi y)))))) x R].

