(** The function eta on a hypersurface. *)
From mathcomp Require Import all_ssreflect all_algebra.
From SsrMultinomials Require Import mpoly.
From Verif Require Import Base ModelGeom Deriv PolyGrad.

Set Implicit Arguments.
Unset Strict Implicit.
Unset Printing Implicit Defensive.

Import GRing.Theory Num.Theory.
Local Open Scope ring_scope.

(** The value of eta, 0 where it raises. *)
Definition eta_at (C : numClosedFieldType) N m (pi : C) (o : 'rV[C]_m.+1 -> objects C N m) (y : 'rV[C]_m.+1) : C :=
  if ob_eta pi (o y) is Ok E then E else 0.

(** z is a local maximum, or a local minimum, of eta on the zeros of Q. *)
Definition eta_below (C : numClosedFieldType) N m (pi : C) (Q : {mpoly C[m.+1]}) (o : 'rV[C]_m.+1 -> objects C N m)
    (z : 'rV[C]_m.+1) : Prop := exists2 r : C, 0 < r &
  forall y, norm1 (y - z) < r -> peval Q y = 0 -> eta_at pi o y <= eta_at pi o z.
Definition eta_above (C : numClosedFieldType) N m (pi : C) (Q : {mpoly C[m.+1]}) (o : 'rV[C]_m.+1 -> objects C N m)
    (z : 'rV[C]_m.+1) : Prop := exists2 r : C, 0 < r &
  forall y, norm1 (y - z) < r -> peval Q y = 0 -> eta_at pi o z <= eta_at pi o y.
