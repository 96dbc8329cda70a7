(** Notions used in the statements about linear changes of the homogeneous coordinates. *)
From Coq Require Import ZArith.
From mathcomp Require Import all_ssreflect all_algebra.
From SsrMultinomials Require Import mpoly.
From Verif Require Import Base ModelUtil ModelProjective ModelBasis ModelGeom Deriv Bridge SpecGeom Herm SpecBasis SpecSections SpecPatch SpecPipe PolyGrad.
Delimit Scope Z_scope with Z.

Set Implicit Arguments.
Unset Strict Implicit.
Unset Printing Implicit Defensive.

Import GRing.Theory Num.Theory.
Local Open Scope ring_scope.

Section Spec.
Variables (C : numClosedFieldType) (n : nat) (A : 'M[C]_n.+1).

(** The homogeneous coordinates x A of the point with coordinates z on patch i. *)
Definition lin_hom (i : 'I_n.+1) (z : 'rV[C]_n) : 'rV[C]_n.+1 :=
  seq_row n.+1 (affine_to_hom (row_seq z) (Z.of_nat i)) *m A.

(** w are the coordinates on patch j of the point x A, where x is the point with
    coordinates z on patch i, and T is the Jacobian of this map. *)
Definition lin_change (i j : 'I_n.+1) (z w : 'rV[C]_n) (T : 'M[C]_n) : Prop :=
  hom_to_affine (row_seq (lin_hom i z)) (Z.of_nat j) = Ok (row_seq w) /\
  is_jac (fun y => res_row n (hom_to_affine (row_seq (lin_hom i y)) (Z.of_nat j))) z T.

(** R gives the values of the sections at x A from those at x. *)
Definition lin_sections (B : basis) (R : 'M[C]_(size (power_matrix B))) : Prop :=
  forall x : 'rV[C]_n.+1, hom_sections B (row_seq (x *m A)) = hom_sections B (row_seq x) *m R.
End Spec.

(** A keeps the lengths of the vectors. *)
Definition unitary (C : numClosedFieldType) n (A : 'M[C]_n) : Prop := A *m adjm A = 1%:M.

(** The points x A, for homogeneous coordinates x. *)
Definition lin_points (C : numClosedFieldType) n (A : 'M[C]_n) (zs : seq (seq C)) : seq (seq C) :=
  [seq row_seq (seq_row n z *m A) | z <- zs].
