(** Notions used in the statements about changes of patch. *)
From Coq Require Import ZArith.
From mathcomp Require Import all_ssreflect all_algebra.
From SsrMultinomials Require Import mpoly.
From Verif Require Import Base ModelUtil ModelProjective SpecMon ModelBasis ModelGeom Deriv Bridge SpecGeom Herm SpecBasis SpecSections PolyGrad.
Delimit Scope Z_scope with Z.

Set Implicit Arguments.
Unset Strict Implicit.
Unset Printing Implicit Defensive.

Import GRing.Theory.
Local Open Scope ring_scope.

(** B is the full basis of degree k, or the basis of degree k of some hypersurface. *)
Definition basis_class (C : numClosedFieldType) (n k : nat) (B : basis) : Prop :=
  basis_full n k = Ok B \/
  exists (P : {mpoly C[n.+1]}) e, [/\ P != 0, P \is e.-homog, forall i, variable_occurs P i & basis_reduced P k = Ok B].

(** The objects of the basis and of the hypersurface P = 0 on patch p, with
    dependent coordinate d. *)
Definition on_patch (C : numClosedFieldType) (m k : nat) (B : basis) (M : 'M[C]_(size (power_matrix B)))
    (P : {mpoly C[m.+2]}) (p : 'I_m.+2) (d : 'I_m.+1) (z : 'rV[C]_m.+1) : objects C (size (power_matrix B)) m :=
  poly_objects M k (@section_polys C _ p (power_matrix B)) (dehom p P) d z.

(** Homogeneous coordinate j of the point with affine coordinates z on patch i. *)
Definition hom_coord (C : numClosedFieldType) n (i j : 'I_n.+1) (z : 'rV[C]_n) : C :=
  nth 0 (affine_to_hom (row_seq z) (Z.of_nat i)) j.

(** w are the coordinates of z on patch j, T the Jacobian of the change. *)
Definition chart_change (C : numClosedFieldType) n (i j : 'I_n.+1) (z w : 'rV[C]_n) (T : 'M[C]_n) : Prop :=
  change_chart (row_seq z) (Z.of_nat i) (Z.of_nat j) = Ok (row_seq w) /\
  is_jac (fun y => res_row n (change_chart (row_seq y) (Z.of_nat i) (Z.of_nat j))) z T.

(** B is the full basis of degree k, or the basis of degree k reduced by P. *)
Definition basis_for (C : numClosedFieldType) (n k : nat) (P : {mpoly C[n.+1]}) (B : basis) : Prop :=
  basis_full n k = Ok B \/ [/\ P != 0, forall i, variable_occurs P i & basis_reduced P k = Ok B].

(** The objects o and o' have metrics and Ricci tensors in local coordinates which
    are those of one hermitian metric and one tensor, in two systems of coordinates
    related by an invertible matrix, and the same Ricci scalar. *)
Definition same_curvature (C : numClosedFieldType) N m (pi : C) (o o' : objects C N m) : Prop :=
  exists g g' R R' A,
  [/\ ob_g_loc pi o = Ok g /\ ob_g_loc pi o' = Ok g', ob_ricci_loc pi o = Ok R /\ ob_ricci_loc pi o' = Ok R',
     A \in unitmx, g = A *m g' *m adjm A & R = A *m R' *m adjm A] /\
  exists r, ob_ricci_scalar pi o = Ok r /\ ob_ricci_scalar pi o' = Ok r.
