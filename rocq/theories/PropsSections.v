(** Sections of the bases of monomials, the hypersurface, and the metric. *)
From Coq Require Import ZArith.
From mathcomp Require Import all_ssreflect all_algebra.
From SsrMultinomials Require Import mpoly.
From Verif Require Import Base ModelUtil ModelProjective SpecMon ModelBasis ModelGeom Deriv Bridge SpecGeom Herm SpecBasis
  SpecSections PolyGrad Implicit2 ProofSections.
Delimit Scope Z_scope with Z.

Set Implicit Arguments.
Unset Strict Implicit.
Unset Printing Implicit Defensive.

Import GRing.Theory Num.Theory.
Local Open Scope ring_scope.

(** *** C83: smooth points of a hypersurface have a parametrisation *)
Theorem smooth_point_parametrised : forall (C : numClosedFieldType) (m : nat) (d : 'I_m.+1)
    (Q : {mpoly C[m.+1]}) (z0 : 'rV[C]_m.+1),
  peval Q z0 = 0 -> peval (Q^`M(d)) z0 != 0 ->
  exists phi : 'rV[C]_m -> 'rV[C]_m.+1, let others (z : 'rV[C]_m.+1) := \row_a z 0 (lift d a) in
  [/\ phi (others z0) = z0, local_parametrisation (peval Q) (pgrad Q) d phi (others z0) &
      exists2 r : C, 0 < r & forall z, norm1 (z - z0) < r -> peval Q z = 0 -> phi (others z) = z].
Proof. exact implicit_function. Qed.
Print Assumptions smooth_point_parametrised.

(** x^3 + y^3 + 1 = 0 near (-1, 0) *)
Example smooth_point_ex (C : numClosedFieldType) :
  peval (cubic_Q C) (cubic_pt C) = 0 /\ peval ((cubic_Q C)^`M(0)) (cubic_pt C) != 0.
Proof. exact: cubic_value. Qed.

(** *** C84: the sections are the monomials with the patch coordinate set to 1 *)
Theorem sections_are_polynomials : forall (C : numClosedFieldType) (lg ex : C -> C) (n k : nat) (p : 'I_n.+1)
    (B : basis),
  (basis_full n k = Ok B \/ exists (P : {mpoly C[n.+1]}) e, [/\ P != 0, P \is e.-homog,
     forall i, variable_occurs P i, basis_reduced P k = Ok B & power_matrix B <> [::]]) ->
  forall (z : 'rV[C]_n) precompute,
  (~~ precompute -> exp_log_ok lg ex /\ forall i, z 0 i != 0) ->
  basis_call lg ex B (row_seq z) (Some (Z.of_nat p)) precompute =
  Ok [seq peval (section_polys C p s) z | s <- enum 'I_(size (power_matrix B))].
Proof. exact class_sections. Qed.
Print Assumptions sections_are_polynomials.

(** The value of the polynomial with one coordinate set to 1. *)
Theorem dehomogenised_value : forall (C : numClosedFieldType) (n : nat) (p : 'I_n.+1) (P : {mpoly C[n.+1]})
    (z : 'rV[C]_n),
  peval (dehom p P) z = P.@[fun j => nth 0 (affine_to_hom (row_seq z) (Z.of_nat p)) j].
Proof. exact dehom_value. Qed.
Print Assumptions dehomogenised_value.

(** *** C85: the metric is positive *)
Theorem full_basis_metric_positive : forall (C : numClosedFieldType) (m k : nat) (p : 'I_m.+2) (B : basis),
  basis_full m.+1 k = Ok B -> (0 < k)%N ->
  forall (M : 'M[C]_(size (power_matrix B))) (pi : C), hermitian M -> posdef M -> 0 < pi ->
  forall (Q : {mpoly C[m.+1]}) (d : 'I_m.+1) (z : 'rV[C]_m.+1),
  let o := poly_objects M k (@section_polys C _ p (power_matrix B)) Q d z in
  [/\ 0 < ob_psi o, posdef (\matrix_(i, j) ob_g_proj pi o i j) &
      peval (Q^`M(d)) z != 0 ->
      exists g, [/\ ob_g_loc pi o = Ok g, posdef g & exists2 e, ob_eta pi o = Ok e & 0 < e]].
Proof. exact full_positive. Qed.
Print Assumptions full_basis_metric_positive.

Theorem reduced_basis_metric_positive : forall (C : numClosedFieldType) (m k e : nat) (p : 'I_m.+2)
    (P : {mpoly C[m.+2]}) (B : basis),
  P != 0 -> P \is e.-homog -> (forall i, variable_occurs P i) ->
  basis_reduced P k = Ok B -> (0 < k)%N ->
  forall (M : 'M[C]_(size (power_matrix B))) (pi : C), hermitian M -> posdef M -> 0 < pi ->
  let Q := dehom p P in
  forall (d : 'I_m.+1) (z : 'rV[C]_m.+1), peval Q z = 0 -> peval (Q^`M(d)) z != 0 ->
  let o := poly_objects M k (@section_polys C _ p (power_matrix B)) Q d z in
  0 < ob_psi o /\
  exists g, [/\ ob_g_loc pi o = Ok g, posdef g & exists2 x, ob_eta pi o = Ok x & 0 < x].
Proof. exact reduced_positive. Qed.
Print Assumptions reduced_basis_metric_positive.

(** Degree 0: there is one constant section and the metric, a quotient by the
    degree, is the totalised value 0 of the model; the code divides by zero. *)
Theorem degree_zero_degenerate : forall (C : numClosedFieldType) (m : nat) (p : 'I_m.+2) (B : basis),
  basis_full m.+1 0 = Ok B ->
  forall (M : 'M[C]_(size (power_matrix B))) (Q : {mpoly C[m.+1]}) (d : 'I_m.+1) (z : 'rV[C]_m.+1) i,
  let o := poly_objects M 0 (@section_polys C _ p (power_matrix B)) Q d z in
  ob_psi_h o i = 0 /\ forall j, ob_psi_ha o i j = 0.
Proof. exact degree_zero. Qed.
Print Assumptions degree_zero_degenerate.
