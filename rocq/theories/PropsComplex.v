(** The metric over the complex numbers, with the principal logarithm and pi. *)
From Coq Require Import ZArith Reals.
From mathcomp Require Import all_ssreflect all_algebra.
From mathcomp Require Import complex.
From SsrMultinomials Require Import mpoly.
From Verif Require Import Base ModelUtil SpecMon ModelBasis ModelGeom Deriv Wirtinger SpecGeom Herm SpecBasis
  SpecSections PolyGrad RealField ComplexR SpecComplex ProofSections ProofComplex.
Delimit Scope Z_scope with Z.

Set Implicit Arguments.
Unset Strict Implicit.
Unset Printing Implicit Defensive.

Import GRing.Theory Num.Theory.
Local Open Scope ring_scope.
Delimit Scope R_scope with RR.

(** C86: exp and log of the complex numbers are as the other theorems ask. *)
Theorem complex_exp_log : @exp_log_ok CR clog cexp.
Proof. exact cexp_clog_ok. Qed.
Print Assumptions complex_exp_log.

Theorem complex_log_near : forall x : CR, 0 < x -> log_near clog x.
Proof. exact clog_near. Qed.
Print Assumptions complex_log_near.

Theorem complex_log_product : forall x y : CR, 0 < x -> 0 < y -> clog (x * y) = clog x + clog y.
Proof. exact clog_pos_mul. Qed.
Print Assumptions complex_log_product.

Theorem complex_log_real : forall x : R, (0 < x)%RR -> clog (rc x) = rc (ln x).
Proof. exact clog_rc. Qed.
Print Assumptions complex_log_real.

(** C87: the metric of the full basis. *)
Theorem full_basis_metric : forall (m k : nat) (p : 'I_m.+2) (B : basis), basis_full m.+1 k = Ok B -> (0 < k)%N ->
  forall M : 'M[CR]_(size (power_matrix B)), hermitian M -> posdef M ->
  forall (Q : {mpoly CR[m.+1]}) (d : 'I_m.+1) (z : 'rV[CR]_m.+1),
  let o := poly_objects M k (@section_polys CR _ p (power_matrix B)) Q d in
  is_mixed (fun y => ob_kahler clog (rc PI) (o y)) z (ob_g_proj (rc PI) (o z)) /\
  (peval Q z = 0 -> peval (Q^`M(d)) z != 0 -> metric_conclusion Q d z o).
Proof. exact full_end. Qed.
Print Assumptions full_basis_metric.

(** C87: the metric of the basis reduced by the defining polynomial. *)
Theorem reduced_basis_metric : forall (m k e : nat) (p : 'I_m.+2) (P : {mpoly CR[m.+2]}) (B : basis),
  P != 0 -> P \is e.-homog -> (forall i, variable_occurs P i) ->
  basis_reduced P k = Ok B -> (0 < k)%N ->
  forall M : 'M[CR]_(size (power_matrix B)), hermitian M -> posdef M ->
  let Q := dehom p P in
  forall (d : 'I_m.+1) (z : 'rV[CR]_m.+1), peval Q z = 0 -> peval (Q^`M(d)) z != 0 ->
  metric_conclusion Q d z (poly_objects M k (@section_polys CR _ p (power_matrix B)) Q d).
Proof. exact reduced_end. Qed.
Print Assumptions reduced_basis_metric.

(** The cubic x^3 + y^3 + z^3 at (-1, 0) in the last patch, H the identity. *)
Example cubic_metric : forall k : nat, (0 < k)%N -> exists2 B, basis_reduced (cubic_P CR) k = Ok B &
  metric_conclusion (cubic_Q CR) 0 (cubic_pt CR)
    (poly_objects 1%:M k (@section_polys CR _ (2 : 'I_3) (power_matrix B)) (cubic_Q CR) 0).
Proof. exact cubic_end. Qed.
