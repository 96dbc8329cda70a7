(** Properties C46 and C64, continued: constant polynomials, homogeneous coordinates of drawn points. *)
From Coq Require Import ZArith Lia Reals.
From mathcomp Require Import all_ssreflect all_algebra.
From mathcomp Require Import complex.
From SsrMultinomials Require Import mpoly.
From Verif Require Import Base ModelUtil ModelProjective ModelBasis RealField ComplexR ModelRandom ProofRandom.
Delimit Scope Z_scope with Z.
Delimit Scope R_scope with RR.

Set Implicit Arguments.
Unset Strict Implicit.
Unset Printing Implicit Defensive.

Import GRing.Theory Num.Theory.
Local Open Scope ring_scope.

(** C46 *)
Theorem reduced_basis_constant : forall (C : numClosedFieldType) k (c : C) degree,
  basis_reduced (c%:MP_[k]) degree = Err OtherError.
Proof.
move=> C k c degree; rewrite /basis_reduced /generators.
rewrite (eq_filter (a2 := pred0)) ?filter_pred0 // => i.
apply/hasP => -[m]; rewrite msuppC; case: eqP => // _; rewrite inE => /eqP ->.
by rewrite mnm0E.
Qed.
Print Assumptions reduced_basis_constant.

(** C64 *)
Theorem uniform_projective_homogeneous : forall dim (v : seq R),
  size v = (dim.+1 + dim.+1)%N -> has (fun x => x != 0) v ->
  let h := uniform_projective_hom dim v in
  [/\ size h = dim.+1, \sum_(z <- h) `|z| ^+ 2 = 1 & uniform_projective dim v = hom_to_affine_auto h].
Proof. by move=> dim v sv nv h; have [E1 E2] := complex_sphere_unit sv nv. Qed.
Print Assumptions uniform_projective_homogeneous.

Example projective_line_draw : size (uniform_projective_hom 1 [:: 1; 0; 0; 1]%RR) = 2%N.
Proof. by []. Qed.
