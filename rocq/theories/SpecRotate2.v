(** The kernel of the sections on a hypersurface, for bases whose monomials are only independent there. *)
From Coq Require Import ZArith.
From mathcomp Require Import all_ssreflect all_algebra.
From SsrMultinomials Require Import mpoly.
From Verif Require Import ModelVariety ModelBasis ModelAlg SpecPipe Herm Bridge SpecRank.

Set Implicit Arguments.
Unset Strict Implicit.
Unset Printing Implicit Defensive.

Import GRing.Theory Num.Theory.
Local Open Scope ring_scope.

(** sum_ab s_a(x) h_ab conj(s_b(y)). *)
Definition kernel (C : numClosedFieldType) n (B : basis) (h : 'M[C]_(size (power_matrix B))) (x y : 'rV[C]_n) : C :=
  \sum_a \sum_b hom_sections B (row_seq x) 0 a * h a b * (hom_sections B (row_seq y) 0 b)^*.

(** At all points of the hypersurface the kernel of h is the same at x, y and at x A, y A. *)
Definition kernel_invariant (C : numClosedFieldType) (V : variety C) (ps : seq C) m (A : 'M[C]_m.+2) (B : basis)
    (h : 'M[C]_(size (power_matrix B))) : Prop :=
  forall x y : 'rV[C]_m.+2, point_on V ps x -> point_on V ps y -> kernel h (x *m A) (y *m A) = kernel h x y.
