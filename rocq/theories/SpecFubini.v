(** The H for which the algebraic metric is the Fubini-Study metric. *)
From mathcomp Require Import all_ssreflect all_algebra.
From Verif Require Import ModelBasis.

Set Implicit Arguments.
Unset Strict Implicit.
Unset Printing Implicit Defensive.

Import GRing.Theory Num.Theory.
Local Open Scope ring_scope.

Section Fubini.
Variable C : numClosedFieldType.

(** k! / (v_0! v_1! ...): how often the monomial occurs in (x_0 + x_1 + ...) ^ k *)
Definition multinomial (k : nat) (v : seq nat) : C := k`!%:R / (\prod_(a <- v) a`!)%:R.

(** These numbers for all monomials of the basis *)
Definition fubini_h (B : basis) : 'rV[C]_(size (power_matrix B)) :=
  \row_s multinomial (bdegree B) (nth [::] (power_matrix B) s).
End Fubini.
