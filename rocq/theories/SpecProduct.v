(** Products of algebraic metrics: the matrix of the product of two Hermitian forms
    in the sections. *)
From Coq Require Import ZArith.
From mathcomp Require Import all_ssreflect all_algebra.
From Verif Require Import Base ModelBasis.

Set Implicit Arguments.
Unset Strict Implicit.
Unset Printing Implicit Defensive.

Import GRing.Theory.
Local Open Scope ring_scope.

Section Product.
Variable C : ringType.

(** The powers of the product of two monomials *)
Definition mon_mul (v w : seq nat) : seq nat := [seq (ab.1 + ab.2)%N | ab <- zip v w].

(** The matrix of (sum_ab s_a h1_ab conj s_b) (sum_ab t_a h2_ab conj t_b) in the
    monomials of B, for the monomials s of B1 and t of B2. *)
Definition h_product (B1 B2 B : basis) (h1 : 'M[C]_(size (power_matrix B1))) (h2 : 'M[C]_(size (power_matrix B2))) :
  'M[C]_(size (power_matrix B)) :=
  let pow1 (a : 'I_(size (power_matrix B1))) := nth [::] (power_matrix B1) a in
  let pow2 (a : 'I_(size (power_matrix B2))) := nth [::] (power_matrix B2) a in
  \matrix_(i, j) \sum_a \sum_b
    ((nth [::] (power_matrix B) i == mon_mul (pow1 a.1) (pow2 a.2)) &&
     (nth [::] (power_matrix B) j == mon_mul (pow1 b.1) (pow2 b.2)))%:R * (h1 a.1 b.1 * h2 a.2 b.2).
End Product.
