(** Notions used in the statements about bases of monomials. *)
From Coq Require Import ZArith.
From mathcomp Require Import all_ssreflect all_algebra.
From SsrMultinomials Require Import mpoly.

Set Implicit Arguments.
Unset Strict Implicit.
Unset Printing Implicit Defensive.

Import GRing.Theory Num.Theory.
Local Open Scope ring_scope.

(** Exponents of a monomial of degree [d] in [n] variables. *)
Definition is_monomial (n d : nat) (v : seq nat) : Prop :=
  size v = n /\ (\sum_(j < n) nth 0 v j = d)%N.

Definition divisible_by (a b : seq nat) : Prop := forall j, (nth 0 a j <= nth 0 b j)%N.

(** prod_j z_j ^ v_j *)
Definition monomial_at (C : comRingType) (z : seq C) (v : seq nat) : C :=
  \prod_(j < size z) nth 0 z j ^+ nth 0%N v j.

(** Every monomial of the polynomial is in the list. *)
Definition supported (R : ringType) (n : nat) (B : seq (seq nat)) (r : {mpoly R[n]}) : Prop :=
  forall m : 'X_{1..n}, m \in msupp r -> (m : seq nat) \in B.

(** [r] is congruent to [f] modulo [P]. *)
Definition congruent (R : ringType) (n : nat) (P f r : {mpoly R[n]}) : Prop :=
  exists q, f = q * P + r.

(** Every form of degree [d] is congruent to exactly one combination of the
    monomials of the list. *)
Definition basis_modulo (R : ringType) (n d : nat) (P : {mpoly R[n]}) (B : seq (seq nat)) : Prop :=
  forall f, f \is d.-homog ->
  exists2 r, supported B r /\ congruent P f r &
    forall r', supported B r' -> congruent P f r' -> r' = r.

(** The variable occurs in the polynomial. *)
Definition variable_occurs (R : ringType) (n : nat) (P : {mpoly R[n]}) (i : 'I_n) : Prop :=
  exists2 m : 'X_{1..n}, m \in msupp P & m i <> 0%N.
