(** Sections of a basis of monomials as polynomials in the affine coordinates. *)
From Coq Require Import ZArith.
From mathcomp Require Import all_ssreflect all_algebra.
From SsrMultinomials Require Import mpoly.

Set Implicit Arguments.
Unset Strict Implicit.
Unset Printing Implicit Defensive.

Import GRing.Theory.
Local Open Scope ring_scope.

Section Dehom.
Variables (C : comRingType) (n : nat) (p : 'I_n.+1).

(** Setting the homogeneous coordinate p to 1. *)
Definition dehom (P : {mpoly C[n.+1]}) : {mpoly C[n]} :=
  mmap (@mpolyC n C) (fun j => if unlift p j is Some a then 'X_a else 1) P.

(** The monomial with the given exponents. *)
Definition mono (v : seq nat) : {mpoly C[n.+1]} := 'X_[ [multinom nth 0%N v (val j) | j < n.+1] ].

(** The sections of the basis on the patch. *)
Definition section_polys (B : seq (seq nat)) (s : 'I_(size B)) : {mpoly C[n]} := dehom (mono (nth [::] B s)).
End Dehom.
