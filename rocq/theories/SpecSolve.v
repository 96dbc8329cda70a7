(** All roots of a polynomial with their multiplicities. *)
From mathcomp Require Import all_ssreflect all_algebra.
From Verif Require Import SpecVariety.

Set Implicit Arguments.
Unset Strict Implicit.
Unset Printing Implicit Defensive.

Import GRing.Theory Num.Theory.
Local Open Scope ring_scope.

(** jnp.roots returns every root as often as it is one. *)
Definition roots_exact (C : numClosedFieldType) (roots : seq C -> seq C) : Prop :=
  forall cs, (0 < size cs)%N -> head 0 cs != 0 ->
  size (roots cs) = (size cs).-1 /\
  forall x, horner_desc cs x = head 0 cs * \prod_(r <- roots cs) (x - r).
