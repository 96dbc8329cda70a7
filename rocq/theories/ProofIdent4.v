(** The logarithm of the complex numbers satisfies the assumptions of C160. *)
From Coq Require Import ZArith Reals.
From mathcomp Require Import all_ssreflect all_algebra.
From mathcomp Require Import complex.
From Verif Require Import RealField ComplexR ProofComplex.

Set Implicit Arguments.
Unset Strict Implicit.
Unset Printing Implicit Defensive.

Import GRing.Theory Num.Theory.
Local Open Scope ring_scope.

Lemma clog_pos : (forall u v : CR, 0 < u -> 0 < v -> clog (u * v) = clog u + clog v) /\
  (forall u v : CR, 0 < u -> 0 < v -> clog u = clog v -> u = v).
Proof.
split=> u v u0 v0; first exact: clog_pos_mul.
by move=> E; rewrite -[u]cexp_clog ?lt0r_neq0 // E cexp_clog // lt0r_neq0.
Qed.
