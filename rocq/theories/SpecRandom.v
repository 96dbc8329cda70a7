(** Definitions used to state the properties of random.py. *)
From Coq Require Import ZArith Reals.
From mathcomp Require Import all_ssreflect all_algebra.
From mathcomp Require Import complex.
From Verif Require Import RealField ComplexR.

Set Implicit Arguments.
Unset Strict Implicit.
Unset Printing Implicit Defensive.

Delimit Scope R_scope with RR.

(** the complex vector whose real parts are the first n numbers of v and whose
    imaginary parts are the following ones *)
Definition joined n (v : seq R) : seq CR := [seq Complex xy.1 xy.2 | xy <- zip (take n v) (drop n v)].

(** Reflection of the first radial variable, and translations modulo 1 of the
    reflected first angle and of the other angles: for fixed a0 each map is an
    isometry of the circle. *)
Definition flip_r (r : seq R) : seq R := if r is r0 :: rs then (1 - r0)%RR :: rs else [::].
Definition flip_a (a : seq R) : seq R :=
  if a is a0 :: l then frac_part (- a0)%RR :: [seq frac_part (x - a0)%RR | x <- l] else [::].
