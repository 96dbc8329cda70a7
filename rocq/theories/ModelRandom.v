(** Model of cyjax/random.py over the real numbers of the standard library.  The
    values drawn by jax.random are arguments: numbers of [0, 1) for
    jax.random.uniform, arbitrary numbers for jax.random.normal.  One point is
    modelled; the code maps over the leading axes. *)
From Coq Require Import ZArith Reals.
From mathcomp Require Import all_ssreflect all_algebra.
From mathcomp Require Import complex.
From Verif Require Import Base ModelUtil ModelProjective RealField ComplexR.
Delimit Scope Z_scope with Z.

Set Implicit Arguments.
Unset Strict Implicit.
Unset Printing Implicit Defensive.

Local Open Scope R_scope.
Delimit Scope R_scope with RR.

(** jax.random.uniform(key, shape, float, lo, hi) from the draw u *)
Definition uniform (lo hi u : R) : R := lo + u * (hi - lo).

(** exp(2j * pi * a) *)
Definition phase (a : R) : CR := cexp (Complex 0 (2 * PI * a)).

(** random.py:25-46  uniform_components *)
Definition uniform_components (ur ui : R) : CR := Complex (uniform (-1) 1 ur) (uniform (-1) 1 ui).

(** random.py:49-71  uniform_angle *)
Definition uniform_angle (minrad maxrad : R) (rand_a rand_r : R) : CR :=
  let rad := sqrt (minrad * minrad + rand_r * (maxrad * maxrad - minrad * minrad)) in
  GRing.mul (rc rad) (phase rand_a).

(** random.py:74-88  uniform_angle_unit *)
Definition uniform_angle_unit (a : R) : CR := phase a.

(** jnp.linalg.norm of a real vector *)
Definition rnorm (v : seq R) : R := sqrt (foldr (fun x s => x * x + s) 0 v).

(** random.py:91-113  real_sphere, for the last axis (the empty shape, which gives 1,
    is left out) *)
Definition real_sphere (points : seq R) : seq R := [seq x / rnorm points | x <- points].

(** random.py:116-139  complex_sphere, for the last axis of length dim *)
Definition complex_sphere (dim : nat) (points : seq R) : seq CR :=
  let pts := real_sphere points in
  [seq Complex xy.1 xy.2 | xy <- zip (take dim pts) (drop dim pts)].

(** random.py:142-167  uniform_projective: homogeneous coordinates, and affine
    coordinates with their patch *)
Definition uniform_projective_hom (dim : nat) (points : seq R) : seq CR := complex_sphere dim.+1 points.
Definition uniform_projective (dim : nat) (points : seq R) : res (seq CR * nat) :=
  hom_to_affine_auto (complex_sphere dim.+1 points : seq CR).

(** x.at[i].set(v) on an axis of length n: negative indices count from the end,
    indices out of bounds are ignored *)
Definition at_set (T : Type) (x0 : T) (s : seq T) (i : Z) (v : T) : seq T :=
  let n := Z.of_nat (size s) in
  let j := if Z.ltb i 0 then (i + n)%Z else i in
  if (Z.leb 0 j && Z.ltb j n)%bool then set_nth x0 s (Z.to_nat j) v else s.

(** random.py:170-209  projective_overlap *)
Definition log_rad_min (patch_size : R) : R := ln (1 / patch_size).
Definition rad_0 (patch_size r0 : R) : R :=
  exp (log_rad_min patch_size + (ln patch_size - log_rad_min patch_size) * r0).
Definition rad_max (patch_size rad0 : R) : R := Rmin (patch_size * rad0) patch_size.
Definition projective_overlap (dim : nat) (this_patch other_patch : Z) (patch_size : R)
    (rand_r rand_a : seq R) : seq CR :=
  if dim == 0%N then [::]
  else
    let other := index_hom_to_affine this_patch other_patch in
    let rad0 := rad_0 patch_size (nth 0 rand_r 0) in
    let rads := [seq rad_max patch_size rad0 * sqrt r | r <- rand_r] in
    let rad_all := at_set 0 rads other rad0 in
    [seq GRing.mul (rc ra.1) (phase ra.2) | ra <- zip rad_all rand_a].
