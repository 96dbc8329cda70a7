(** Model of the Monte Carlo integrators of cyjax/util.py:167-245.

    Values live in an arbitrary field (exact arithmetic); the sampler, the
    integrand and jax.random.split are arbitrary functions. *)
From Coq Require Import ZArith.
From mathcomp Require Import all_ssreflect all_algebra.
From Verif Require Import Base.

Set Implicit Arguments.
Unset Strict Implicit.
Unset Printing Implicit Defensive.

Import GRing.Theory.
Local Open Scope ring_scope.

Section MC.
Variables (F : fieldType) (key pt : Type) (split : key -> key * key).

(** jnp.mean(w, axis=0) of a 1-d array.  (jnp.mean of an empty array is NaN;
    the totalised 0/0 = 0 is excluded by guards in the theorems.) *)
Definition mean (w : seq F) : F := (\sum_(x <- w) x) / (size w)%:R.

(** util.py:167-203  mc_integrate.  [fn] acts pointwise on the sample (the
    integrand is evaluated on the array of points; a broadcasting integrand is
    its pointwise function).  Returns the value, and the variance of line 201
    if [var] is set. *)
Definition mc_integrate (k : key) (count : nat) (fn : pt -> F)
    (sample : key -> nat -> seq (pt * F)) (var : bool) : F * option F :=
  let zw := sample k count in
  let w := [seq p.2 | p <- zw] in
  let vals := [seq fn p.1 * p.2 | p <- zw] in
  let val := mean w in
  (val, if var then Some ((mean [seq x ^+ 2 | x <- vals] - val ^+ 2) / count%:R)
        else None).

(** util.py:227-238  the scan step: the batch is drawn with the key itself
    (line 230) and the second half of the split is carried on (line 238). *)
Definition mc_step (batch_size : nat) (fn : pt -> F)
    (sample : key -> nat -> seq (pt * F)) (k : key) : key * (F * F) :=
  let zw := sample k batch_size in
  let w := [seq p.2 | p <- zw] in
  let vals := [seq fn p.1 * p.2 | p <- zw] in
  ((split k).2, (mean w, mean [seq x ^+ 2 | x <- vals] / batch_size%:R)).

Fixpoint mc_scan (batches batch_size : nat) fn sample (k : key) : seq (F * F) :=
  if batches is b.+1 then
    let '(k2, r) := mc_step batch_size fn sample k in
    r :: mc_scan b batch_size fn sample k2
  else [::].

(** util.py:206-245  mc_integrate_batched. *)
Definition mc_integrate_batched (k : key) (batches batch_size : nat)
    (fn : pt -> F) (sample : key -> nat -> seq (pt * F)) (var : bool)
    : F * option F :=
  let r := mc_scan batches batch_size fn sample k in
  let m := mean [seq p.1 | p <- r] in
  (m, if var then
        Some (mean [seq p.2 | p <- r] / batches%:R
              - m ^+ 2 / (batches * batch_size)%:R)
      else None).
End MC.
