(** Model of cyjax/differential.py: jacobian_embed and induced_metric.

    complex_hessian (differential.py:27-66) composes jax.jacfwd and jax.jacrev
    and is not modelled beyond "entry [i, j] is the derivative by the j-th
    conjugate coordinate of the derivative by the i-th coordinate"
    ([mixed_hessian] below). *)
From Coq Require Import ZArith.
From mathcomp Require Import all_ssreflect all_algebra.
From Verif Require Import Base ModelUtil Deriv.
Delimit Scope Z_scope with Z.

Set Implicit Arguments.
Unset Strict Implicit.
Unset Printing Implicit Defensive.

Import GRing.Theory Num.Theory.
Local Open Scope ring_scope.

Section Embed.
Variable F : fieldType.

(** jnp.eye(n) as a list of rows. *)
Definition eye_rows (n : nat) : seq (seq F) :=
  [seq [seq (i == j)%:R | j <- iota 0 n] | i <- iota 0 n].

(** differential.py:69-103  jacobian_embed, for one point. *)
Definition jacobian_embed (grad_def : seq F) (dependent : Z) : res (seq (seq F)) :=
  let jac := eye_rows (size grad_def).-1 in
  do p <- pop grad_def dependent;
  let '(grad_def_dep, grad_def_indep) := p in
  let col_dep := [seq - x / grad_def_dep | x <- grad_def_indep] in
  insert_col1 jac col_dep dependent.

(** A 2-d array as a matrix. *)
Definition mx_rows m n (rows : seq (seq F)) : 'M[F]_(m, n) :=
  \matrix_(i, j) nth 0 (nth [::] rows i) j.
End Embed.

Section Induced.
Variable C : numClosedFieldType.

(** differential.py:106-154  induced_metric;
    einsum('ij,kl,jl->ik', jac, jac_c, metric). *)
Definition induced_metric n (metric : 'M[C]_n.+1) (grad_def : seq C) (dependent : Z)
    (grad_def_c : option (seq C)) : res 'M[C]_n :=
  do jac <- jacobian_embed grad_def dependent;
  do jac_c <- (if grad_def_c is Some gc then jacobian_embed gc dependent
               else Ok [seq [seq x^* | x <- row] | row <- jac]);
  let J : 'M[C]_(n, n.+1) := mx_rows n n.+1 jac in
  let Jc : 'M[C]_(n, n.+1) := mx_rows n n.+1 jac_c in
  Ok (\matrix_(i, k) \sum_j \sum_l J i j * Jc k l * metric j l).

(** differential.py:27-66  complex_hessian of a potential f(z, zc) at (z, zc):
    H[i, j] = d/dzc_j d/dz_i f.  The first derivative has to exist for all
    conjugate arguments near zc. *)
Definition mixed_hessian n (f : 'rV[C]_n -> 'rV[C]_n -> C) (z zc : 'rV[C]_n)
    (H : 'M[C]_n) : Prop :=
  exists (df : 'rV[C]_n -> 'rV[C]_n) (d : C), 0 < d /\
    (forall w, norm1 (w - zc) < d -> is_grad (fun y => f y w) z (df w)) /\
    (forall i, is_grad (fun w => df w 0 i) zc (row i H)).
End Induced.
