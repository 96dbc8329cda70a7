(** Model of cyjax/donaldson.py: AlgebraicMetric.sigma_accuracy and
    donaldson_step.  The random points are arguments. *)
From Coq Require Import ZArith.
From mathcomp Require Import all_ssreflect all_algebra.
From Verif Require Import Base ModelUtil ModelProjective ModelDiff ModelVariety ModelGeom Deriv Bridge SpecGeom.
Delimit Scope Z_scope with Z.

Set Implicit Arguments.
Unset Strict Implicit.
Unset Printing Implicit Defensive.

Import GRing.Theory Num.Theory.
Local Open Scope ring_scope.

Section Donaldson.
Variable C : numClosedFieldType.
Variable pi : C.

(** jnp.mean of a one-dimensional array *)
Definition mean (s : seq C) : C := (\sum_(x <- s) x) / (size s)%:R.

(** donaldson.py:842-848  sigma_accuracy, from the arrays etas and weights *)
Definition sigma_of (etas weights : seq C) : C :=
  let vol_k := mean [seq ew.1 * ew.2 | ew <- zip etas weights] in
  let vol_cy := 'Re (mean weights) in
  mean [seq `|1 - ew.1 * vol_cy / vol_k| * ew.2 | ew <- zip etas weights] / vol_cy.

(** donaldson.py:819-848  sigma_accuracy; a point is its affine coordinates and
    the objects there (GeometricObjects with grad_def and dependent given). *)
Definition sigma_accuracy N m (pts : seq ('rV[C]_m.+1 * objects C N m)) : res C :=
  do deps <- rseq [seq rmap Z.of_nat (argmax [seq `|x| | x <- row_seq (o_grad p.2)]) | p <- pts];
  do ws <- rseq [seq weights pi pd.1.1 (row_seq (o_grad pd.1.2)) (Some pd.2) (Some 1) | pd <- zip pts deps];
  do etas <- rseq [seq ob_eta pi (with_dep (Some pd.2) pd.1.2) | pd <- zip pts deps];
  Ok (sigma_of etas ws).

Section Step.
Variable N : nat.

(** A sampled point: the values of the sections and the weight; the weight
    [None] is one that is not a finite number. *)
Definition sample := ('rV[C]_N * option C)%type.

(** jnp.nan_to_num(weights, posinf=0, neginf=0, nan=0) *)
Definition nan_to_num (w : option C) : C := odflt 0 w.

(** donaldson.py:869-881  batch_step *)
Definition den (h : 'M[C]_N) (mon : 'rV[C]_N) : C :=
  'Re (\sum_a \sum_b mon 0 a * (mon 0 b)^* * h a b).

Definition delta_T (h : 'M[C]_N) (points : seq sample) : 'M[C]_N :=
  \matrix_(a, b)
    mean [seq p.1 0 a * (p.1 0 b)^* * (nan_to_num p.2 / den h p.1) | p : sample <- points].

Definition batch_step (h : 'M[C]_N) (batches : nat) (points : seq sample) (T : 'M[C]_N) : 'M[C]_N :=
  T + (batches%:R)^-1 *: delta_T h points.

(** donaldson.py:866, 883-887  the symmetrised h, the loop, normalisation and
    inverse; [batch i] are the points drawn with the i-th key. *)
Definition sym_h (h : 'M[C]_N) : 'M[C]_N := 2%:R^-1 *: (h + map_mx conjC h^T).

Definition T_loop (h : 'M[C]_N) (batches : seq (seq sample)) : 'M[C]_N :=
  foldl (fun T pts => batch_step h (size batches) pts T) 0 batches.

Definition T_operator (h : 'M[C]_N) (vol_cy : C) (batches : seq (seq sample)) : 'M[C]_N :=
  (N%:R / vol_cy) *: T_loop (sym_h h) batches.

(** donaldson.py:865: T takes the dtype of h; the carry of fori_loop must keep
    its dtype, and the increment is complex. *)
Definition donaldson_step (complex_dtype : bool) (h : 'M[C]_N) (vol_cy : C) (batches : seq (seq sample))
    : res 'M[C]_N :=
  if ~~ complex_dtype then Err TypeError
  else Ok (invmx (T_operator h vol_cy batches))^T.
End Step.
End Donaldson.
