(** Model of cyjax/util.py (array helpers, Monte Carlo integration, PRNGSequence).

    Arrays of rank >= 1 are lists along their first axis; the entry type is
    arbitrary, so the same definition covers scalars and rows.  Python/JAX
    integers are [Z] (no overflow is modelled). *)
From Coq Require Import ZArith.
From mathcomp Require Import all_ssreflect.
From Verif Require Import Base.

Set Implicit Arguments.
Unset Strict Implicit.
Unset Printing Implicit Defensive.

Section Roll.
Variable T : Type.
Implicit Types (arr val : seq T) (index shift : Z).

(** jnp.roll(arr, shift, axis=0), used in util.py:51-52, 75, 77, 99, 101.
    jax: shift is reduced modulo the axis length (floor remainder), an empty
    axis is left alone; entry i of the result is entry (i - shift) mod n. *)
Definition roll arr shift : seq T :=
  if size arr == 0 then arr
  else rot (Z.to_nat ((- shift) mod Z.of_nat (size arr))) arr.

(** util.py:40-52  pop.  [rolled[0]] of an empty array raises. *)
Definition pop arr index : res (T * seq T) :=
  let rolled := roll arr (- index) in
  match rolled with
  | [::] => Err IndexError
  | x :: rest => Ok (x, roll rest index)
  end.

(** util.py:55-77  insert_1d, [val] already made 1-dimensional
    (line 70, jnp.atleast_1d: a scalar v is [:: v]). *)
Definition insert_1d arr val index : seq T :=
  let shift := (- (if Z.ltb index 0 then index + 1 else index))%Z in
  let shift_back := (if Z.ltb index 0 then - shift
                     else index + Z.of_nat (size val))%Z in
  let shifted := roll arr shift in
  roll (shifted ++ val) shift_back.

(** util.py:80-101  insert_col; matrices are lists of rows; [ncol] is
    col.shape[1] (1 after the reshape in lines 93-94).  jnp.concatenate raises
    when the numbers of rows differ. *)
Definition insert_col (mat col : seq (seq T)) (ncol : nat) index : res (seq (seq T)) :=
  let shift := (- (if Z.ltb index 0 then index + 1 else index))%Z in
  let shift_back := (if Z.ltb index 0 then - shift
                     else index + Z.of_nat ncol)%Z in
  let mat1 := [seq roll row shift | row <- mat] in
  if size mat1 != size col then Err TypeError else
  let mat2 := [seq p.1 ++ p.2 | p <- zip mat1 col] in
  Ok [seq roll row shift_back | row <- mat2].

(** util.py:93-94  a rank-1 [col] becomes a one-column matrix. *)
Definition insert_col1 (mat : seq (seq T)) (col : seq T) index :=
  insert_col mat [seq [:: c] | c <- col] 1 index.

End Roll.

(** util.py:121-127  binomial, with math.factorial raising ValueError on
    negative arguments. *)
Definition py_factorial (n : Z) : res Z :=
  if Z.ltb n 0 then Err ValueError else Ok (Z.of_nat (Z.to_nat n)`!).

Definition binomial (n k : Z) : res Z :=
  do a <- py_factorial n;
  do b <- py_factorial k;
  do c <- py_factorial (n - k);
  Ok (Z.div a (b * c)).

(** Arrays of arbitrary rank: a shape and the row-major list of entries
    (numpy/jax [reshape] only changes the shape). *)
Record ndarray (T : Type) := NdArray { shape : seq nat; data : seq T }.

Definition wf_nd (T : Type) (a : ndarray T) : bool :=
  size (data a) == \prod_(d <- shape a) d.

(** a.reshape((-1, dim)) as the list of its rows. *)
Fixpoint chunks (T : Type) (fuel dim : nat) (s : seq T) : seq (seq T) :=
  if fuel is fuel'.+1 then take dim s :: chunks fuel' dim (drop dim s) else [::].

(** Spec-level access to an entry by its multi-index (row-major position);
    not a function of /repo, this is what x[i, j, ...] means in numpy. *)
Definition ravel (sh idx : seq nat) : nat :=
  foldl (fun acc p => acc * p.1 + p.2) 0 (zip sh idx).

Definition valid_index (sh idx : seq nat) : bool :=
  (size idx == size sh) && all (fun p => p.2 < p.1) (zip sh idx).

Definition nd_get (T : Type) (x0 : T) (a : ndarray T) (idx : seq nat) : T :=
  nth x0 (data a) (ravel (shape a) idx).

Section Flatten.
Variables (T : Type) (conj : T -> T).

(** util.py:130-154  flatten_coord.  zs has rank >= 1 here (line 143 makes it
    so).  Returns the rows of zs.reshape((-1, dim)), optionally the rows of the
    conjugate, and the old shape.  A dimension 0 in the last axis makes the
    reshape of -1 ambiguous: ValueError/ZeroDivisionError. *)
Definition flatten_coord (zs : ndarray T) : res (seq (seq T) * seq nat) :=
  if shape zs is [::] then Err ValueError else
  let old_shape := take (size (shape zs)).-1 (shape zs) in
  let dim := last 0 (shape zs) in
  if dim == 0 then Err ValueError else
  Ok (chunks (size (data zs) %/ dim) dim (data zs), old_shape).

Definition flatten_coord_c (zs : ndarray T) (zs_c : option (ndarray T)) :
    res (seq (seq T) * seq (seq T) * seq nat) :=
  let zc := if zs_c is Some w then w
            else NdArray (shape zs) [seq conj x | x <- data zs] in
  (* chex.assert_equal_shape, line 151 *)
  if shape zs != shape zc then Err AssertionError else
  do a <- flatten_coord zs;
  do b <- flatten_coord zc;
  Ok (a.1, b.1, a.2).

(** util.py:157-164  unflatten_coord for outputs given as one block of entries
    per point; [oshape] is the per-point output shape arr.shape[1:]. *)
Definition unflatten_coord (U : Type) (oshape : seq nat) (arr : seq (seq U))
    (old_shape : seq nat) : ndarray U :=
  NdArray (old_shape ++ oshape) (flatten arr).

End Flatten.

(** The position a Python slice bound refers to: shape[:axis], shape[axis:]. *)
Definition slice_pos (rank : nat) (axis : Z) : nat :=
  if Z.ltb axis 0 then Z.to_nat (Z.of_nat rank + axis) else minn (Z.to_nat axis) rank.

(** util.py:104-118  shuffle_axis.  The random permutations that
    jax.random.permutation draws for the n = prod(shape[:axis]) sub-keys are an
    arbitrary input: the slices of block number i are reordered as the index
    list [perm i] says. *)
Definition shuffle_axis (T : Type) (perm : nat -> seq nat)
    (x : ndarray T) (axis : Z) : ndarray T :=
  let pos := slice_pos (size (shape x)) axis in
  let n := \prod_(d <- take pos (shape x)) d in
  let len := nth 1 (shape x) pos in
  let slice := \prod_(d <- drop pos.+1 (shape x)) d in
  let x_ := chunks n (len * slice) (data x) in
  let permuted :=
    [seq let slices := chunks len slice (nth [::] x_ i) in
         flatten [seq nth [::] slices j | j <- perm i]
    | i <- iota 0 n] in
  NdArray (shape x) (flatten permuted).

(** util.py:248-266  PRNGSequence; jax.random.split is a parameter. *)
Section Prng.
Variables (key : Type) (split : key -> key * key) (prng_key : Z -> key).

Inductive seed := SeedInt of Z | SeedKey of key.

(** __init__, lines 251-261. *)
Definition prng_init (s : seed) : key :=
  match s with SeedInt n => prng_key n | SeedKey k => k end.

(** __next__, lines 263-266: k, self._key = split(self._key); return k. *)
Definition prng_next (self : key) : key * key :=
  let '(k, self') := split self in (k, self').

(** n calls of next(), results in order, and the final state. *)
Fixpoint prng_run (n : nat) (self : key) : seq key * key :=
  if n is n'.+1 then
    let '(k, self1) := prng_next self in
    let '(ks, self2) := prng_run n' self1 in (k :: ks, self2)
  else ([::], self).
End Prng.
