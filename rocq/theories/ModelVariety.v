(** Model of cyjax/variety.py: sampling by intersection, weights, completion of
    points.  Varieties given by a HomPoly in one variable. *)
From Coq Require Import ZArith Ascii String.
From mathcomp Require Import all_ssreflect all_algebra.
From mathcomp Require Import ssrZ.
From Verif Require Import Base ModelUtil ModelProjective ModelDiff ModelStr ModelExpr ModelPoly ModelHom.
Delimit Scope Z_scope with Z.

Set Implicit Arguments.
Unset Strict Implicit.
Unset Printing Implicit Defensive.

Import GRing.Theory Num.Theory.
Local Open Scope ring_scope.

Section Variety.
Variable C : numClosedFieldType.
(** sympy: normal form, order of replacements, order of sets of symbols, terms
    with respect to one variable. *)
Variable norm : expr C -> expr C.
Variable order : seq (sym * expr C) -> seq (sym * expr C).
Variable visit : expr C -> seq sym.
Variable terms : poly C -> sym -> seq (nat * expr C).
(** jnp.roots(coeffs, strip_zeros=False) *)
Variable roots : seq C -> seq C.

(** variety.py:98-101  dim_complex *)
Definition dim_complex (P : poly C) : res nat :=
  match variable_indices P with
  | Some l :: _ => Ok (size l)
  | None :: _ => Err TypeError
  | [::] => Err IndexError
  end.

(** sympy.symarray(name, n) *)
Definition symarray (name : sym) (n : nat) : seq sym :=
  [seq merge_subscript (name ++ lit "_") (Z.of_nat i) | i <- iota 0 n].

(** variety.py:248-251  z = ps + t * qs *)
Definition line_exprs (n : nat) : seq (expr C) :=
  [seq EAdd [:: ESym pq.1; EMul [:: ESym (lit "t"); ESym pq.2]]
  | pq <- zip (symarray (lit "p") n) (symarray (lit "q") n)].

(** variety.py:253  the polynomial object of the value of the defining polynomial *)
Definition line_poly_of (n : nat) (e : expr C) (params : seq sym) : res (poly C) :=
  from_symarrays norm e (visit e)
    [:: [:: lit "t"]; symarray (lit "p") n; symarray (lit "q") n] (Some params).

(** variety.py:248-253  the defining polynomial on a line *)
Definition line_poly (P : poly C) : res (poly C) :=
  do n <- dim_complex P;
  do e <- call_sym P [:: line_exprs n] (Some [seq ESym s | s <- parameters P]) order;
  line_poly_of n e (parameters P).

(** variety.py:36-44  _solve_intersect, for one line *)
Definition coeff_call (params : seq C) (pq : seq C * seq C) (c : coefficient C) : res C :=
  match c with
  | UNum x => Ok x
  | UPoly Q => call_num Q [:: PArr pq.1; PArr pq.2; PArr params] [::]
  end.
Definition solve_intersect (coeffs : seq (coefficient C)) (params : seq C) (pq : seq C * seq C)
    : res (seq (seq C)) :=
  do cs <- rseq [seq coeff_call params pq c | c <- coeffs];
  Ok [seq [seq xy.1 + r * xy.2 | xy <- zip pq.1 pq.2] | r <- roots cs].

(** variety.py:255  np.ceil(count / n) *)
Definition sample_count (count n : nat) : nat := ((count + n).-1 %/ n)%N.

(** variety.py:255-259  the points on the lines.  [lines k n] are k pairs of points
    of complex_sphere. *)
Definition sample_line (n : nat) (L : poly C) (params : seq C) (count : nat)
    (lines : nat -> nat -> seq (seq C * seq C)) : res (seq (seq C)) :=
  do coeffs <- univariate_coefficients norm L (lit "t") (terms L (lit "t")) visit;
  do pts <- rseq [seq solve_intersect coeffs params pq | pq <- lines (sample_count count n) n];
  Ok (take count (flatten pts)).

(** variety.py:248-259  sample_intersect up to homogeneous coordinates. *)
Definition sample_hom (P : poly C) (params : seq C) (count : nat)
    (lines : nat -> nat -> seq (seq C * seq C)) : res (seq (seq C)) :=
  do n <- dim_complex P;
  do L <- line_poly P;
  sample_line n L params count lines.

(** variety.py:261-267  affine=True, weights=False *)
Definition sample_affine (P : poly C) (params : seq C) (count : nat)
    (lines : nat -> nat -> seq (seq C * seq C)) : res (seq (seq C * nat)) :=
  do zs <- sample_hom P params count lines;
  rseq [seq hom_to_affine_auto z | z <- zs].

(** variety.py:196-231  sample_intersect_weights, given the gradient of the
    defining equation (grad_defining is jax.grad).  Without a dependent
    coordinate that of the largest entry is taken.  [pi] is np.pi. *)
Variable pi : C.

Definition weight_parts m (zs : 'rV[C]_m.+1) (grad_def : seq C) (dependent : option Z)
    (vol : option C) : res (C * C * C) :=
  do dep <- (if dependent is Some d then Ok d
             else rmap Z.of_nat (argmax [seq `|x| | x <- grad_def]));
  do p <- pop grad_def dep;
  let '(grad_dep, grad_indep) := p in
  do rows <- insert_col1 (eye_rows C m) [seq - x / grad_dep | x <- grad_indep] dep;
  let jac : 'M[C]_(m, m.+1) := mx_rows m m.+1 rows in
  let g_ind := jac *m fs_metric_real zs *m map_mx conjC jac^T in
  let det := 'Re (\det g_ind) in
  let dvol := (`|grad_dep| ^+ 2)^-1 in
  Ok (if vol is Some v then (dvol * v, det * (m`!%:R / pi ^+ m), grad_dep)
      else (dvol, det, grad_dep)).

(** separate=True *)
Definition weights_separate m (zs : 'rV[C]_m.+1) grad_def dependent vol : res (C * C) :=
  rmap fst (weight_parts zs grad_def dependent vol).
(** separate=False *)
Definition weights m (zs : 'rV[C]_m.+1) grad_def dependent vol : res C :=
  do r <- weight_parts zs grad_def dependent vol;
  Ok (r.1.2 * `|r.2| ^+ 2)^-1.

(** variety.py:284-321  solve_defining (for integer patch and position). *)
Definition solve_defining (H : hompoly C) (zs params : seq C) (dependent : Z) (patch : option Z)
    : res (seq (seq C)) :=
  if patch is Some p then
    do AH <- affine_poly norm H [:: p];
    let dep_hom := index_affine_to_hom p dependent in
    do syms <- (match zip (variable_names (hp H)) (variable_indices (hp H)) with
                | (nm, ind) :: _ => Ok (symbols_of nm ind)
                | [::] => Err IndexError
                end);
    do k <- py_pos (size syms) dep_hom;
    let dep := nth [::] syms k in
    do coeffs <- univariate_coefficients norm AH.1 dep (terms AH.1 dep) visit;
    do cs <- rseq [seq (match c with
                        | UNum x => Ok x
                        | UPoly Q => call_num Q [:: PArr zs; PArr params] [::]
                        end) | c <- coeffs];
    Ok [seq roll (rcons (roll zs (- dependent)) r) (dependent + 1) | r <- roots cs]
  else Err TypeError.  (* None <= dependent *)

(** variety.py:123-138, 140-151  grad_defining and best_dependent.  [grad] is
    jax.grad; tracing the defining function raises its exceptions.  An array of
    patches is mapped over, and a patch that is no integer is rejected. *)
Inductive parg := PatchNone | PatchInt of Z | PatchArr of seq C.

Definition defining (H : hompoly C) (zs : seq C) (params : pyval C) (patch : parg) : res C :=
  match patch with
  | PatchNone => transform_eval norm H [:: PArr zs] [:: (lit "params", params)] None
  | PatchInt p => transform_eval norm H [:: PArr zs] [:: (lit "params", params)] (Some [:: p])
  | PatchArr _ => Err TypeError
  end.

Definition grad_defining (grad : seq C -> pyval C -> parg -> seq C) (H : hompoly C)
    (zs : seq C) (params : pyval C) (patch : parg) : res (seq C) :=
  do _ <- defining H zs params patch; Ok (grad zs params patch).

Definition num_of_Z (k : Z) : C :=
  match k with Z0 => 0 | Zpos p => (Pos.to_nat p)%:R | Zneg p => - (Pos.to_nat p)%:R end.
Definition as_patch (v : pyval C) : parg :=
  match v with PNone => PatchNone | PNum _ => PatchArr [::] | PArr a => PatchArr a end.
Definition as_params (p : parg) : pyval C :=
  match p with PatchNone => @PNone C | PatchInt k => PNum (num_of_Z k) | PatchArr a => PArr a end.

(** jnp.argmax(x, axis=1) of a 1-d array *)
Definition argmax_axis1 (x : seq C) : res nat := Err ValueError.

(** argmax(abs(self.grad_defining(zs, patch, params)), axis=1), at one point *)
Definition best_dependent grad (H : hompoly C) (zs : seq C) (params : pyval C) (patch : parg) : res nat :=
  do g <- grad_defining grad H zs (as_params patch) (as_patch params);
  argmax_axis1 [seq `|x| | x <- g].
End Variety.
