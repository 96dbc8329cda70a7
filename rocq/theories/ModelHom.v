(** Model of cyjax/polynomial.py:1057-1247: HomPoly, DworkPoly, FermatPoly. *)
From Coq Require Import ZArith Ascii String.
From mathcomp Require Import all_ssreflect all_algebra.
From mathcomp Require Import ssrZ.
From Verif Require Import Base ModelStr ModelExpr ModelPoly.
Delimit Scope Z_scope with Z.

Set Implicit Arguments.
Unset Strict Implicit.
Unset Printing Implicit Defensive.

Import GRing.Theory Num.Theory.
Local Open Scope ring_scope.

(** list[k] with Python's negative positions *)
Definition py_pos (n : nat) (k : Z) : res nat :=
  if (0 <=? k)%Z && (k <? Z.of_nat n)%Z then Ok (Z.to_nat k)
  else if (- Z.of_nat n <=? k)%Z && (k <? 0)%Z then Ok (Z.to_nat (Z.of_nat n + k))
  else Err IndexError.

(** polynomial.py:1104-1110  unique_patch_index for lists of index lists
    (len(None) raises, but __init__ has rejected scalars before). *)
Definition unique_patch_index (dims : seq nat) (patch : seq Z) : Z :=
  (foldl (fun im pd => (im.1 + pd.1 * im.2, im.2 * Z.of_nat pd.2))%Z (0, 1)%Z (zip patch dims)).1.

Section Hom.
Variable C : numClosedFieldType.
Variable norm : expr C -> expr C.
Notation poly := (poly C).

Record hompoly := HomPoly { hp : poly; affine_cache : seq (option poly) }.

Definition index_size (ind : option (seq Z)) : nat := if ind is Some l then size l else 0%N.
Definition hp_dims (P : poly) : seq nat := map index_size (variable_indices P).

(** polynomial.py:1065-1086  HomPoly.__init__ *)
Definition hom_init (P : poly) : res hompoly :=
  do _ <- check_signature [:: lit "patch"] (variable_names P);
  if all isSome (variable_indices P)
  then Ok (HomPoly P (nseq (\prod_(d <- hp_dims P) d)%N None))
  else Err TypeError.

(** sympy.Poly.subs({symbol: 1}) (external): a generator is evaluated away (the
    last one leaves a bare expression), anything else makes it a bare
    expression.  For negative numbers the replaced "symbol" is the expression
    z - 1, which is taken not to occur. *)
Definition subs_one (sp : spoly C) (np : sym * Z) : spoly C :=
  let s := merge_subscript np.1 np.2 in
  match sp with
  | SPoly g e =>
    if s \in g then
      if rem s g is [::] then SExpr (subs1 s (ENum 1) e)
      else SPoly (rem s g) (norm (subs1 s (ENum 1) e))
    else SExpr (subs1 s (ENum 1) e)
  | SExpr e => SExpr (subs1 s (ENum 1) e)
  end.

(** polynomial.py:1133-1138  the affine polynomial of a patch *)
Definition affine_build (P : poly) (patch : seq Z) : poly :=
  let sp := foldl subs_one (sympy_poly P) (zip (variable_names P) patch) in
  let indices := [seq (if ip.1 is Some ind then Some [seq i <- ind | i != ip.2] else None)
                 | ip <- zip (variable_indices P) patch] in
  MkPoly (variable_names P) indices (parameters P) sp.

(** polynomial.py:1112-1142  affine_poly (an integer patch is a list of one) *)
Definition affine_poly (H : hompoly) (patch : seq Z) : res (poly * hompoly) :=
  let patch_index := unique_patch_index (hp_dims (hp H)) patch in
  do k <- py_pos (size (affine_cache H)) patch_index;
  match nth None (affine_cache H) k with
  | Some p => Ok (p, H)
  | None =>
    let p := affine_build (hp H) patch in
    Ok (p, HomPoly (hp H) (set_nth None (affine_cache H) k (Some p)))
  end.

(** polynomial.py:1185-1190  __call__ *)
Definition hom_call (H : hompoly) (args : seq (pyval C)) (kw : seq (sym * pyval C))
    (patch : option (seq Z)) : res (C * hompoly) :=
  if patch is Some p then
    do ph <- affine_poly H p;
    do v <- call_num ph.1 args kw; Ok (v, ph.2)
  else do v <- call_num (hp H) args kw; Ok (v, H).

(** A list of requests: only the state matters; failing ones leave it alone. *)
Fixpoint affine_run (H : hompoly) (patches : seq (seq Z)) : hompoly :=
  if patches is p :: ps then
    affine_run (if affine_poly H p is Ok (_, H') then H' else H) ps
  else H.

(** polynomial.py:1147-1183  transform_eval: _cartesian of the ranges, sorted by
    patch number; jax.lax.switch traces every branch and clamps the number. *)
Fixpoint cartesian (dims : seq nat) : seq (seq Z) :=
  if dims is d :: dims' then
    [seq Z.of_nat i :: p | i <- iota 0 d, p <- cartesian dims'] else [:: [::]].

Definition all_patches (dims : seq nat) : seq (seq Z) :=
  sort (fun p q => (unique_patch_index dims p <=? unique_patch_index dims q)%Z)
       (cartesian dims).

Fixpoint trace_branches (H : hompoly) args kw (patches : seq (seq Z)) : res (seq C * hompoly) :=
  if patches is p :: ps then
    do vH <- hom_call H args kw (Some p);
    do r <- trace_branches vH.2 args kw ps;
    Ok (vH.1 :: r.1, r.2)
  else Ok ([::], H).

Definition clamp (n : nat) (k : Z) : nat := minn (Z.to_nat k) n.-1.

Definition transform_eval (H : hompoly) (args : seq (pyval C)) (kw : seq (sym * pyval C))
    (patch : option (seq Z)) : res C :=
  if patch is Some p then
    let dims := hp_dims (hp H) in
    let patch_index := unique_patch_index dims p in
    do r <- trace_branches H args kw (all_patches dims);
    if r.1 is [::] then Err ValueError
    else Ok (nth 0 r.1 (clamp (size r.1) patch_index))
  else rmap fst (hom_call H args kw None).

(** polynomial.py:1203-1222  DworkPoly; the flag True means -5 and False 1. *)
Inductive dwork_factor := FBool of bool | FNum of C.
Definition dwork_factor_value (f : dwork_factor) : C :=
  match f with FBool true => -5%:R | FBool false => 1 | FNum c => c end.

Definition dwork_call (degree : nat) (factor : dwork_factor) (z params : seq C)
    (patch : option Z) : res C :=
  do _ <- rassert (size z + isSome patch == degree)%N;
  do par0 <- item params 0;
  let f := (\sum_(x <- z) x ^+ degree) + dwork_factor_value factor * par0 * \prod_(x <- z) x in
  Ok (if patch is None then f else 1 + f).

(** polynomial.py:1233-1247  FermatPoly *)
Definition fermat_call (degree : nat) (z : seq C) (patch : option Z) : res C :=
  do _ <- rassert (size z + isSome patch == degree)%N;
  let f := \sum_(x <- z) x ^+ degree in
  Ok (if patch is None then f else 1 + f).
End Hom.
