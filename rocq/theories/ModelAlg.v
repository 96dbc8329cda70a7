(** Model of cyjax/donaldson.py: GeometricObjects for given coordinates and the
    functions of AlgebraicMetric; of cyjax/variety.py: the methods of
    VarietySingle which differentiate the defining equation.  At one point.

    The number of homogeneous coordinates is [m.+2]; arrays of affine coordinates
    are row vectors once their length has been checked. *)
From Coq Require Import ZArith Ascii String.
From mathcomp Require Import all_ssreflect all_algebra.
From Verif Require Import Base ModelUtil ModelProjective ModelDiff ModelExpr ModelPoly ModelHom ModelVariety ModelBasis
  ModelGeom ModelStr Deriv Bridge.
Delimit Scope Z_scope with Z.

Set Implicit Arguments.
Unset Strict Implicit.
Unset Printing Implicit Defensive.

Import GRing.Theory Num.Theory.
Local Open Scope ring_scope.

(** variety.py:47-61  VarietySingle: the defining equation as a numeric function
    (hom_poly.transform_eval()), the parameters and the number of coordinates. *)
Record variety (C : numClosedFieldType) : Type := Variety {
  v_defining : seq C -> pyval C -> parg C -> res C;
  v_parameters : seq sym;
  v_coordinates : res nat }.

Section Varieties.
Variable C : numClosedFieldType.

(** variety.py:50-61  __init__, for a polynomial of the general class *)
Definition variety_init (norm : expr C -> expr C) (H : hompoly C) : res (variety C) :=
  do _ <- rassert (size (variable_names (hp H)) == 1)%N;
  Ok (Variety (defining norm H) (parameters (hp H)) (dim_complex (hp H))).

(** variety.py:62-81  from_sympy: the argument poly_degree is passed to
    HomPoly.from_sympy as variable_dim.  HomPoly.from_sympy ends with
    cls.from_poly, which calls __init__ (polynomial.py:466-471, 644). *)
Definition variety_from_sympy (norm : expr C -> expr C) (e : expr C) (syms : seq sym) (var_name : sym)
    (poly_degree : nat) (params : option (seq sym)) : res (variety C) :=
  do P <- from_sympy norm e syms (Some [:: var_name]) params (Some (dim_indices [:: poly_degree]));
  do H <- hom_init P;
  variety_init norm H.

(** A patch for the polynomials below: all branches of lax.switch are one function. *)
Definition on_any_patch (f : option Z -> res C) (patch : parg C) : res C :=
  match patch with
  | PatchNone => f None
  | PatchInt p => f (Some p)
  | PatchArr _ => Err TypeError
  end.

(** variety.py:334-337, 340-343  Fermat and Fermat.from_sympy; the parameters are ignored *)
Definition fermat_variety (dim_variety : nat) : variety C :=
  Variety (fun zs _ => on_any_patch (fermat_call dim_variety.+2 zs)) [::] (Ok dim_variety.+2).
Definition fermat_from_sympy : res (variety C) := Err NotImplemented.

(** variety.py:346-349, 352-355  Dwork and Dwork.from_sympy; par[0] needs an array *)
Definition dwork_variety (dim_variety : nat) (factor : dwork_factor C) : variety C :=
  Variety (fun zs params => on_any_patch (fun patch =>
      if params is PArr ps then dwork_call dim_variety.+2 factor zs ps patch else Err OtherError))
    [:: lit "psi"] (Ok dim_variety.+2).
Definition dwork_from_sympy : res (variety C) := Err NotImplemented.

(** variety.py:84-116  num_defining, parameters, par_count, dim_projective, dim_variety, dim *)
Definition v_num_defining (V : variety C) : nat := 1.
Definition v_par_count (V : variety C) : nat := size (v_parameters V).
Definition v_dim_projective (V : variety C) : res nat := rmap predn (v_coordinates V).
Definition v_dim_variety (V : variety C) : res nat := rmap predn (v_dim_projective V).
End Varieties.

Definition res_or (T : Type) (x : T) (r : res T) : T := if r is Ok y then y else x.

Section Alg.
Variable C : numClosedFieldType.
(** jax.grad and jax.jacfwd with holomorphic=True, of a function with one value *)
Variable D : forall n : nat, ('rV[C]_n -> C) -> 'rV[C]_n -> 'rV[C]_n.
(** jnp.log and jnp.exp, jnp.pi *)
Variables (lg ex : C -> C) (pi : C).
Variable m : nat.
Notation n := m.+1.

Section Variety.
Variable V : variety C.

(** variety.py:135-138  grad_defining, at a point with [k] coordinates *)
Definition grad_fn k (zs : seq C) (params : pyval C) (patch : parg C) : seq C :=
  row_seq (@D k (fun y => res_or 0 (v_defining V (row_seq y) params patch)) (seq_row k zs)).
Definition v_grad_defining (zs : seq C) (params : pyval C) (patch : parg C) : res (seq C) :=
  do _ <- v_defining V zs params patch; Ok (grad_fn (size zs) zs params patch).

(** jnp.argmax(jnp.abs(grad_def)), unless the index is given *)
Definition choose_dependent (grad_def : seq C) (dependent : option Z) : res Z :=
  if dependent is Some d then Ok d else rmap Z.of_nat (argmax [seq `|x| | x <- grad_def]).

(** variety.py:153-164  jacobian_embed; the index is returned when it was not given *)
Definition v_jacobian_embed (zs : seq C) (params : pyval C) (patch : parg C) (dependent : option Z)
    : res (seq (seq C) * option Z) :=
  do g <- v_grad_defining zs params patch;
  do d <- choose_dependent g dependent;
  do J <- jacobian_embed g d;
  Ok (J, if dependent is Some _ then None else Some d).

(** jnp.conj of the parameters; None has no conjugate *)
Definition conj_params (params : pyval C) : res (pyval C) :=
  match params with
  | PNone => Err TypeError
  | PNum x => Ok (PNum x^*)
  | PArr a => Ok (PArr [seq x^* | x <- a])
  end.

(** variety.py:166-185  induced_metric *)
Definition v_induced_metric (metric : 'M[C]_n) (zs : seq C) (params : pyval C) (patch : parg C)
    (zs_c : option (seq C)) (dependent : option Z) : res ('M[C]_m * option Z) :=
  do g <- v_grad_defining zs params patch;
  do d <- choose_dependent g dependent;
  do r <- (if zs_c is Some zc then
             do pc <- conj_params params;
             do gc <- v_grad_defining zc pc patch;
             induced_metric metric g d (Some gc)
           else induced_metric metric g d None);
  Ok (r, if dependent is Some _ then None else Some d).

(** variety.py:187-193  induced_fs *)
Definition v_induced_fs (zs : seq C) (params : pyval C) (patch : parg C)
    (zs_c : option (seq C)) (dependent : option Z) : res ('M[C]_m * option Z) :=
  let z := seq_row n zs in
  v_induced_metric (fs_metric z (if zs_c is Some zc then seq_row n zc else conj_row z))
    zs params patch zs_c dependent.
End Variety.

Section Objects.
Variables (V : variety C) (B : basis).
Notation N := (size (power_matrix B)).
Variables (h : hvalue C N) (zs : seq C) (params : pyval C) (patch : option Z)
  (grad_def : option 'rV[C]_n) (dependent : option Z).

(** donaldson.py:354-361  homogeneous coordinates when no patch is given; the
    number of affine coordinates is checked *)
Definition alg_point : res ('rV[C]_n * Z) :=
  do zp <- (if patch is Some p then Ok (zs, p)
            else rmap (fun ap => (ap.1, Z.of_nat ap.2)) (hom_to_affine_auto zs));
  do k <- v_dim_projective V;
  do _ <- rassert (size zp.1 == k);
  Ok (seq_row n zp.1, zp.2).

(** donaldson.py:363-371  the sections and their derivatives *)
Definition alg_sections (p : Z) (y : 'rV[C]_n) : res (seq C) :=
  basis_call lg ex B (row_seq y) (Some p) true.
Definition alg_s (p : Z) (s : 'I_N) (y : 'rV[C]_n) : C := nth 0 (res_or [::] (alg_sections p y)) s.
Definition alg_s1 (p : Z) (s : 'I_N) (i : 'I_n) (y : 'rV[C]_n) : C := @D n (alg_s p s) y 0 i.
Definition alg_s2 (p : Z) (s : 'I_N) (i j : 'I_n) (y : 'rV[C]_n) : C := @D n (alg_s1 p s i) y 0 j.

(** donaldson.py:599-601  grad_def, unless given *)
Definition alg_grad (p : Z) (y : 'rV[C]_n) : res 'rV[C]_n :=
  if grad_def is Some g then Ok g
  else rmap (seq_row n) (v_grad_defining V (row_seq y) params (PatchInt C p)).

(** donaldson.py:615-618  jac_h *)
Definition alg_jac_h (p d : Z) (y : 'rV[C]_n) (q : 'I_m) (i a : 'I_n) : C :=
  @D n (fun y => mx_rows m n (res_or [::] (rmap fst (v_jacobian_embed V (row_seq y) params (PatchInt C p) (Some d)))) q i)
    y 0 a.

(** donaldson.py:318-377  GeometricObjects.__init__ and the patch used.  The
    functions below which use no gradient do not need [alg_grad]. *)
Definition alg_objects : res (objects C N m * Z) :=
  do yp <- alg_point;
  let '(y, p) := yp in
  do s <- alg_sections p y;
  do g <- alg_grad p y;
  do d <- choose_dependent (row_seq g) dependent;
  Ok (Objects h (bdegree B) (fun a => nth 0 s a) (fun a i => alg_s1 p a i y) (fun a i j => alg_s2 p a i j y)
        g (Some d) (alg_jac_h p d y), p).

(** donaldson.py:694-710  AlgebraicMetric.degree and __init__: the degree is
    [bdegree B]; the variety, the sections and the parameters are arguments here.

    donaldson.py:712-730  AlgebraicMetric.kahler_potential *)
Definition alg_kahler : res C :=
  do yp <- alg_point;
  do s <- alg_sections yp.2 yp.1;
  let s a := nth 0 s a in
  Ok (kahler lg pi (psi h s (s_c s)) (bdegree B)).

(** donaldson.py:733-751  AlgebraicMetric.metric *)
Definition alg_metric : res ('M[C]_m * Z * Z) :=
  do op <- alg_objects;
  do g <- ob_g_loc pi op.1; do d <- ob_dependent op.1; Ok (g, op.2, d).

(** donaldson.py:754-772  AlgebraicMetric.eta *)
Definition alg_eta : res C := do op <- alg_objects; ob_eta pi op.1.

(** donaldson.py:775-795  AlgebraicMetric.ricci *)
Definition alg_ricci : res ('M[C]_m * Z * Z) :=
  do op <- alg_objects;
  do R <- ob_ricci_loc pi op.1; do d <- ob_dependent op.1; Ok (R, op.2, d).

(** donaldson.py:798-816  AlgebraicMetric.ricci_scalar *)
Definition alg_ricci_scalar : res C := do op <- alg_objects; ob_ricci_scalar pi op.1.
End Objects.
End Alg.
Arguments alg_objects [C] D lg ex m V [B] h zs params patch grad_def dependent.
Arguments alg_kahler [C] lg ex pi m V [B] h zs patch.
Arguments alg_metric [C] D lg ex pi m V [B] h zs params patch grad_def dependent.
Arguments alg_eta [C] D lg ex pi m V [B] h zs params patch grad_def dependent.
Arguments alg_ricci [C] D lg ex pi m V [B] h zs params patch grad_def dependent.
Arguments alg_ricci_scalar [C] D lg ex pi m V [B] h zs params patch grad_def dependent.
Arguments v_induced_metric [C] D m V metric zs params patch zs_c dependent.
Arguments v_induced_fs [C] D m V zs params patch zs_c dependent.
