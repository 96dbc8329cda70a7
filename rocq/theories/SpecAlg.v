(** Notions used in the statements about AlgebraicMetric and VarietySingle. *)
From Coq Require Import ZArith.
From mathcomp Require Import all_ssreflect all_algebra.
From SsrMultinomials Require Import mpoly.
From Verif Require Import Base ModelUtil ModelExpr ModelPoly ModelHom ModelVariety ModelProjective ModelAlg SpecPoly SpecHom SpecVariety
  Deriv Bridge PolyGrad.
Delimit Scope Z_scope with Z.

Set Implicit Arguments.
Unset Strict Implicit.
Unset Printing Implicit Defensive.

Import GRing.Theory Num.Theory.
Local Open Scope ring_scope.

Section SpecAlg.
Variable C : numClosedFieldType.

(** What is asked of JAX: where a function has a complex derivative, D is it. *)
Definition diff_ok (D : forall n : nat, ('rV[C]_n -> C) -> 'rV[C]_n -> 'rV[C]_n) : Prop :=
  forall n (f : 'rV[C]_n -> C) z g, is_grad f z g -> @D n f z = g.

(** V is a hypersurface of degree e in m.+2 homogeneous coordinates, and ps are
    values for its parameters: it comes from a homogeneous polynomial, or it is one
    of the predefined varieties. *)
Definition hypersurface (V : variety C) (ps : seq C) (m e : nat) : Prop :=
  [\/ exists norm P H, norm_ok norm /\
        [/\ hom_ok P /\ homogeneous P e, hom_init P = Ok H, variety_init norm H = Ok V,
            variable_indices P = dim_indices [:: m.+2] & size ps = size (parameters P)],
      exists factor c, [/\ V = dwork_variety m factor, ps = [:: c] & e = m.+2] |
      V = fermat_variety C m /\ e = m.+2].

(** Q is the defining polynomial with the values ps for the parameters. *)
Definition defined_by (V : variety C) (ps : seq C) m (Q : {mpoly C[m.+2]}) : Prop :=
  forall z, v_defining V (row_seq z) (PArr ps) (PatchNone C) = Ok (peval Q z).

(** x lies on the hypersurface, its i-th coordinate is not zero, a are its affine
    coordinates there, and the d-th entry of the gradient at a is not zero. *)
Definition smooth_at (D : forall n : nat, ('rV[C]_n -> C) -> 'rV[C]_n -> 'rV[C]_n)
    (V : variety C) (ps : seq C) m (x : 'rV[C]_m.+2) (i : 'I_m.+2) (d : 'I_m.+1) (a g : seq C) : Prop :=
  [/\ v_defining V (row_seq x) (PArr ps) (PatchNone C) = Ok 0, x 0 i != 0,
      hom_to_affine (row_seq x) (Z.of_nat i) = Ok a,
      v_grad_defining D V a (PArr ps) (PatchInt C (Z.of_nat i)) = Ok g & nth 0 g d != 0].

(** The gradient vanishes at no point of the hypersurface, on any patch. *)
Definition smooth (D : forall n : nat, ('rV[C]_n -> C) -> 'rV[C]_n -> 'rV[C]_n)
    (V : variety C) (ps : seq C) (m : nat) : Prop :=
  forall (p : 'I_m.+2) zs, v_defining V zs (PArr ps) (PatchInt C (Z.of_nat p)) = Ok 0 ->
  exists g i, v_grad_defining D V zs (PArr ps) (PatchInt C (Z.of_nat p)) = Ok g /\ nth 0 g i != 0.

(** The numbers in an expression are real, as every sympy.Number is. *)
Fixpoint real_numbers (e : expr C) : bool :=
  match e with
  | ENum c => c \is Num.real
  | EI => false
  | ESym _ => true
  | EAdd es | EMul es => all real_numbers es
  | EPow e _ => real_numbers e
  end.

Definition real_poly (P : poly C) : bool :=
  match sympy_poly P with SPoly _ e | SExpr e => real_numbers e end.

(** As [hypersurface], and apart from the parameters the coefficients are real. *)
Definition real_hypersurface (V : variety C) (ps : seq C) (m e : nat) : Prop :=
  [\/ exists norm P H, [/\ norm_ok norm, real_poly P &
        [/\ hom_ok P /\ homogeneous P e, hom_init P = Ok H, variety_init norm H = Ok V,
            variable_indices P = dim_indices [:: m.+2] & size ps = size (parameters P)]],
      exists factor c, [/\ V = dwork_variety m factor, dwork_factor_value factor \is Num.real, ps = [:: c] & e = m.+2] |
      V = fermat_variety C m /\ e = m.+2].
End SpecAlg.
