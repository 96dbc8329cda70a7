(** Notions used in the statements about sampled points: sample_intersect,
    compute_vol, sigma_accuracy and donaldson_step as methods. *)
From Coq Require Import ZArith.
From mathcomp Require Import all_ssreflect all_algebra.
From SsrMultinomials Require Import mpoly.
From Verif Require Import Base ModelUtil ModelProjective ModelExpr ModelPoly ModelHom ModelVariety ModelBasis ModelAlg PolyGrad Deriv Bridge Herm.
Delimit Scope Z_scope with Z.

Set Implicit Arguments.
Unset Strict Implicit.
Unset Printing Implicit Defensive.

Import GRing.Theory Num.Theory.
Local Open Scope ring_scope.

Section Spec.
Variable C : numClosedFieldType.

(** The points are non-zero solutions of the defining equation. *)
Definition points_on (V : variety C) (ps : seq C) (m : nat) (zs : seq (seq C)) : Prop :=
  forall z, z \in zs -> exists x : 'rV[C]_m.+2,
    [/\ z = row_seq x, x != 0 & v_defining V z (PArr ps) (PatchNone C) = Ok 0].

(** Lines p + t q to intersect with: p is no multiple of q, and q is not on the variety. *)
Definition good_lines (V : variety C) (ps : seq C) (m : nat) (lns : seq (seq C * seq C)) : Prop :=
  forall pq, pq \in lns -> exists p q : 'rV[C]_m.+2,
    [/\ pq = (row_seq p, row_seq q), forall x, p <> x *: q &
        exists2 v, v_defining V (row_seq q) (PArr ps) (PatchNone C) = Ok v & v != 0].

(** The numbers in an expression are real and the imaginary unit is written I, as in sympy. *)
Fixpoint sympy_numbers (e : expr C) : bool :=
  match e with
  | ENum c => c \is Num.real
  | EI | ESym _ => true
  | EAdd es | EMul es => all sympy_numbers es
  | EPow e _ => sympy_numbers e
  end.

Section Weight.
Variables (pi : C) (m e : nat) (Q : {mpoly C[m.+2]}).

(** Squared lengths of homogeneous coordinates and of the gradient there *)
Definition len2 (x : 'rV[C]_m.+2) : C := \sum_k `|x 0 k| ^+ 2.
Definition grad2 (x : 'rV[C]_m.+2) : C := \sum_k `|peval (Q^`M(k)) x| ^+ 2.

(** The weight of a point on patch i *)
Definition patch_weight (vol : C) (x : 'rV[C]_m.+2) (i : 'I_m.+2) : C :=
  vol * (len2 x ^+ m.+1 / grad2 x) * (`|x 0 i| ^+ (2 * e) / `|x 0 i| ^+ (2 * m.+2)).

(** w is the weight of the point z on the patch of its largest coordinate. *)
Definition has_weight (z : seq C) (w : C) : Prop :=
  exists x (i : 'I_m.+2), [/\ z = row_seq x, forall j, `|x 0 j| <= `|x 0 i|, x 0 i != 0 &
    w = patch_weight (pi ^+ m / m`!%:R) x i].
End Weight.

(** The affine coordinates ap.1 of the point z on the patch ap.2 of its largest coordinate *)
Definition affine_form (z : seq C) (ap : seq C * nat) : Prop :=
  [/\ (ap.2 < size z)%N, nth 0 z ap.2 != 0, forall x, x \in z -> `|x| <= `|nth 0 z ap.2| &
      hom_to_affine z (Z.of_nat ap.2) = Ok ap.1].

(** The mean of a function over points *)
Definition avg (f : seq C -> C) (zs : seq (seq C)) : C := (\sum_(z <- zs) f z) / (size zs)%:R.

(** zs' are other homogeneous coordinates of the points zs. *)
Definition same_points (zs zs' : seq (seq C)) : Prop :=
  exists c : nat -> C, (forall j, c j != 0) /\
  zs' = [seq [seq c j * x | x <- nth [::] zs j] | j <- iota 0 (size zs)].

(** Both samplers give the same points, in possibly other homogeneous coordinates,
    or the same exception. *)
Definition same_draws (key : Type) (draw draw' : key -> seq C -> nat -> res (seq (seq C))) : Prop :=
  forall k ps count, match draw k ps count, draw' k ps count with
  | Ok zs, Ok zs' => same_points zs zs'
  | Err x, Err x' => x = x'
  | _, _ => False
  end.

(** The monomials of the basis at homogeneous coordinates *)
Definition hom_sections (B : basis) (z : seq C) : 'rV[C]_(size (power_matrix B)) :=
  \row_(a < _) \prod_(j < size z) nth 0 z j ^+ nth 0%N (nth [::] (power_matrix B) a) j.

(** The T operator of Donaldson's algorithm: N/vol times the mean of
    W s_a conj(s_b) / (sum_cd s_c h_cd conj(s_d)) *)
Definition T_mean (B : basis) (h : 'M[C]_(size (power_matrix B))) (vol : C) (W : seq C -> C) (zs : seq (seq C))
    : 'M[C]_(size (power_matrix B)) :=
  \matrix_(a, b) ((size (power_matrix B))%:R / vol *
    avg (fun z => W z * (hom_sections B z 0 a * (hom_sections B z 0 b)^*) /
      (\sum_c \sum_d hom_sections B z 0 c * h c d * (hom_sections B z 0 d)^*)) zs).
End Spec.
