(** Properties C88-C91: change of patch on a hypersurface. *)
From Coq Require Import ZArith.
From mathcomp Require Import all_ssreflect all_algebra.
From SsrMultinomials Require Import mpoly.
From Verif Require Import Base ModelUtil ModelProjective ModelBasis ModelGeom ModelVariety Deriv Bridge SpecGeom Herm SpecBasis
  SpecSections SpecPatch PolyGrad ProofPatch.
Delimit Scope Z_scope with Z.

Set Implicit Arguments.
Unset Strict Implicit.
Unset Printing Implicit Defensive.

Import GRing.Theory Num.Theory.
Local Open Scope ring_scope.

(** *** C88: the algebraic metric on two patches *)
Theorem algebraic_metric_patch : forall (C : numClosedFieldType) (m k : nat) (B : basis), basis_class C m.+1 k B ->
  forall (M : 'M[C]_(size (power_matrix B))) (pi : C) (P : {mpoly C[m.+2]}) (i j : 'I_m.+2) (d d' : 'I_m.+1)
    (z : 'rV[C]_m.+1),
  let o := on_patch k M P in let x := hom_coord i j z in
  hermitian M -> i != j -> x != 0 -> 0 < ob_psi (o i d z) ->
  exists w T, [/\ chart_change i j z w T, ob_psi (o i d z) = `|x| ^+ (2 * k) * ob_psi (o j d' w),
    \matrix_(a, b) ob_g_proj pi (o i d z) a b = T *m (\matrix_(a, b) ob_g_proj pi (o j d' w) a b) *m adjm T &
    forall log : C -> C, (forall a b, 0 < a -> 0 < b -> log (a * b) = log a + log b) -> (0 < k)%N ->
    ob_kahler log pi (o i d z) = ob_kahler log pi (o j d' w) + log (`|x| ^+ 2) / pi].
Proof. exact metric_patch. Qed.
Print Assumptions algebraic_metric_patch.

(** *** C89: the defining polynomial and its gradient on two patches *)
Theorem gradient_patch : forall (C : numClosedFieldType) (m e : nat) (P : {mpoly C[m.+2]}) (i j : 'I_m.+2)
    (z w : 'rV[C]_m.+1) (T : 'M[C]_m.+1),
  P \is e.-homog -> i != j -> hom_coord i j z != 0 -> chart_change i j z w T ->
  peval (dehom i P) z = hom_coord i j z ^+ e * peval (dehom j P) w /\
  (peval (dehom i P) z = 0 -> pgrad (dehom i P) z = hom_coord i j z ^+ e *: (pgrad (dehom j P) w *m T^T)).
Proof. exact grad_wrap. Qed.
Print Assumptions gradient_patch.

(** *** C90: the measures eta and the sample weights.

    [e] is the degree of the hypersurface, [m.+2] the number of homogeneous
    coordinates.  Weight times eta never depends on the patch; each of them alone
    does not when the degree is the number of homogeneous coordinates, and this is
    necessary. *)
Theorem measures_patch : forall (C : numClosedFieldType) (m k e : nat) (B : basis), basis_class C m.+1 k B ->
  forall (M : 'M[C]_(size (power_matrix B))) (pi : C) (P : {mpoly C[m.+2]}) (i j : 'I_m.+2)
    (z w : 'rV[C]_m.+1) (T : 'M[C]_m.+1) (d d' : 'I_m.+1) vol,
  let o := on_patch k M P in let x := hom_coord i j z in
  hermitian M -> 0 < pi -> P \is e.-homog -> i != j -> x != 0 -> chart_change i j z w T ->
  peval (dehom i P) z = 0 -> peval ((dehom i P)^`M(d)) z != 0 -> peval ((dehom j P)^`M(d')) w != 0 ->
  0 < ob_psi (o i d z) ->
  exists ei ej wi wj,
  [/\ ob_eta pi (o i d z) = Ok ei, ob_eta pi (o j d' w) = Ok ej,
     weights pi z (row_seq (pgrad (dehom i P) z)) (Some (Z.of_nat d)) vol = Ok wi &
     weights pi w (row_seq (pgrad (dehom j P) w)) (Some (Z.of_nat d')) vol = Ok wj] /\
  [/\ ei * `|x| ^+ (2 * m.+2) = `|x| ^+ (2 * e) * ej,
     wi * `|x| ^+ (2 * e) = `|x| ^+ (2 * m.+2) * wj, wi * ei = wj * ej,
     e = m.+2 -> wi = wj /\ ei = ej & wi = wj <-> `|x| = 1 \/ e = m.+2].
Proof. exact volume_wrap. Qed.
Print Assumptions measures_patch.

(** *** C91: the metric in local coordinates *)
Theorem local_metric_patch : forall (C : numClosedFieldType) (m k e : nat) (B : basis), basis_class C m.+1 k B ->
  forall (M : 'M[C]_(size (power_matrix B))) (pi : C) (P : {mpoly C[m.+2]}) (i j : 'I_m.+2)
    (z w : 'rV[C]_m.+1) (T : 'M[C]_m.+1) (d d' : 'I_m.+1),
  let o := on_patch k M P in
  hermitian M -> P \is e.-homog -> i != j -> hom_coord i j z != 0 -> chart_change i j z w T ->
  peval (dehom i P) z = 0 -> peval ((dehom i P)^`M(d)) z != 0 -> peval ((dehom j P)^`M(d')) w != 0 ->
  0 < ob_psi (o i d z) ->
  exists gi gj Ji Jj A,
  [/\ ob_g_loc pi (o i d z) = Ok gi, ob_g_loc pi (o j d' w) = Ok gj,
     ob_jac (o i d z) = Ok Ji & ob_jac (o j d' w) = Ok Jj] /\
  [/\ A \in unitmx, Ji *m T = A *m Jj & gi = A *m gj *m adjm A].
Proof. exact gloc_wrap. Qed.
Print Assumptions local_metric_patch.

(** The point (1 : 2 : 0) of X1^e = 2^e X0^e, on patches 0 and 1: the hypotheses
    hold for every degree, with a coordinate of modulus 2. *)
Example patch_instance (C : numClosedFieldType) (e : nat) : (0 < e)%N ->
  [/\ two_P C e \is e.-homog, `|hom_coord 0 1 (two_pt C)| = 2%:R,
   exists T, chart_change 0 1 (two_pt C) (half_pt C) T, peval (dehom 0 (two_P C e)) (two_pt C) = 0 &
   peval ((dehom 0 (two_P C e))^`M(0)) (two_pt C) != 0 /\ peval ((dehom 1 (two_P C e))^`M(0)) (half_pt C) != 0].
Proof. exact: two_instance. Qed.
