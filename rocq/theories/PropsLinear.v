(** Properties C157-C158: linear changes of the homogeneous coordinates. *)
From Coq Require Import ZArith.
From mathcomp Require Import all_ssreflect all_algebra.
From SsrMultinomials Require Import mpoly.
From Verif Require Import Base ModelUtil ModelProjective ModelBasis ModelGeom ModelVariety ModelDonaldson ModelAlg ModelPipe SpecAlg Deriv Bridge SpecGeom Herm SpecBasis
  SpecSections SpecPatch SpecPipe PolyGrad ProofPatch SpecLinear ProofLinear3 ProofLinear4 ProofLinear5 ProofLinear6.
Delimit Scope Z_scope with Z.

Set Implicit Arguments.
Unset Strict Implicit.
Unset Printing Implicit Defensive.

Import GRing.Theory Num.Theory.
Local Open Scope ring_scope.

(** *** C157: linear changes of the coordinates.

    The sections of a full basis at x A are combinations of those at x, with one
    invertible matrix R. *)
Theorem linear_sections : forall (C : numClosedFieldType) (m k : nat) (B : basis), basis_full m.+1 k = Ok B ->
  forall A : 'M[C]_m.+2, A \in unitmx -> exists R : 'M[C]_(size (power_matrix B)),
  [/\ R \in unitmx, lin_sections A R & forall R', lin_sections A R' -> R' = R].
Proof. exact lin_unit. Qed.
Print Assumptions linear_sections.

(** With R H R^* in place of H and P'(x) = P(x A) in place of P the metric is the
    pullback along x -> x A. *)
Theorem linear_metric : forall (C : numClosedFieldType) (m k : nat) (B : basis), basis_class C m.+1 k B ->
  forall (A : 'M[C]_m.+2) (R : 'M[C]_(size (power_matrix B))), lin_sections A R ->
  forall (M : 'M[C]_(size (power_matrix B))) (pi : C) (P P' : {mpoly C[m.+2]}) (i j : 'I_m.+2) (d d' : 'I_m.+1)
    (z : 'rV[C]_m.+1),
  let o := on_patch k M P in let o' := on_patch k (R *m M *m adjm R) P' in let x := lin_hom A i z 0 j in
  hermitian M -> x != 0 -> 0 < ob_psi (o' i d z) ->
  exists w T, [/\ lin_change A i j z w T, ob_psi (o' i d z) = `|x| ^+ (2 * k) * ob_psi (o j d' w),
    \matrix_(a, b) ob_g_proj pi (o' i d z) a b = T *m (\matrix_(a, b) ob_g_proj pi (o j d' w) a b) *m adjm T &
    forall log : C -> C, (forall a b, 0 < a -> 0 < b -> log (a * b) = log a + log b) -> (0 < k)%N ->
    ob_kahler log pi (o' i d z) = ob_kahler log pi (o j d' w) + log (`|x| ^+ 2) / pi].
Proof. exact metric_lin. Qed.
Print Assumptions linear_metric.

(** eta changes by the squared modulus of det A when the degree is the number of
    coordinates; the weights do not change under unitary A. *)
Theorem linear_measures : forall (C : numClosedFieldType) (m k e : nat) (B : basis), basis_class C m.+1 k B ->
  forall (A : 'M[C]_m.+2) (R : 'M[C]_(size (power_matrix B))), lin_sections A R ->
  forall (M : 'M[C]_(size (power_matrix B))) (pi : C) (P P' : {mpoly C[m.+2]}) (i j : 'I_m.+2) (d d' : 'I_m.+1)
    (z : 'rV[C]_m.+1),
  let o := on_patch k M P in let o' := on_patch k (R *m M *m adjm R) P' in let x := lin_hom A i z 0 j in
  hermitian M -> 0 < pi -> P \is e.-homog -> (forall u, peval P' u = peval P (u *m A)) -> x != 0 ->
  forall (w : 'rV[C]_m.+1) (T : 'M[C]_m.+1), lin_change A i j z w T ->
  peval (dehom i P') z = 0 -> peval ((dehom i P')^`M(d)) z != 0 -> peval ((dehom j P)^`M(d')) w != 0 ->
  0 < ob_psi (o' i d z) ->
  forall vol, exists e1 e2 w1 w2,
  [/\ ob_eta pi (o' i d z) = Ok e1, ob_eta pi (o j d' w) = Ok e2,
     weights pi z (row_seq (pgrad (dehom i P') z)) (Some (Z.of_nat d)) vol = Ok w1 &
     weights pi w (row_seq (pgrad (dehom j P) w)) (Some (Z.of_nat d')) vol = Ok w2] /\
  [/\ e1 * `|x| ^+ (2 * m.+2) = `|\det A| ^+ 2 * `|x| ^+ (2 * e) * e2,
      e = m.+2 -> e1 = `|\det A| ^+ 2 * e2,
      unitary A -> w1 * `|x| ^+ (2 * e) = `|x| ^+ (2 * m.+2) * w2,
      unitary A -> w1 * e1 = w2 * e2 &
      unitary A -> e = m.+2 -> w1 = w2 /\ e1 = e2].
Proof. exact measures_lin. Qed.
Print Assumptions linear_measures.

(** The metrics in local coordinates are those of one hermitian form. *)
Theorem linear_local_metric : forall (C : numClosedFieldType) (m k e : nat) (B : basis), basis_class C m.+1 k B ->
  forall (A : 'M[C]_m.+2) (R : 'M[C]_(size (power_matrix B))), lin_sections A R ->
  forall (M : 'M[C]_(size (power_matrix B))) (pi : C) (P P' : {mpoly C[m.+2]}) (i j : 'I_m.+2) (d d' : 'I_m.+1)
    (z : 'rV[C]_m.+1),
  let o := on_patch k M P in let o' := on_patch k (R *m M *m adjm R) P' in
  hermitian M -> A \in unitmx -> P \is e.-homog -> (forall u, peval P' u = peval P (u *m A)) -> lin_hom A i z 0 j != 0 ->
  forall (w : 'rV[C]_m.+1) (T : 'M[C]_m.+1), lin_change A i j z w T ->
  peval (dehom i P') z = 0 -> peval ((dehom i P')^`M(d)) z != 0 -> peval ((dehom j P)^`M(d')) w != 0 ->
  0 < ob_psi (o' i d z) ->
  exists g1 g2 J1 J2 S,
  [/\ ob_g_loc pi (o' i d z) = Ok g1, ob_g_loc pi (o j d' w) = Ok g2,
     ob_jac (o' i d z) = Ok J1 & ob_jac (o j d' w) = Ok J2] /\
  [/\ S \in unitmx, J1 *m T = S *m J2 & g1 = S *m g2 *m adjm S].
Proof. exact gloc_lin. Qed.
Print Assumptions linear_local_metric.

(** A rotation of the first two coordinates with sine 4/5 takes (1 : 2/11 : 0) to
    (1 : 2 : 0), a point of X1^e = 2^e X0^e. *)
Example rotation_instance (C : numClosedFieldType) (e : nat) : (0 < e)%N ->
  [/\ unitary (rot C), forall u, peval (rot_P C e) u = peval (two_P C e) (u *m rot C),
  lin_hom (rot C) 0 (rot_pt C) 0 1 = 10%:R / 11%:R, exists T, lin_change (rot C) 0 1 (rot_pt C) (half_pt C) T &
  [/\ peval (dehom 0 (rot_P C e)) (rot_pt C) = 0, exists d, peval ((dehom 0 (rot_P C e))^`M(d)) (rot_pt C) != 0 &
    peval ((dehom 1 (two_P C e))^`M(0)) (half_pt C) != 0]].
Proof. exact: rot_instance. Qed.

(** *** C158: unitary changes of the coordinates, weights and Donaldson steps.

    The weight of a point on the patch of its largest coordinate, which is not the
    same coordinate after the change. *)
Theorem unitary_weight : forall (C : numClosedFieldType) (m : nat) (A : 'M[C]_m.+2) (Q Q' : {mpoly C[m.+2]}), unitary A ->
  (forall x, peval Q' x = peval Q (x *m A)) -> forall (pi : C) (x : 'rV[C]_m.+2) (w : C),
  has_weight pi m.+2 Q' (row_seq x) w -> has_weight pi m.+2 Q (row_seq (x *m A)) w.
Proof. exact weight_lin. Qed.
Print Assumptions unitary_weight.

(** A step with the points x A on Q = 0 and a step with the points x on Q (x A) = 0. *)
Theorem unitary_step : forall (C : numClosedFieldType) (D : forall n : nat, ('rV[C]_n -> C) -> 'rV[C]_n -> 'rV[C]_n),
  diff_ok D -> forall (lg ex : C -> C) (pi : C) (m : nat) (V V' : variety C) (ps ps' : seq C) (Q Q' : {mpoly C[m.+2]}),
  hypersurface V ps m m.+2 -> defined_by V ps Q -> hypersurface V' ps' m m.+2 -> defined_by V' ps' Q' -> 0 < pi ->
  smooth D V ps m -> smooth D V' ps' m ->
  forall A : 'M[C]_m.+2, unitary A -> (forall x, peval Q' x = peval Q (x *m A)) ->
  forall (key : Type) (draw draw' : key -> seq C -> nat -> res (seq (seq C))) (splitn : key -> nat -> seq key) (k : nat) (B : basis),
  basis_full m.+1 k = Ok B -> (0 < k)%N ->
  forall R : 'M[C]_(size (power_matrix B)), lin_sections A R ->
  forall (kk : key) (batches bs : nat) (zss : seq (seq (seq C))) (W : seq C -> C),
  rseq [seq draw' k' ps' bs | k' <- splitn kk batches] = Ok zss ->
  rseq [seq draw k' ps bs | k' <- splitn kk batches] = Ok [seq lin_points A zs | zs <- zss] ->
  (forall zs, zs \in zss -> size zs = bs /\ points_on V' ps' m zs) ->
  (forall z, z \in flatten zss -> has_weight pi m.+2 Q' z (W z)) ->
  (forall v : 'rV[C]_(size (power_matrix B)), v != 0 ->
     exists2 z, z \in flatten zss & \sum_a v 0 a * hom_sections B z 0 a != 0) ->
  zss != [::] -> (0 < bs)%N ->
  let vol := avg W (flatten zss) in
  forall h H : 'M[C]_(size (power_matrix B)), hermitian h -> posdef h ->
  alg_donaldson_step D lg ex pi splitn m V draw true kk h ps vol batches bs = Ok H ->
  alg_donaldson_step D lg ex pi splitn m V' draw' true kk (R *m h *m adjm R) ps' vol batches bs = Ok (R *m H *m adjm R).
Proof. exact linear_step. Qed.
Print Assumptions unitary_step.

(** x0^2 + x1^2 becomes 2i x0 x1, the point (1 : 0) is taken to (1 : i). *)
Example tilt_quadric_instance (C : numClosedFieldType) (pi : C) : [/\ unitary (tilt C),
  forall u, peval (product2 C) u = peval (quadric C) (u *m tilt C), peval (product2 C) (e0 C) = 0, peval (quadric C) (e0 C *m tilt C) = 0 &
  has_weight (m := 0) pi 2 (product2 C) (row_seq (e0 C)) 4%:R^-1 /\
  has_weight (m := 0) pi 2 (quadric C) (row_seq (e0 C *m tilt C)) 4%:R^-1].
Proof. exact: tilt_instance. Qed.
