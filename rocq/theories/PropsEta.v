(** Properties C136-C139: the Ricci tensor and eta. *)
From Coq Require Import ZArith Reals.
From mathcomp Require Import all_ssreflect all_algebra.
From mathcomp Require Import complex.
From SsrMultinomials Require Import mpoly.
From Verif Require Import Base ModelUtil ModelProjective ModelExpr ModelPoly ModelHom ModelVariety ModelBasis ModelDiff ModelGeom ModelAlg.
From Verif Require Import SpecPoly SpecHom SpecVariety SpecGeom SpecBasis SpecSections SpecPatch SpecAlg Herm.
From Verif Require Import Deriv Wirtinger Bridge PolyGrad ProofSections ProofAlg ProofAlg3 ProofAlg6 RealField ComplexR SpecEta ProofRicci3 ProofEta3 ProofEta5.
Delimit Scope Z_scope with Z.

Set Implicit Arguments.
Unset Strict Implicit.
Unset Printing Implicit Defensive.

Import GRing.Theory Num.Theory.
Local Open Scope ring_scope.
Delimit Scope R_scope with RR.

(** *** C136: the Ricci tensor is Hermitian, the Ricci scalar real *)
Theorem ricci_is_hermitian : forall (C : numClosedFieldType) (N m : nat) (pi : C) (o : objects C N m) (M : 'M[C]_N),
  o_h o = HMat M -> hermitian M -> (forall s i j, o_s2 o s i j = o_s2 o s j i) -> pi^* = pi ->
  (forall R, ob_ricci_proj pi o = Ok R -> hermitian R) /\ (forall R, ob_ricci_loc pi o = Ok R -> hermitian R) /\
  (forall r, ob_ricci_scalar pi o = Ok r -> r \is Num.real).
Proof. exact ricci_hermitian. Qed.
Print Assumptions ricci_is_hermitian.

(** *** C137: the Ricci tensor comes from eta *)
Theorem ricci_from_eta : forall (m k e : nat) (P : {mpoly CR[m.+2]}) (B : basis), basis_for k P B ->
  P \is e.-homog -> (0 < k)%N ->
  forall M : 'M[CR]_(size (power_matrix B)), hermitian M -> posdef M ->
  forall (i : 'I_m.+2) (d : 'I_m.+1) (phi : 'rV[CR]_m -> 'rV[CR]_m.+1) (x : 'rV[CR]_m),
  let o := on_patch k M P i d in
  local_parametrisation (peval (dehom i P)) (pgrad (dehom i P)) d phi x -> peval ((dehom i P)^`M(d)) (phi x) != 0 ->
  exists2 R, ob_ricci_loc (rc PI) (o (phi x)) = Ok R &
    (exists2 r : CR, 0 < r & forall y, norm1 (y - x) < r ->
       exists2 E, ob_eta (rc PI) (o (phi y)) = Ok E & 0 < E) /\
    is_mixed (fun y => - clog (eta_at (rc PI) o (phi y))) x R.
Proof. exact eta_curvature. Qed.
Print Assumptions ricci_from_eta.

Theorem eta_determines_ricci : forall (m k k' e : nat) (P : {mpoly CR[m.+2]}) (B B' : basis),
  basis_for k P B -> basis_for k' P B' -> P \is e.-homog -> (0 < k)%N -> (0 < k')%N ->
  forall (M : 'M[CR]_(size (power_matrix B))) (M' : 'M[CR]_(size (power_matrix B'))),
  hermitian M -> posdef M -> hermitian M' -> posdef M' ->
  forall (i : 'I_m.+2) (d : 'I_m.+1) (z : 'rV[CR]_m.+1) (c r : CR),
  let o := on_patch k M P i d in let o' := on_patch k' M' P i d in
  peval (dehom i P) z = 0 -> peval ((dehom i P)^`M(d)) z != 0 -> 0 < c -> 0 < r ->
  (forall y, norm1 (y - z) < r -> peval (dehom i P) y = 0 -> eta_at (rc PI) o y = c * eta_at (rc PI) o' y) ->
  exists2 R, ob_ricci_loc (rc PI) (o z) = Ok R & ob_ricci_loc (rc PI) (o' z) = Ok R.
Proof. exact eta_determines. Qed.
Print Assumptions eta_determines_ricci.

(** *** C138: at a local maximum of eta the Ricci tensor is positive semidefinite, at a
    local minimum negative semidefinite *)
Theorem ricci_at_eta_maximum : forall (m k e : nat) (P : {mpoly CR[m.+2]}) (B : basis), basis_for k P B ->
  P \is e.-homog -> (0 < k)%N ->
  forall M : 'M[CR]_(size (power_matrix B)), hermitian M -> posdef M ->
  forall (i : 'I_m.+2) (d : 'I_m.+1) (z : 'rV[CR]_m.+1),
  let o := on_patch k M P i d in
  peval (dehom i P) z = 0 -> peval ((dehom i P)^`M(d)) z != 0 -> eta_below (rc PI) (dehom i P) o z ->
  exists R s, [/\ ob_ricci_loc (rc PI) (o z) = Ok R, possemidef R, ob_ricci_scalar (rc PI) (o z) = Ok s & 0 <= s].
Proof. exact eta_max_ricci. Qed.
Print Assumptions ricci_at_eta_maximum.

Theorem ricci_at_eta_minimum : forall (m k e : nat) (P : {mpoly CR[m.+2]}) (B : basis), basis_for k P B ->
  P \is e.-homog -> (0 < k)%N ->
  forall M : 'M[CR]_(size (power_matrix B)), hermitian M -> posdef M ->
  forall (i : 'I_m.+2) (d : 'I_m.+1) (z : 'rV[CR]_m.+1),
  let o := on_patch k M P i d in
  peval (dehom i P) z = 0 -> peval ((dehom i P)^`M(d)) z != 0 -> eta_above (rc PI) (dehom i P) o z ->
  exists R s, [/\ ob_ricci_loc (rc PI) (o z) = Ok R, possemidef (- R), ob_ricci_scalar (rc PI) (o z) = Ok s & s <= 0].
Proof. exact eta_min_ricci. Qed.
Print Assumptions ricci_at_eta_minimum.

(** *** C139: on a smooth Calabi-Yau hypersurface eta has a largest and a smallest value,
    and the Ricci scalar has no strict sign *)
Theorem calabi_yau_ricci_signs : forall (D : forall n : nat, ('rV[CR]_n -> CR) -> 'rV[CR]_n -> 'rV[CR]_n), diff_ok D ->
  forall (lg ex : CR -> CR) (m : nat) (V : variety CR) (ps : seq CR) (Q : {mpoly CR[m.+2]}),
  hypersurface V ps m m.+2 -> defined_by V ps Q -> smooth D V ps m ->
  forall (k : nat) (B : basis), basis_for k Q B -> (0 < k)%N ->
  forall M : 'M[CR]_(size (power_matrix B)), hermitian M -> posdef M ->
  let on_V (x : 'rV[CR]_m.+2) := x != 0 /\ v_defining V (row_seq x) (PArr ps) (PatchNone CR) = Ok 0 in
  let eta_of (x : 'rV[CR]_m.+2) := alg_eta D lg ex (rc PI) m V (HMat M) (row_seq x) (PArr ps) None None None in
  let ricci_of (x : 'rV[CR]_m.+2) := alg_ricci D lg ex (rc PI) m V (HMat M) (row_seq x) (PArr ps) None None None in
  let scalar_of (x : 'rV[CR]_m.+2) := alg_ricci_scalar D lg ex (rc PI) m V (HMat M) (row_seq x) (PArr ps) None None None in
  exists x y : 'rV[CR]_m.+2,
  [/\ on_V x, on_V y,
    forall w, on_V w -> exists Ex Ey Ew,
      [/\ eta_of x = Ok Ex, eta_of y = Ok Ey, eta_of w = Ok Ew, 0 < Ey & Ey <= Ew <= Ex],
    exists R i d s, [/\ ricci_of x = Ok (R, i, d), possemidef R, scalar_of x = Ok s & 0 <= s] &
    exists R i d s, [/\ ricci_of y = Ok (R, i, d), possemidef (- R), scalar_of y = Ok s & s <= 0]].
Proof. exact ricci_signs. Qed.
Print Assumptions calabi_yau_ricci_signs.

(** The Fermat hypersurface of every dimension, the full basis of every degree k > 0, H the
    identity: a chart, a local maximum and a local minimum, the hypotheses of C139. *)
Example fermat_has_chart (m k : nat) : (0 < k)%N ->
  exists (B : basis) (i : 'I_m.+2) (d : 'I_m.+1) (z : 'rV[CR]_m.+1) (phi : 'rV[CR]_m -> 'rV[CR]_m.+1) x,
  [/\ basis_for k (dwork_Q m 0 : {mpoly CR[m.+2]}) B, (dwork_Q m 0 : {mpoly CR[m.+2]}) \is m.+2.-homog, phi x = z,
      local_parametrisation (peval (dehom i (dwork_Q m 0))) (pgrad (dehom i (dwork_Q m 0))) d phi x &
      peval ((dehom i (dwork_Q m 0))^`M(d)) z != 0].
Proof. exact: fermat_chart. Qed.

Example fermat_has_extrema (m k : nat) : (0 < k)%N -> exists2 B, basis_full m.+1 k = Ok B &
  let o := on_patch (B := B) k 1%:M (dwork_Q m 0 : {mpoly CR[m.+2]}) in
  (exists i d z, [/\ peval (dehom i (dwork_Q m 0)) z = 0, peval ((dehom i (dwork_Q m 0))^`M(d)) z != 0 &
    eta_below (rc PI) (dehom i (dwork_Q m 0)) (o i d) z]) /\
  (exists i d z, [/\ peval (dehom i (dwork_Q m 0)) z = 0, peval ((dehom i (dwork_Q m 0))^`M(d)) z != 0 &
    eta_above (rc PI) (dehom i (dwork_Q m 0)) (o i d) z]).
Proof. exact: fermat_extrema. Qed.

Example fermat_meets_hypotheses (m k : nat) : diff_ok (@choice_D CR) /\ exists2 B, basis_full m.+1 k = Ok B &
  [/\ hypersurface (fermat_variety CR m) [::] m m.+2, @defined_by CR (fermat_variety CR m) [::] m (dwork_Q m 0),
      smooth (@choice_D CR) (fermat_variety CR m) [::] m, basis_for k (dwork_Q m 0 : {mpoly CR[m.+2]}) B &
      hermitian (1%:M : 'M[CR]_(size (power_matrix B))) /\ posdef (1%:M : 'M[CR]_(size (power_matrix B)))].
Proof. exact: fermat_hypotheses. Qed.

(** H and c H have the same eta. *)
Example fermat_same_eta (m k : nat) (c : CR) : (0 < k)%N -> 0 < c ->
  exists2 B, basis_full m.+1 k = Ok B &
  hermitian (c%:M : 'M[CR]_(size (power_matrix B))) /\ posdef (c%:M : 'M[CR]_(size (power_matrix B))) /\
  forall (i : 'I_m.+2) (d : 'I_m.+1) y, peval (dehom i (dwork_Q m 0)) y = 0 ->
  eta_at (rc PI) (on_patch (B := B) k 1%:M (dwork_Q m 0) i d) y =
  1 * eta_at (rc PI) (on_patch (B := B) k c%:M (dwork_Q m 0) i d) y.
Proof. exact: fermat_scaled. Qed.

(** The hypotheses of C136 on the same hypersurface. *)
Example fermat_has_ricci (m k : nat) : (0 < k)%N ->
  exists (B : basis) (i : 'I_m.+2) (d : 'I_m.+1) (z : 'rV[CR]_m.+1) R r,
  let o := on_patch (B := B) k 1%:M (dwork_Q m 0 : {mpoly CR[m.+2]}) i d z in
  [/\ hermitian (1%:M : 'M[CR]_(size (power_matrix B))), forall s a b, o_s2 o s a b = o_s2 o s b a, (rc PI : CR)^* = rc PI,
      ob_ricci_loc (rc PI) o = Ok R & ob_ricci_scalar (rc PI) o = Ok r].
Proof. exact: fermat_ricci. Qed.
