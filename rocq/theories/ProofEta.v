(** The Ricci tensor is the curvature of eta. *)
From Coq Require Import ZArith Lia.
From mathcomp Require Import all_ssreflect all_algebra.
From mathcomp Require Import zify ssrZ ring.
From SsrMultinomials Require Import mpoly.
From Verif Require Import Base ModelUtil ModelProjective SpecMon ModelBasis ModelGeom ModelDiff ProofUtil ProofProjective
  Bridge Deriv Wirtinger Herm Herm2 ProofDiff ProofFS SpecGeom SpecBasis SpecSections SpecPatch PolyGrad ProofGeom3 ProofGeom4
  ProofSections ProofPatch Implicit Implicit2 ProofRicci ProofRicci2 SpecEta.
Delimit Scope Z_scope with Z.

Set Implicit Arguments.
Unset Strict Implicit.
Unset Printing Implicit Defensive.

Import GRing.Theory Num.Theory Order.POrderTheory.
Local Open Scope ring_scope.

#[local] Hint Extern 0 (is_true (0 < _)) => solve [apply: ltr01 | apply: ltr0Sn] : core.

Section Eta.
Variables (C : numClosedFieldType) (log : C -> C) (pi : C).
Hypothesis lgm : forall a b, 0 < a -> 0 < b -> log (a * b) = log a + log b.
Hypothesis lgn : forall y, 0 < y -> log_near log y.
Hypothesis pi0 : 0 < pi.
Variables (m k e : nat) (P : {mpoly C[m.+2]}) (B : basis).
Hypothesis HB : basis_for k P B.
Hypothesis HP : P \is e.-homog.
Hypothesis k0 : (0 < k)%N.
Variable M : 'M[C]_(size (power_matrix B)).
Hypothesis HM : hermitian M.
Hypothesis pd : posdef M.
Variables (i : 'I_m.+2) (d : 'I_m.+1).
Let Q := dehom i P.
Let o := on_patch k M P i d.

Lemma eta_value y : peval Q y = 0 -> peval (Q^`M(d)) y != 0 ->
  exists g, [/\ ob_g_loc pi (o y) = Ok g, posdef g,
    ob_eta pi (o y) = Ok (\det g * (peval (Q^`M(d)) y * (peval (Q^`M(d)) y)^*)) &
    0 < \det g * (peval (Q^`M(d)) y * (peval (Q^`M(d)) y)^*)].
Proof.
move=> Py gy; have [_ [g Eg pg]] := for_positive HP HB k0 pi0 HM pd Py gy.
exists g; split=> //.
  have gE : o_grad (o y) 0 d != 0 by rewrite mxE.
  rewrite (@eta_dep _ _ _ pi (o y) d) // -(vol_lemma _ gE) [in X in _ * X]mxE normCK; congr (Ok (\det _ * _)).
  by move: Eg; rewrite (@g_loc_dep _ _ _ pi (o y) d) // => -[].
by rewrite mulr_gt0 ?posdef_det // -normCK exprn_gt0 // normr_gt0.
Qed.

Lemma eta_ricci (z : 'rV[C]_m.+1) (phi : 'rV[C]_m -> 'rV[C]_m.+1) (x : 'rV[C]_m) :
  phi x = z -> local_parametrisation (peval Q) (pgrad Q) d phi x -> peval (Q^`M(d)) z != 0 ->
  exists2 R, ob_ricci_loc pi (o z) = Ok R &
    (exists2 r : C, 0 < r & forall y, norm1 (y - x) < r -> 0 < eta_at pi o (phi y)) /\
    is_mixed (fun y => - log (eta_at pi o (phi y))) x R.
Proof.
move=> phx par gd; have [r1 r10 [_ _ H1]] := par.
have Pz : peval Q z = 0 by rewrite -phx; apply: (H1 x _).1; rewrite subrr norm10.
have [g [Eg pg Ee e0]] := eta_value Pz gd.
have [p0 _] := for_positive HP HB k0 pi0 HM pd Pz gd.
have par' : local_parametrisation (peval Q) (fun y => o_grad (o y)) d phi x by exact: par.
have emb : embedding_contract o (phi x) d by rewrite phx; exact: poly_embedding.
have sec : sections_contract o (phi x) M k by exact: poly_sections.
have p1 : ob_psi (o (phi x)) != 0 by rewrite phx lt0r_neq0.
have dg : 0 < \det g by exact: posdef_det.
have [R ER Lm] := ricci_pullback par' emb HM sec pi0 p1 (etrans (congr1 (fun y => ob_g_loc pi (o y)) phx) Eg)
  (lt0r_neq0 dg) (lgn dg).
rewrite phx in ER; exists R => //.
have Hphi c : hol2 (fun y => phi y 0 c) x by exact: phi_hol2 par' emb.
have Hg : hol2 (fun y => peval (Q^`M(d)) (phi y)) x by exact: hol2_peval.
have gx : peval (Q^`M(d)) (phi x) != 0 by rewrite phx.
have [r2 r20 H2] := hol2_nz Hg gx.
have [r [r0 ra rb]] := pos_min r10 r20.
have near y : norm1 (y - x) < r -> exists g, [/\ ob_g_loc pi (o (phi y)) = Ok g, posdef g,
    eta_at pi o (phi y) = \det g * (peval (Q^`M(d)) (phi y) * (peval (Q^`M(d)) (phi y))^*), 0 < eta_at pi o (phi y) &
    peval (Q^`M(d)) (phi y) != 0].
  move=> Hy; have [Py _] := H1 y (lt_le_trans Hy ra); have gy := H2 y (lt_le_trans Hy rb).
  have [g' [Eg' pg' Ee' e0']] := eta_value Py gy; exists g'.
  by rewrite /eta_at Ee'.
split; first by exists r => // y /near[g' []].
have K := mixed_log (-1) lgn Hg gx Lm.
apply: mixed_near r0 _ K => y /near[g' [Eg' pg' -> _ gy]].
rewrite Eg' [in RHS]lgm ?posdef_det //; first by rewrite /= mulN1r opprD.
by rewrite -normCK exprn_gt0 // normr_gt0.
Qed.
End Eta.
