(** Curvature at x and x A, for an invariant kernel over the reduced basis; invariant kernels exist. *)
From Coq Require Import ZArith Lia Reals.
From mathcomp Require Import all_ssreflect all_algebra all_fingroup.
From mathcomp Require Import zify ssrZ ring complex.
From SsrMultinomials Require Import mpoly.
From Verif Require Import Base ModelUtil ModelProjective SpecMon ModelExpr ModelPoly ModelHom ModelBasis ModelGeom ModelVariety ModelDiff ModelAlg ModelPipe
  Bridge Deriv Herm Herm2 SpecGeom SpecBasis SpecSections SpecPatch SpecAlg SpecPipe SpecEta SpecReduce PolyGrad ProofSections ProofPatch ProofSymmetry2
  ProofBasis ProofBasis3 ProofAlg ProofAlg3 ProofAlg6 ProofHom2 RealField ComplexR ProofComplex ProofRicci3 ProofEta5 ProofReduce ProofReduce2 ProofReduce3
  SpecFubini ProofFubini4 ProofIdent3 SpecLinear ProofLinear ProofLinear2 ProofLinear3 ProofLinear4 ProofLinear8 SpecRank ProofRank ProofRank2 SpecRotate2 ProofLinear5 ProofLinear11 ProofLinear13.
Delimit Scope Z_scope with Z.

Set Implicit Arguments.
Unset Strict Implicit.
Unset Printing Implicit Defensive.

Import GRing.Theory Num.Theory Order.POrderTheory.
Local Open Scope ring_scope.
Delimit Scope R_scope with RR.

Section Ricci.
Variables (m k e : nat) (Q : {mpoly CR[m.+2]}) (F B : basis).
Hypotheses (Q0 : Q != 0) (HQ : Q \is e.-homog) (occ : forall i, variable_occurs Q i).
Hypotheses (hF : basis_full m.+1 k = Ok F) (hB : basis_reduced Q k = Ok B) (k0 : (0 < k)%N).
Notation NF := (size (power_matrix F)).
Notation N := (size (power_matrix B)).
Variables (h : 'M[CR]_NF) (T : 'M[CR]_(N, NF)) (q : 'I_NF -> {mpoly CR[m.+2]}).
Hypothesis HT : forall t : 'I_NF, mono CR m.+1 (nth [::] (power_matrix F) t) =
     q t * Q + \sum_(s : 'I_N) T s t *: mono CR m.+1 (nth [::] (power_matrix B) s).
Variable h' : 'M[CR]_N.
Hypotheses (hh : hermitian h) (ph : posdef h) (hh' : hermitian h') (ph' : posdef h') (E : T *m h *m adjm T = h').

Lemma ricci_red i d z : peval (dehom i Q) z = 0 -> peval ((dehom i Q)^`M(d)) z != 0 ->
  ob_ricci_loc (rc PI) (on_patch k h Q i d z) = ob_ricci_loc (rc PI) (on_patch k h' Q i d z) /\
  ob_ricci_scalar (rc PI) (on_patch k h Q i d z) = ob_ricci_scalar (rc PI) (on_patch k h' Q i d z).
Proof.
move=> Qz Qd; have fF : basis_for k Q F by left.
have fB : basis_for k Q B by right.
have EE (y : 'rV[CR]_m.+1) : norm1 (y - z) < 1 -> peval (dehom i Q) y = 0 ->
    eta_at (rc PI) (on_patch k h Q i d) y = 1 * eta_at (rc PI) (on_patch k h' Q i d) y.
  move=> _ Qy; rewrite mul1r /eta_at; have [g0|gn] := eqVneq (peval ((dehom i Q)^`M(d)) y) 0; last first.
    by rewrite -E (eta_red k HT).
  by rewrite (@eta_degenerate _ _ _ _ _ h d) ?(@eta_degenerate _ _ _ _ _ h' d) //= mxE.
have [R R1 R2] := eta_determines fF fB HQ k0 k0 hh ph hh' ph' Qz Qd ltr01 ltr01 EE.
by rewrite /ob_ricci_scalar R1 R2 /= -E (g_red k HT).
Qed.
End Ricci.

Lemma sym_curvature : forall m k e (V : variety CR) ps (Q : {mpoly CR[m.+2]}) (B : basis),
  defined_by V ps Q -> Q != 0 -> Q \is e.-homog -> (forall i, variable_occurs Q i) -> basis_reduced Q k = Ok B -> (0 < k)%N ->
  independent_on V ps m B -> forall (A : 'M[CR]_m.+2), A \in unitmx -> (forall x, peval Q (x *m A) = peval Q x) ->
  forall M : 'M[CR]_(size (power_matrix B)), hermitian M -> posdef M -> kernel_invariant V ps A M ->
  forall (i j : 'I_m.+2) (d d' : 'I_m.+1) (z w : 'rV[CR]_m.+1) (T : 'M[CR]_m.+1),
  lin_hom A i z 0 j != 0 -> lin_change A i j z w T ->
  peval (dehom i Q) z = 0 -> peval ((dehom i Q)^`M(d)) z != 0 -> peval ((dehom j Q)^`M(d')) w != 0 ->
  same_curvature (rc PI) (on_patch k M Q i d z) (on_patch k M Q j d' w).
Proof.
move=> m k e V ps Q B hQ Q0 HQ occ hB k0 ind A uA QA M hM pM iM i j d d' z w T0 nz cc Qz gd gd'.
have [F [hF _ _ _ _]] := full_class m.+1 k.
have [R [h [T [q [[uR AR] [hh ph] HT E1 E2]]]]] := sym_full hQ Q0 HQ occ hF hB ind uA QA hM pM iM.
have PP u : peval Q u = peval Q (u *m A) by rewrite QA.
have Qw := sym_on HQ QA nz cc Qz.
have hR := hermitian_congr R hh; have pR := posdef_congr_unit uR ph.
have [a1 a2] := ricci_red Q0 HQ occ hF hB k0 HT hR pR hM pM E2 Qz gd.
have [b1 b2] := ricci_red Q0 HQ occ hF hB k0 HT hh ph hM pM E1 Qw gd'.
have g1E : ob_g_loc (rc PI) (on_patch k (R *m h *m adjm R) Q i d z) = ob_g_loc (rc PI) (on_patch k M Q i d z).
  by rewrite -[in RHS]E2 (g_red k HT).
have g2E : ob_g_loc (rc PI) (on_patch k h Q j d' w) = ob_g_loc (rc PI) (on_patch k M Q j d' w).
  by rewrite -[in RHS]E1 (g_red k HT).
have [g [g' [R1 [R2 [S [H [r H']]]]]]] := curvature_lin hF k0 uA AR hh ph HQ PP nz cc Qz gd gd'.
rewrite g1E g2E a1 b1 in H; rewrite a2 b2 in H'.
by exists g, g', R1, R2, S; split=> //; exists r.
Qed.

Lemma sym_metric_all : forall (C : numClosedFieldType) m k e (V : variety C) ps (Q : {mpoly C[m.+2]}) (B : basis),
  defined_by V ps Q -> Q != 0 -> Q \is e.-homog -> (forall i, variable_occurs Q i) -> basis_reduced Q k = Ok B -> (0 < k)%N ->
  independent_on V ps m B -> forall (A : 'M[C]_m.+2), A \in unitmx -> (forall x, peval Q (x *m A) = peval Q x) ->
  forall M : 'M[C]_(size (power_matrix B)), hermitian M -> posdef M -> kernel_invariant V ps A M ->
  forall (i j : 'I_m.+2) (d d' : 'I_m.+1) (z w : 'rV[C]_m.+1) (T : 'M[C]_m.+1),
  lin_hom A i z 0 j != 0 -> lin_change A i j z w T ->
  peval (dehom i Q) z = 0 -> peval ((dehom i Q)^`M(d)) z != 0 -> peval ((dehom j Q)^`M(d')) w != 0 ->
  forall pi : C, 0 < pi -> exists g1 g2 J1 J2 S e1 e2,
  [/\ ob_g_loc pi (on_patch k M Q i d z) = Ok g1 /\ ob_g_loc pi (on_patch k M Q j d' w) = Ok g2,
     ob_jac (on_patch k M Q i d z) = Ok J1 /\ ob_jac (on_patch k M Q j d' w) = Ok J2,
     [/\ S \in unitmx, J1 *m T = S *m J2 & g1 = S *m g2 *m adjm S],
     ob_eta pi (on_patch k M Q i d z) = Ok e1 /\ ob_eta pi (on_patch k M Q j d' w) = Ok e2 &
     e = m.+2 -> e1 = `|\det A| ^+ 2 * e2].
Proof.
move=> C m k e V ps Q B hQ Q0 HQ occ hB k0 ind A uA QA M hM pM iM i j d d' z w T0 nz cc Qz gd gd' pi pi0.
have [F [hF _ _ _ _]] := full_class m.+1 k.
exact: (sym_metric hQ Q0 HQ occ hF hB ind uA QA hM pM iM nz cc Qz gd gd' k0 pi0).
Qed.

(** The Fubini-Study matrix on the sections of the reduced basis *)
Lemma sym_exists : forall (C : numClosedFieldType) m k e (V : variety C) ps (Q : {mpoly C[m.+2]}) (B : basis),
  defined_by V ps Q -> Q != 0 -> Q \is e.-homog -> (forall i, variable_occurs Q i) -> basis_reduced Q k = Ok B ->
  exists M : 'M[C]_(size (power_matrix B)), [/\ hermitian M, posdef M &
    forall A : 'M[C]_m.+2, unitary A -> (forall x, peval Q (x *m A) = peval Q x) -> kernel_invariant V ps A M].
Proof.
move=> C m k e V ps Q B hQ Q0 HQ occ hB.
have [F [hF _ _ _ _]] := full_class m.+1 k.
have [T [q [HT inj]]] := red_matrix Q0 HQ occ hF hB.
have [fh fp] := fubini_h_pd C F.
exists (T *m diag_mx (fubini_h C F) *m adjm T); split; [exact: hermitian_congr|exact: posdef_congr|].
move=> A UA QA; have uA : A \in unitmx by have [] := mulmx1_unit UA.
have [R [uR AR _]] := lin_unit hF uA.
have red (x : 'rV[C]_m.+2) : peval Q x = 0 -> hom_sections F (row_seq x) = hom_sections B (row_seq x) *m T.
  move=> z; apply/rowP => t; rewrite hsE HT /peval mevalD mevalM [Q.@[_]]z mulr0 add0r raddf_sum mxE.
  by apply: eq_bigr => b _; rewrite /= mevalZ mulrC hsE.
have kE (x y : 'rV[C]_m.+2) : peval Q x = 0 -> peval Q y = 0 -> kernel (T *m diag_mx (fubini_h C F) *m adjm T) x y =
    (hom_sections F (row_seq x) *m diag_mx (fubini_h C F) *m adjm (hom_sections F (row_seq y))) 0 0.
  by move=> x0 y0; rewrite kernelE !red // adjm_mul !mulmxA.
move=> x y /(point_onE hQ)[_ x0] /(point_onE hQ)[_ y0]; rewrite !kE ?QA // !AR.
rewrite adjm_mul !mulmxA -[_ *m R *m _]mulmxA -[_ *m (R *m _) *m adjm R]mulmxA.
by rewrite (fub_unitary hF UA AR).
Qed.

(** Permutations of the coordinates of the Fermat hypersurfaces *)
Lemma fermat_perm (C : numClosedFieldType) m k (s : {perm 'I_m.+3}) : exists B (M : 'M[C]_(size (power_matrix B))),
  [/\ basis_reduced (dwork_Q m.+1 (0 : C)) k = Ok B, independent_on (fermat_variety C m.+1) [::] m.+1 B,
    (perm_mx s : 'M[C]_m.+3) \in unitmx /\ (forall x : 'rV[C]_m.+3, peval (dwork_Q m.+1 0) (x *m perm_mx s) = peval (dwork_Q m.+1 0) x),
    hermitian M /\ posdef M & kernel_invariant (fermat_variety C m.+1) [::] (perm_mx s) M].
Proof.
set Q := dwork_Q m.+1 (0 : C).
have HQ : Q \is m.+3.-homog by exact: dwork_Q_homog.
have Q0 : Q != 0 by exact: dwork_neq0.
have occ i : variable_occurs Q i by exact: dwork_occurs.
have [B [hB _ _ _ _]] := reduced_class_lemma k Q0 HQ occ.
have [M [hM pM iM]] := sym_exists (@fermat_defined C m.+1 [::]) Q0 HQ occ hB.
have QA (x : 'rV[C]_m.+3) : peval Q (x *m perm_mx s) = peval Q x.
  rewrite !dwork_Q_eval !mul0r !addr0 [RHS](reindex_inj (@perm_inj _ s^-1)) /=.
  by apply: eq_bigr => l _; rewrite -[s in perm_mx s]invgK -col_permE mxE.
exists B, M; split=> //; [exact: fermat_independent hB|by split=> //; exact: unitmx_perm|].
apply: iM => //; rewrite /unitary adjm_tr tr_perm_mx map_perm_mx -perm_mxM.
by rewrite mulgV perm_mx1.
Qed.
