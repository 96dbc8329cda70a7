(** Linear changes of the homogeneous coordinates: metrics, measures, weights. *)
From Coq Require Import ZArith Lia.
From mathcomp Require Import all_ssreflect all_algebra.
From mathcomp Require Import zify ssrZ ring.
From SsrMultinomials Require Import mpoly.
From Verif Require Import Base ModelUtil ModelProjective SpecMon ModelBasis ModelGeom ModelVariety ModelDiff ProofUtil ProofProjective
  Bridge Deriv Herm ProofDiff ProofFS SpecGeom SpecBasis SpecSections SpecPatch SpecPipe PolyGrad ProofGeom4 ProofBasis2 ProofBasis3 ProofSections ProofVariety3 ProofPatch ProofAlg2 ProofSymmetry2.
From Verif Require Import SpecLinear ProofLinear.
Delimit Scope Z_scope with Z.

Set Implicit Arguments.
Unset Strict Implicit.
Unset Printing Implicit Defensive.

Import GRing.Theory Num.Theory Order.POrderTheory.
Local Open Scope ring_scope.

Section Metric.
Variables (C : numClosedFieldType) (m k : nat) (B : basis).
Hypothesis hC : basis_class C m.+1 k B.
Notation N := (size (power_matrix B)).
Variables (A : 'M[C]_m.+2) (R M : 'M[C]_N) (pi : C).
Hypothesis AR : lin_sections A R.
Hypothesis HM : hermitian M.
Variables (P P' : {mpoly C[m.+2]}) (i j : 'I_m.+2) (z : 'rV[C]_m.+1).
Notation y := (ly A i z).
Notation x := (ly A i z 0 j).
Notation w := (lw A i j z).
Notation T := (lT A i j z).
Hypothesis nz : x != 0.

Let o := on_patch k M P.
Let o' := on_patch k (R *m M *m adjm R) P'.
Let mo (a : 'I_N) : {mpoly C[m.+2]} := mono C m.+1 (nth [::] (power_matrix B) a).
Let mo' (a : 'I_N) : {mpoly C[m.+2]} := \sum_b R b a *: mo b.

Lemma moA a u : peval (mo' a) u = peval (mo a) (u *m A).
Proof.
have := AR u => /rowP/(_ a); rewrite hsE => ->; rewrite mxE /mo' /peval raddf_sum.
by apply: eq_bigr => b _; rewrite /= mevalZ mulrC hsE.
Qed.

Lemma dehom_mo a : dehom i (mo' a) = \sum_b R b a *: dehom i (mo b).
Proof.
have d0 : dehom i (0 : {mpoly C[m.+2]}) = 0 by rewrite -[0]/((0 : C)%:MP) dehomC.
rewrite /mo' (big_morph _ (dehomD i) d0); by apply: eq_bigr => b _; rewrite dehomZ.
Qed.

Lemma s_lin d d' : (\row_a o_s (o' i d z) a) *m R = x ^+ k *: \row_a o_s (o j d' w) a.
Proof.
apply/rowP => a; rewrite [RHS]mxE [X in _ = _ * X]mxE /= /section_polys -/(mo a).
rewrite -(dehom_lin (class_homog hC a) (moA a) nz) dehom_mo /peval raddf_sum mxE.
by apply: eq_bigr => b _; rewrite mxE /= mevalZ mulrC.
Qed.

Definition lu : 'cV[C]_m.+1 := \col_a A (lift i a) j.

Lemma s1_lin d d' : (\matrix_(b, a) o_s1 (o' i d z) a b) *m R =
  x ^+ k *: (T *m (\matrix_(b, a) o_s1 (o j d' w) a b)) + (k%:R * x ^+ k.-1) *: (lu *m (\row_a o_s (o j d' w) a)).
Proof.
apply/matrixP => b a.
have -> : ((\matrix_(b, a) o_s1 (o' i d z) a b) *m R) b a = pgrad (dehom i (mo' a)) z 0 b.
  rewrite mxE [RHS]mxE dehom_mo (raddf_sum (mderiv_additive _ b)) /peval raddf_sum.
  by apply: eq_bigr => c _; rewrite mxE /= mderivZ mevalZ mulrC.
rewrite (pgrad_lin (class_homog hC a) (moA a) nz) !mxE big_ord1 !mxE; congr (_ * _ + _).
  by apply: eq_bigr => q _; rewrite !mxE mulrC.
by rewrite -mulrA; congr (_ * _); rewrite mulrC.
Qed.

Let HM' : hermitian (R *m M *m adjm R).
Proof. exact: hermitian_congr. Qed.

Let Eh p q (X : 'M_(p, _)) (Y : 'M_(q, _)) : X *m (R *m M *m adjm R) *m adjm Y = (X *m R) *m M *m adjm (Y *m R).
Proof. by rewrite adjm_mul !mulmxA. Qed.

Lemma psi_lin d d' : ob_psi (o' i d z) = (`|x| ^+ 2) ^+ k * ob_psi (o j d' w).
Proof.
rewrite (@psiE _ _ _ (o' i d z) (R *m M *m adjm R)) // (@psiE _ _ _ (o j d' w) M) //.
rewrite !hformE Eh (s_lin d d') adjm_scale -!scalemxAl -scalemxAr !mxE mulrA; congr (_ * _).
by rewrite -normCK normrX exprAC.
Qed.

Lemma gpm_lin d d' : ob_psi (o j d' w) != 0 ->
  gpm pi (o' i d z) = T *m gpm pi (o j d' w) *m adjm T.
Proof.
move=> p0; rewrite (@gpmE _ _ _ pi (o' i d z) (R *m M *m adjm R)) // (@gpmE _ _ _ pi (o j d' w) M) //.
rewrite -scalemxAr -scalemxAl; congr (_ *: _).
rewrite !Eh (s_lin d d') (s1_lin d d') (psi_lin d d').
have sE : (\row_a o_s (o j d' w) a) *m M *m adjm (\row_a o_s (o j d' w) a) = (ob_psi (o j d' w))%:M.
  by rewrite [LHS]mx11_scalar (@psiE _ _ _ _ M) // hformE.
move: (ob_psi (o j d' w)) p0 sE => p p0.
move: (\row_a o_s (o j d' w) a) (\matrix_(b, a) o_s1 (o j d' w) a b) => s S1 sE.
have l0 : x ^+ k != 0 by rewrite expf_neq0.
have E : k%:R * x ^+ k.-1 = x ^+ k * (k%:R / x).
  by case: (k) => [|k']; rewrite ?mul0r ?mulr0 // mulrCA; congr (_ * _); rewrite exprS mulrC mulKf.
have -> : (`|x| ^+ 2) ^+ k * p = `|x ^+ k| ^+ 2 * p by rewrite normrX exprAC.
have -> : x ^+ k *: (T *m S1) + (k%:R * x ^+ k.-1) *: (lu *m s) = x ^+ k *: (T *m S1 + ((k%:R / x) *: lu) *m s).
  by rewrite E -scalerA -scalerDr scalemxAl.
have := galg_scale M s l0 p0 (T *m S1 + ((k%:R / x) *: lu) *m s); rewrite (galg_shift _ _ _ p0 sE); exact.
Qed.
End Metric.

(** The Fubini-Study metric and unitary changes *)
Section FS.
Variables (C : numClosedFieldType) (m : nat) (A : 'M[C]_m.+2) (i j : 'I_m.+2) (z : 'rV[C]_m.+1).
Notation x := (ly A i z 0 j).
Notation w := (lw A i j z).
Notation T := (lT A i j z).
Hypothesis nz : x != 0.

Definition incl (p : 'I_m.+2) : 'M[C]_(m.+1, m.+2) := \matrix_(a, c) (lift p a == c)%:R.

Lemma incl_mul p (X : 'M[C]_(m.+2, m.+2)) a c : (incl p *m X) a c = X (lift p a) c.
Proof.
rewrite mxE (bigD1 (lift p a)) //= big1 ?addr0 => [|l la]; first by rewrite mxE eqxx mul1r.
by rewrite mxE eq_sym (negbTE la) mul0r.
Qed.

Lemma fs_galg p (v : 'rV[C]_m.+1) : fs_metric_real v = galg 1%:M (norm2p1 v (conj_row v)) (homr p v) (incl p).
Proof.
rewrite fs_formula /galg !mulmx1.
have -> : 1 + \sum_i0 `|v 0 i0| ^+ 2 = norm2p1 v (conj_row v).
  by congr (1 + _); apply: eq_bigr => c _; rewrite mxE normCK.
congr (_ *: _ - _ *: _); apply/matrixP => a b.
  rewrite [RHS]mxE (bigD1 (lift p a)) //= big1 ?addr0 => [|l la]; last by rewrite mxE eq_sym (negbTE la) mul0r.
  by rewrite adjmE !mxE eqxx mul1r conjC_nat (inj_eq lift_inj) eq_sym.
rewrite [LHS]mxE [RHS]mxE !big_ord1; congr (_ * _).
  rewrite [RHS]mxE (bigD1 (lift p a)) //= big1 ?addr0 => [|l la]; last by rewrite mxE eq_sym (negbTE la) mul0r.
  by rewrite !mxE eqxx mul1r homr_lift.
rewrite [RHS]mxE (bigD1 (lift p b)) //= big1 ?addr0 => [|l la]; last by rewrite adjmE mxE eq_sym (negbTE la) conjC0 mulr0.
by rewrite adjmE !mxE eqxx conjC1 mulr1 homr_lift.
Qed.

Lemma norm_homr p (v : 'rV[C]_m.+1) : homr p v *m adjm (homr p v) = (norm2p1 v (conj_row v))%:M.
Proof.
rewrite [LHS]mx11_scalar; congr (_%:M); rewrite mxE (bigD1_ord p) //= adjmE homr_patch conjC1 mulr1; congr (_ + _).
by apply: eq_bigr => a _; rewrite adjmE !homr_lift mxE.
Qed.

Lemma incl_lin : incl i *m A = x *: (T *m incl j + (x^-1 *: lu A i j) *m homr j w).
Proof.
apply/matrixP => a c; rewrite incl_mul homr_lw // [RHS]mxE [X in _ = _ * X]mxE.
rewrite [((_ *: lu A i j) *m _) a c]mxE big_ord1 [(x^-1 *: lu A i j) a 0]mxE [lu _ _ _ a 0]mxE [(x^-1 *: ly A i z) 0 c]mxE.
have -> : (T *m incl j) a c = lTT A i j z a c.
  rewrite mxE; case: (unliftP j c) => [b ->|->].
    rewrite (bigD1 b) //= big1 ?addr0 => [|b' bb]; first by rewrite !mxE eqxx mulr1.
    by rewrite !mxE (inj_eq lift_inj) (negbTE bb) mulr0.
  rewrite big1 => [|b _]; last by rewrite !mxE eq_sym (negbTE (neq_lift j b)) mulr0.
  by rewrite /lTT [X in X - _]mulrC subrr mul0r.
rewrite /lTT -![ly A i z _ c]/(ly A i z 0 c).
move: (ly A i z 0 c) (A _ _) (A _ _) => v p q; field; exact: nz.
Qed.

Hypothesis UA : unitary A.

Lemma ly_lw : ly A i z = x *: homr j w.
Proof. by rewrite homr_lw // scalerA divff // scale1r. Qed.

Lemma norm2p1_lin : norm2p1 z (conj_row z) = `|x| ^+ 2 * norm2p1 w (conj_row w).
Proof.
have E : homr i z *m adjm (homr i z) = ly A i z *m adjm (ly A i z).
  by rewrite lyE adjm_mul mulmxA -[_ *m A *m _]mulmxA UA mulmx1.
have := congr1 (fun X : 'M_1 => X 0 0) E; rewrite /= ly_lw adjm_scale -scalemxAl -scalemxAr scalerA !norm_homr.
by rewrite !mxE eqxx /= !mulr1n -normCK homr_patch mulr1.
Qed.

Lemma fs_lin : fs_metric_real z = T *m fs_metric_real w *m adjm T.
Proof.
have p0 : norm2p1 w (conj_row w) != 0 by rewrite gt_eqF // norm2p1_gt0.
have sE : homr j w *m 1%:M *m adjm (homr j w) = (norm2p1 w (conj_row w))%:M by rewrite mulmx1 norm_homr.
rewrite (fs_galg j w) -(galg_shift (incl j) T (x^-1 *: lu A i j) p0 sE) -(galg_scale _ _ nz p0).
rewrite -ly_lw -incl_lin (fs_galg i z) norm2p1_lin lyE /galg !mulmx1 !adjm_mul.
have K p q (X : 'M_(p, _)) (Y : 'M_(_, q)) : X *m A *m (adjm A *m Y) = X *m Y.
  by rewrite mulmxA -[X *m A *m _]mulmxA UA mulmx1.
by rewrite !K.
Qed.

Lemma det_unitary : `|\det A| ^+ 2 = 1.
Proof. by have := congr1 (fun X => \det X) UA; rewrite det_mulmx det_adjm det1 -normCK. Qed.
End FS.

Section Laws.
Variables (C : numClosedFieldType) (m k e : nat) (B : basis).
Hypothesis hC : basis_class C m.+1 k B.
Notation N := (size (power_matrix B)).
Variables (A : 'M[C]_m.+2) (R M : 'M[C]_N) (pi : C).
Hypothesis AR : lin_sections A R.
Hypothesis HM : hermitian M.
Hypothesis pi0 : 0 < pi.
Variables (P P' : {mpoly C[m.+2]}) (i j : 'I_m.+2) (z : 'rV[C]_m.+1) (d d' : 'I_m.+1).
Hypothesis HP : P \is e.-homog.
Hypothesis PP : forall u, peval P' u = peval P (u *m A).
Notation x := (ly A i z 0 j).
Notation w := (lw A i j z).
Notation T := (lT A i j z).
Hypothesis nz : x != 0.
Hypothesis Pz : peval (dehom i P') z = 0.
Hypothesis gd : peval ((dehom i P')^`M(d)) z != 0.
Hypothesis gd' : peval ((dehom j P)^`M(d')) w != 0.
Let o := on_patch k M P.
Let o' := on_patch k (R *m M *m adjm R) P'.
Let gdE : pgrad (dehom i P') z 0 d != 0. Proof. by rewrite mxE. Qed.
Let gdE' : pgrad (dehom j P) w 0 d' != 0. Proof. by rewrite mxE. Qed.

Lemma AA_lin g : AA (T *m g *m adjm T) (pgrad (dehom i P') z) * `|x| ^+ (2 * m.+2) =
  `|\det A| ^+ 2 * `|x| ^+ (2 * e) * AA g (pgrad (dehom j P) w).
Proof.
have x0 : `|x| != 0 by rewrite normr_eq0.
rewrite (pgrad_lin0 HP PP nz Pz) AA_scale AA_congr lT_det // normrX -exprM [(e * 2)%N]mulnC.
have : `|x| ^+ (2 * m.+2) != 0 by rewrite expf_neq0.
by move: (`|x| ^+ (2 * m.+2)) (`|x| ^+ (2 * e)) (AA _ _) (`|\det _| ^+ 2) => a b c D a0; field.
Qed.

Lemma eta_lin : 0 < ob_psi (o' i d z) -> exists e1 e2, [/\ ob_eta pi (o' i d z) = Ok e1, ob_eta pi (o j d' w) = Ok e2 &
  e1 * `|x| ^+ (2 * m.+2) = `|\det A| ^+ 2 * `|x| ^+ (2 * e) * e2].
Proof.
rewrite /o' (psi_lin hC M AR P P' nz d d') => /lt0r_neq0; rewrite mulf_eq0 negb_or => /andP[_ p0].
exists (AA (gpm pi (o' i d z)) (pgrad (dehom i P') z)), (AA (gpm pi (o j d' w)) (pgrad (dehom j P) w)); split.
- exact: (@eta_dep _ _ _ pi (o' i d z) d).
- exact: (@eta_dep _ _ _ pi (o j d' w) d').
rewrite -AA_lin; congr (AA _ _ * _).
by rewrite /o'; apply: gpm_lin p0.
Qed.

Lemma weights_lin vol : unitary A -> exists w1 w2,
  [/\ weights pi z (row_seq (pgrad (dehom i P') z)) (Some (Z.of_nat d)) vol = Ok w1,
     weights pi w (row_seq (pgrad (dehom j P) w)) (Some (Z.of_nat d')) vol = Ok w2, 0 < w2 &
  w1 * `|x| ^+ (2 * e) = `|x| ^+ (2 * m.+2) * w2].
Proof.
move=> UA; rewrite (weights_eq pi z vol gdE) (weights_eq pi w vol gdE').
eexists; eexists; split; [by []|by []|exact: divr_gt0 (wfactor_gt0 pi0 m vol) (A_gt0 w gdE')|].
have := AA_lin (fs_metric_real w); rewrite -fs_lin // det_unitary // mul1r /AA.
have : 0 < \det (fs_metric_real z + (pgrad (dehom i P') z)^T *m adjm (pgrad (dehom i P') z)^T) - \det (fs_metric_real z) by exact: A_gt0 gdE.
have : 0 < \det (fs_metric_real w + (pgrad (dehom j P) w)^T *m adjm (pgrad (dehom j P) w)^T) - \det (fs_metric_real w) by exact: A_gt0 gdE'.
have : 0 < `|x| ^+ (2 * m.+2) by rewrite exprn_gt0 // normr_gt0.
have : 0 < `|x| ^+ (2 * e) by rewrite exprn_gt0 // normr_gt0.
move: (_ - _) (_ - _) (wfactor _ _ _) (`|x| ^+ _) (`|x| ^+ _) => a b c f g /lt0r_neq0 f0 /lt0r_neq0 g0 /lt0r_neq0 b0 /lt0r_neq0 a0.
by move=> H; have -> : g = a * f / b; [rewrite H mulfK|field; rewrite a0 b0].
Qed.
End Laws.
