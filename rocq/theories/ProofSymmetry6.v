(** eta and the Kaehler potential at moved points, through AlgebraicMetric. *)
From Coq Require Import ZArith Lia.
From mathcomp Require Import all_ssreflect all_algebra all_fingroup.
From mathcomp Require Import zify ssrZ ring.
From SsrMultinomials Require Import mpoly.
From Verif Require Import Base ModelUtil ModelProjective ModelExpr ModelPoly ModelHom ModelVariety ModelBasis ModelGeom ModelDonaldson ModelAlg.
From Verif Require Import SpecGeom SpecBasis SpecSections SpecPatch SpecAlg SpecDonaldson SpecPipe SpecStep SpecSymmetry Herm.
From Verif Require Import Deriv Bridge PolyGrad ProofGeom4 ProofSections ProofPatch ProofAlg ProofAlg2 ProofAlg4 ProofAlg6 ProofRicci2 ProofSymmetry ProofSymmetry2 ProofSymmetry5.
Delimit Scope Z_scope with Z.

Set Implicit Arguments.
Unset Strict Implicit.
Unset Printing Implicit Defensive.

Import GRing.Theory Num.Theory Order.POrderTheory.
Local Open Scope ring_scope.

Section Points.
Variable C : numClosedFieldType.
Variable D : forall n : nat, ('rV[C]_n -> C) -> 'rV[C]_n -> 'rV[C]_n.
Hypothesis hD : diff_ok D.
Variables (lg ex : C -> C) (pi : C) (m e : nat).
Variables (V : variety C) (ps : seq C) (Q : {mpoly C[m.+2]}).
Hypotheses (hV : hypersurface V ps m e) (hQ : defined_by V ps Q).
Variables (k : nat) (B : basis).
Hypotheses (hB : basis_for k Q B) (k0 : (0 < k)%N) (pi0 : 0 < pi).
Variable M : 'M[C]_(size (power_matrix B)).
Hypotheses (HM : hermitian M) (pd : posdef M).
Variables (l : 'I_m.+2 -> C) (s : {perm 'I_m.+2}) (sg : {perm 'I_(size (power_matrix B))}).
Hypothesis l1 : forall j, `|l j| = 1.
Hypothesis Ql : exists2 c, `|c| = 1 & forall x, peval Q (move l s x) = c * peval Q x.
Hypothesis Hsg : permutes_basis s sg.
Hypothesis Ms : h_symmetric l sg M.
Let HQ : Q \is e.-homog := V_homog hV hQ.
Let hC : basis_class C m.+1 k B := for_class HQ hB.

Variables (x : 'rV[C]_m.+2) (i : 'I_m.+2) (d : 'I_m.+1) (a g : seq C).
Hypothesis sm : smooth_at D V ps x i d a g.
Variable c : C.
Hypothesis c0 : c != 0.
Let y := c *: move l s x.
Let j := (s^-1)%g i.

Lemma sjE : s j = i. Proof. exact: permKV. Qed.

Lemma smooth_code : [/\ peval Q x = 0, x 0 i != 0, a = row_seq (affr i x),
  peval (dehom i Q) (affr i x) = 0 & peval ((dehom i Q)^`M(d)) (affr i x) != 0].
Proof.
have [hx xi ha hg gd] := sm.
have aE : a = row_seq (affr i x) by move: ha; rewrite hom_to_affine_seq => -[<-].
have Qx : peval Q x = 0 by move: hx; rewrite hQ => -[].
split=> //; first by rewrite (dehom_aff HQ xi) Qx mulr0.
by move: gd; move: hg; rewrite aE (grad_code hD hV hQ) => -[<-]; rewrite nth_row_seq mxE.
Qed.

Lemma norm_y b : `|y 0 b| = `|c| * `|x 0 (s b)|.
Proof. by rewrite !mxE !normrM l1 mul1r. Qed.

Lemma moved_smooth : exists d' g', smooth_at D V ps y j d' (row_seq (affr j y)) g'.
Proof.
have [Qx xi _ Qi gz] := smooth_code; have [q q1 hq] := Ql.
have yE : affr j y = mv l s j (affr i x) by rewrite -sjE /y affr_mv // sjE.
have G := pgrad_mv l1 j HQ hq (affr i x); rewrite sjE in G.
have [d' gd'] : exists d', pgrad (dehom j Q) (affr j y) 0 d' != 0.
  apply/existsP; apply: contraNT gz; rewrite negb_exists => /forallP H.
  have Z : pgrad (dehom j Q) (affr j y) = 0.
    by apply/rowP => b; rewrite [RHS]mxE; apply/eqP; have := H b; rewrite negbK.
  move: G; rewrite -yE Z mul0mx => /esym/eqP; rewrite scaler_eq0.
  rewrite -normr_eq0 normrM normrX normfV l1 q1 invr1 expr1n mulr1 oner_eq0 /= => /eqP/rowP/(_ d).
  by rewrite !mxE => ->.
exists d', (row_seq (pgrad (dehom j Q) (affr j y))); split.
- by rewrite hQ /y (moved_Q HQ hq) Qx mulr0.
- by rewrite -normr_eq0 norm_y sjE mulf_neq0 // normr_eq0.
- exact: hom_to_affine_seq.
- exact: (grad_code hD hV hQ).
by rewrite nth_row_seq.
Qed.

Lemma max_ratio i0 j0 : (forall b, `|x 0 b| <= `|x 0 i0|) -> (forall b, `|y 0 b| <= `|y 0 j0|) ->
  `|y 0 j0 / y 0 j| = `|x 0 i0 / x 0 i|.
Proof.
move=> H1 H2; have nc : 0 < `|c| by rewrite normr_gt0.
have E : `|x 0 (s j0)| = `|x 0 i0|.
  apply/eqP; rewrite eq_le H1 /=; have := H2 ((s^-1)%g i0).
  by rewrite !norm_y permKV ler_pmul2l.
rewrite [LHS]normrM [RHS]normrM !normfV !norm_y sjE E invfM mulrACA mulfV ?mul1r //.
by rewrite gt_eqF.
Qed.

Lemma eta_moved : exists E,
  alg_eta D lg ex pi m V (HMat M) (row_seq x) (PArr ps) None None None = Ok E /\
  alg_eta D lg ex pi m V (HMat M) (row_seq y) (PArr ps) None None None = Ok E.
Proof.
have [Qx xi aE Qi gz] := smooth_code; have [q q1 hq] := Ql.
have [d' [g' smy]] := moved_smooth.
have [i0 [E [E0 [E1 E2 E3 _ E5]]]] := eta_wrap hD lg ex hV hQ hB k0 pi0 HM pd sm.
have [j0 [F [F0 [F1 F2 F3 _ F5]]]] := eta_wrap hD lg ex hV hQ hB k0 pi0 HM pd smy.
have [hx _ ha hg gd] := sm.
have bne := B_ne hD hV hQ hB k0 pi0 HM pd hx xi ha hg gd.
have [_ yj _ hgy gdy] := smy.
have gw : peval ((dehom j Q)^`M(d')) (affr j y) != 0.
  by move: gdy; move: hgy; rewrite (grad_code hD hV hQ) => -[<-]; rewrite nth_row_seq mxE.
have yE : affr j y = mv l s j (affr i x) by rewrite -sjE /y affr_mv // sjE.
have [pp _] := for_positive HQ hB k0 pi0 HM pd Qi gz.
have EF : E = F.
  move: E1 F1; rewrite /alg_eta aE !(objects_gen hD lg ex hV hQ hC bne M (erefl : choose_dependent _ (Some _) = _) (or_introl erefl)) //=.
  rewrite (@eta_dep _ _ _ pi (on_patch k M Q i d (affr i x)) d) //; last by rewrite mxE.
  rewrite (@eta_dep _ _ _ pi (on_patch k M Q j d' (affr j y)) d') //; last by rewrite mxE.
  move=> [<-] [<-]; rewrite yE.
  have := AA_mv HQ l1 q1 hq hC Hsg pi HM Ms (j := j) (d := d) d' (z := affr i x); rewrite sjE; apply.
  exact: lt0r_neq0.
exists E0; split=> //; rewrite F2; congr Ok.
have r := max_ratio E5 F5; rewrite r -EF E3 in F3; apply/esym; apply: mulfI F3.
have x0 : x 0 i0 != 0 by rewrite -normr_gt0; apply: lt_le_trans (E5 i); rewrite normr_gt0.
by rewrite expf_neq0 // normr_eq0 mulf_neq0 // invr_eq0.
Qed.

Lemma kahler_moved : (forall u v, 0 < u -> 0 < v -> lg (u * v) = lg u + lg v) -> exists K,
  alg_kahler lg ex pi m V (HMat M) (row_seq x) None = Ok K /\
  alg_kahler lg ex pi m V (HMat M) (row_seq y) None = Ok K.
Proof.
move=> hl; have [Qx xi aE Qi gz] := smooth_code; have [q q1 hq] := Ql.
have [d' [g' smy]] := moved_smooth.
have [i0 [E [E0 [E1 E2 E3 E5]]]] := kahler_wrap hD ex hV hQ hB k0 pi0 HM pd sm hl.
have [j0 [F [F0 [F1 F2 F3 F5]]]] := kahler_wrap hD ex hV hQ hB k0 pi0 HM pd smy hl.
have [hx _ ha hg gd] := sm.
have [hy yj hay hgy gdy] := smy.
have yE : affr j y = mv l s j (affr i x) by rewrite -sjE /y affr_mv // sjE.
have EF : E = F.
  move: E1 F1; rewrite aE (kahler_code hD lg ex hV hQ hB k0 pi0 HM pd hx xi ha hg gd _ d).
  rewrite (kahler_code hD lg ex hV hQ hB k0 pi0 HM pd hx xi ha hg gd _ d') => -[<-] [<-].
  rewrite /ob_kahler yE; congr kahler.
  by have := psi_mv Q l1 hC Hsg Ms j d d' (affr i x); rewrite sjE => ->.
exists E0; split=> //; rewrite F2; congr Ok.
have r := max_ratio E5 F5; rewrite r -EF E3 in F3; exact: (addIr _ (esym F3)).
Qed.
End Points.
