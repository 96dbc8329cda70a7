(** The weights of sampled points in homogeneous coordinates. *)
From Coq Require Import ZArith Lia.
From mathcomp Require Import all_ssreflect all_algebra.
From mathcomp Require Import zify ssrZ ring.
From SsrMultinomials Require Import mpoly.
From Verif Require Import Base ModelUtil ModelProjective ModelDiff ModelExpr ModelPoly ModelHom ModelVariety ModelBasis ModelGeom ModelAlg ModelPipe.
From Verif Require Import SpecPoly SpecHom SpecVariety SpecGeom SpecBasis SpecSections SpecPatch SpecAlg SpecPipe Herm.
From Verif Require Import Deriv Bridge PolyGrad ProofUtil ProofProjective ProofDiff ProofFS ProofSections ProofVariety3 ProofPatch.
From Verif Require Import ProofAlg ProofAlg2 ProofAlg6.
Delimit Scope Z_scope with Z.

Set Implicit Arguments.
Unset Strict Implicit.
Unset Printing Implicit Defensive.

Import GRing.Theory Num.Theory Order.POrderTheory.
Local Open Scope ring_scope.

Section Measure.
Variables (C : numClosedFieldType) (m : nat).
Implicit Types (z G : 'rV[C]_m.+1).

(** The determinant which the weights contain *)
Lemma AA_fs z G : let N := norm2p1 z (conj_row z) in
  AA (fs_metric_real z) G * N ^+ m.+1 = \sum_a `|G 0 a| ^+ 2 + `|\sum_a z 0 a * G 0 a| ^+ 2.
Proof.
move=> N; have N0 : N != 0 by rewrite gt_eqF // norm2p1_gt0.
have EN : N = 1 + \sum_i `|z 0 i| ^+ 2.
  by congr (1 + _); apply: eq_bigr => i _; rewrite mxE normCK.
pose zc := (conj_row z)^T; pose gi : 'M[C]_m.+1 := N *: (1%:M + zc *m z).
have zz : z *m zc = (N - 1)%:M.
  rewrite [LHS]mx11_scalar; congr (_%:M); rewrite EN [1 + _]addrC addrK mxE.
  by apply: eq_bigr => i _; rewrite !mxE normCK.
have gg : fs_metric_real z *m gi = 1%:M.
  rewrite fs_formula -EN -/zc /gi -scalemxAr mulmxDr mulmx1 mulmxBl -!scalemxAl mul1mx.
  rewrite -mulmxA [z *m _]mulmxA zz mul_scalar_mx -scalemxAr scalerA.
  apply/matrixP => a b; rewrite !mxE; move: (\sum_(j < 1) _) (_%:R) => X I; by field.
pose u := G^T; pose v := adjm G^T.
have E : fs_metric_real z + u *m v = fs_metric_real z *m (1%:M + gi *m u *m v).
  by rewrite mulmxDr mulmx1 !mulmxA gg mul1mx.
rewrite /AA E det_mulmx det_swap -[X in _ - X]mulr1 -mulrBr [1 + _]addrC addrK det_fs -/N.
have -> : (v *m (gi *m u)) 0 0 = N * (\sum_a `|G 0 a| ^+ 2 + `|\sum_a z 0 a * G 0 a| ^+ 2).
  rewrite /gi -scalemxAl -scalemxAr mxE mulmxDl mul1mx mulmxDr mxE; congr (_ * (_ + _)).
    by rewrite mxE; apply: eq_bigr => a _; rewrite /v /u adjmE !mxE normCK mulrC.
  rewrite mulmxA mulmxA -mulmxA mxE big_ord1 normCK mulrC; congr (_ * _).
    by rewrite mxE; apply: eq_bigr => a _; rewrite /u !mxE.
  rewrite mxE rmorph_sum; apply: eq_bigr => a _.
  by rewrite /v /zc adjmE !mxE rmorphM mulrC.
rewrite [N ^+ m.+2]exprS; move: (\sum_a _ + _) (N ^+ m.+1) (expf_neq0 m.+1 N0) => S K K0.
by field; rewrite K0 N0.
Qed.
End Measure.

Section Euler.
Variables (C : numClosedFieldType).

Lemma euler n (P : {mpoly C[n]}) e (x : 'rV[C]_n) : P \is e.-homog ->
  \sum_k x 0 k * peval (P^`M(k)) x = e%:R * peval P x.
Proof.
move=> /dhomogP hP.
have -> : \sum_k x 0 k * peval (P^`M(k)) x = peval (\sum_k 'X_k * P^`M(k)) x.
  rewrite /peval raddf_sum /=; apply: eq_bigr => k _; by rewrite mevalM mevalXU.
have -> : \sum_k 'X_k * P^`M(k) = e%:R *: P; last by rewrite /peval mevalZ.
rewrite [in RHS](mpolyE P) scaler_sumr.
have D k : P^`M(k) = \sum_(mo <- msupp P) P@_mo *: ('X_[mo])^`M(k).
  by rewrite [in LHS](mpolyE P) raddf_sum; apply: eq_bigr => mo _; rewrite /= mderivZ.
transitivity (\sum_(mo <- msupp P) \sum_k P@_mo *: ('X_k * ('X_[mo])^`M(k))).
  rewrite exchange_big /=; apply: eq_bigr => k _; rewrite D mulr_sumr.
  by apply: eq_bigr => mo _; rewrite scalerAr.
rewrite big_seq [RHS]big_seq; apply: eq_bigr => mo mp; rewrite -scaler_sumr scalerA [_ * P@_mo]mulrC -scalerA.
congr (_ *: _); have /= <- := hP mo mp; rewrite mdegE natr_sum scaler_suml; apply: eq_bigr => k _.
rewrite mderivX; have [->|k0] := eqVneq (mo k) 0%N; first by rewrite !scale0r mulr0.
rewrite -scalerAr -mpolyXD; congr (_ *: 'X_[_]); apply/mnmP => j.
rewrite mnmDE mnmBE mnm1E; case: eqP => [<-|_]; last by rewrite add0n subn0.
by rewrite addnC subnK // lt0n.
Qed.

Lemma dehom_deriv n (P : {mpoly C[n.+1]}) (i : 'I_n.+1) (z : 'rV[C]_n) a :
  peval ((dehom i P)^`M(a)) z = peval (P^`M(lift i a)) (homr i z).
Proof.
have J : is_jac (homr i) z (\matrix_(a, k) (lift i a == k)%:R).
  by move=> k; apply: is_grad_eq (is_grad_homr i z k); apply/rowP => b; rewrite !mxE.
have H := is_grad_comp J (poly_grad P (homr i z)).
have := is_grad_unique (is_grad_ext _ (poly_grad (dehom i P) z)) H.
move=> /(_ (fun y => dehom_eval i P y)) /rowP/(_ a); rewrite !mxE => ->.
rewrite (bigD1 (lift i a)) //= big1 ?addr0 => [|k /negbTE ki]; last by rewrite !mxE eq_sym ki mul0r.
by rewrite !mxE eqxx mul1r.
Qed.
End Euler.

Section Weights.
Variables (C : numClosedFieldType) (m e : nat) (Q : {mpoly C[m.+2]}).
Hypothesis HQ : Q \is e.-homog.
Variables (x : 'rV[C]_m.+2) (i : 'I_m.+2).
Hypotheses (Qx : peval Q x = 0) (xi : x 0 i != 0).

Let S := \sum_k `|x 0 k| ^+ 2.
Let gr := \sum_k `|peval (Q^`M(k)) x| ^+ 2.
Notation y := (homr i (affr i x)).

Let hsupp mo : mo \in msupp Q -> mdeg mo = e.
Proof. by move: HQ => /dhomogP H /H. Qed.

Lemma deriv_scale k : x 0 i * peval (Q^`M(k)) x = x 0 i ^+ e * peval (Q^`M(k)) y.
Proof.
have H : Q^`M(k) = 0 \/ (0 < e)%N /\ Q^`M(k) \is e.-1.-homog.
  have [e0|e0] := posnP e.
    left; suff -> : Q = (Q@_0%MM)%:MP by rewrite mderivC.
    apply/mpolyP => mo; rewrite mcoeffC; case: (eqVneq mo 0%MM) => [->|mo0]; rewrite ?eqxx ?mulr1 //.
    rewrite mulr0; apply/eqP; rewrite mcoeff_eq0; apply: contra mo0 => /hsupp.
    by rewrite /= e0 -mdeg_eq0 => ->.
  right; split=> //; apply/dhomogP => mo; rewrite mcoeff_msupp mcoeff_deriv => c0.
  have : (mo + U_(k))%MM \in msupp Q by rewrite mcoeff_msupp; apply: contra_neq c0 => ->; rewrite mul0rn.
  by move=> /hsupp /= <-; rewrite mdegD mdeg1 addn1.
case: H => [->|[e0 H]]; first by rewrite /peval !meval0 !mulr0.
rewrite -[in RHS](prednK e0) exprS -mulrA; congr (_ * _); rewrite /peval -hom_scale //.
by apply: meval_eq => j; rewrite homr_aff // mulrC divfK.
Qed.

Lemma Qy : peval Q y = 0.
Proof. by have := dehom_aff HQ xi; rewrite Qx mulr0 dehom_eval. Qed.

Lemma AA_hom : AA (fs_metric_real (affr i x)) (pgrad (dehom i Q) (affr i x)) * (S ^+ m.+1 * `|x 0 i| ^+ (2 * e)) =
  gr * `|x 0 i| ^+ (2 * m.+2).
Proof.
set z := affr i x; set G := pgrad _ _.
have E := AA_fs z G; move: E; set A := AA _ _; set N := norm2p1 _ _ => /= E.
have S1 : S = N * `|x 0 i| ^+ 2.
  rewrite /N (norm2p1_homr i) mulr_suml; apply: eq_bigr => k _.
  by rewrite -normCK -exprMn -normrM homr_aff // divfK.
have E2 : \sum_a `|G 0 a| ^+ 2 + `|\sum_a z 0 a * G 0 a| ^+ 2 = \sum_k `|peval (Q^`M(k)) y| ^+ 2.
  have := euler y HQ; rewrite Qy mulr0 (bigD1_ord i) //= homr_patch mul1r => /eqP; rewrite addr_eq0 => /eqP Ei.
  have GE a : G 0 a = peval (Q^`M(lift i a)) y by rewrite /G mxE dehom_deriv.
  rewrite [RHS](bigD1_ord i) //= Ei normrN addrC; congr (`|_| ^+ 2 + _); apply: eq_bigr => a _.
    by rewrite homr_lift GE.
  by rewrite GE.
have E3 : gr * `|x 0 i| ^+ 2 = (\sum_k `|peval (Q^`M(k)) y| ^+ 2) * `|x 0 i| ^+ (2 * e).
  rewrite /gr !mulr_suml; apply: eq_bigr => k _.
  by rewrite mulnC exprM -!exprMn -normrX -!normrM [_ * x 0 i]mulrC deriv_scale mulrC.
rewrite -E2 -E in E3; rewrite S1 exprMn; have -> : (2 * m.+2 = 2 + 2 * m.+1)%N by lia.
rewrite exprD [`|x 0 i| ^+ (2 * m.+1)]exprM mulrA E3.
by move: (N ^+ m.+1) ((`|x 0 i| ^+ 2) ^+ m.+1) (`|x 0 i| ^+ (2 * e)) => a b c; ring.
Qed.

Lemma grad_nz : (exists k, peval (Q^`M(k)) x != 0) -> exists d : 'I_m.+1, pgrad (dehom i Q) (affr i x) 0 d != 0.
Proof.
move=> [k gk]; have yk : peval (Q^`M(k)) y != 0.
  apply: contra_neq gk => E; have := deriv_scale k; rewrite E mulr0 => /eqP.
  by rewrite mulf_eq0 (negbTE xi) /= => /eqP.
apply/existsP; apply: contraNT yk => /existsPn H.
have Z a : peval (Q^`M(lift i a)) y = 0.
  by have := H a; rewrite mxE dehom_deriv negbK => /eqP.
case: (unliftP i k) => [a ->|->]; first by rewrite Z.
have := euler y HQ; rewrite Qy mulr0 (bigD1_ord i) //= homr_patch mul1r big1 ?addr0 => [->//|a _].
by rewrite Z mulr0.
Qed.
End Weights.

Section Code.
Variable C : numClosedFieldType.
Variable D : forall n : nat, ('rV[C]_n -> C) -> 'rV[C]_n -> 'rV[C]_n.
Hypothesis hD : diff_ok D.
Variables (pi : C) (m e : nat) (V : variety C) (ps : seq C) (Q : {mpoly C[m.+2]}).
Hypotheses (hV : hypersurface V ps m e) (hQ : defined_by V ps Q) (pi0 : 0 < pi).

Let HQ : Q \is e.-homog := V_homog hV hQ.

Lemma weights_code (i : 'I_m.+2) z dep vol :
  v_weights D pi m V (row_seq z) ps (Some (Z.of_nat i)) dep vol =
  weights pi z (row_seq (pgrad (dehom i Q) z)) dep vol.
Proof. by rewrite /v_weights (grad_code hD hV hQ) /= row_seqK. Qed.

Lemma weight_form (x : 'rV[C]_m.+2) (i : 'I_m.+2) a vol :
  v_defining V (row_seq x) (PArr ps) (PatchNone C) = Ok 0 -> (exists k, peval (Q^`M(k)) x != 0) -> x 0 i != 0 ->
  hom_to_affine (row_seq x) (Z.of_nat i) = Ok a ->
  let w := patch_weight e Q (if vol is Some _ then pi ^+ m / m`!%:R else 1) x i in
  [/\ 0 < w, v_weights D pi m V a ps (Some (Z.of_nat i)) None vol = Ok w &
      forall (d : 'I_m.+1) g, v_grad_defining D V a (PArr ps) (PatchInt C (Z.of_nat i)) = Ok g -> nth 0 g d != 0 ->
      v_weights D pi m V a ps (Some (Z.of_nat i)) (Some (Z.of_nat d)) vol = Ok w].
Proof.
move=> hx gx xi ha w; have Qx : peval Q x = 0 by move: hx; rewrite hQ => -[].
have aE : a = row_seq (affr i x) by move: ha; rewrite hom_to_affine_seq => -[<-].
have [d0 gd0] := grad_nz HQ Qx xi gx.
have E := AA_hom HQ Qx xi.
have x0 : `|x 0 i| != 0 by rewrite normr_eq0.
have L0 : 0 < len2 x.
  rewrite /len2 (bigD1 i) //=; apply: ltr_paddr; first by apply: sumr_ge0 => k _; rewrite exprn_ge0.
  by rewrite exprn_gt0 // normr_gt0.
have G0 : 0 < grad2 Q x.
  case: gx => k gk; rewrite /grad2 (bigD1 k) //=; apply: ltr_paddr; first by apply: sumr_ge0 => l _; rewrite exprn_ge0.
  by rewrite exprn_gt0 // normr_gt0.
have wE : (if vol is Some _ then pi ^+ m / m`!%:R else 1) /
    AA (fs_metric_real (affr i x)) (pgrad (dehom i Q) (affr i x)) = w.
  have A0 : AA (fs_metric_real (affr i x)) (pgrad (dehom i Q) (affr i x)) != 0 by rewrite gt_eqF //; exact: A_gt0 gd0.
  rewrite /w /patch_weight -mulrA; congr (_ * _); apply: (mulfI A0); rewrite divff //.
  have K0 : `|x 0 i| ^+ (2 * m.+2) != 0 by rewrite expf_neq0.
  move: E; rewrite -/(grad2 Q x) -/(len2 x); move: K0 (lt0r_neq0 G0).
  move: (AA _ _) (len2 x ^+ _) (grad2 Q x) (_ ^+ (2 * e)) (_ ^+ (2 * m.+2)) => A l g b c c0 g0 E.
  apply: (mulIf (mulf_neq0 g0 c0)); rewrite mul1r; transitivity (A * (l * b)); first by rewrite E.
  by field; rewrite g0 c0.
split.
- rewrite /w /patch_weight mulr_gt0 ?divr_gt0 ?exprn_gt0 ?normr_gt0 // mulr_gt0 ?divr_gt0 ?exprn_gt0 //.
  by case: vol {w wE} => [v|]; rewrite ?ltr01 ?divr_gt0 ?exprn_gt0 // ltr0n fact_gt0.
- by rewrite aE weights_code; have [_ _ ->] := weights_lemma (affr i x) vol pi0 gd0; rewrite -/(AA _ _) wE.
move=> d g; rewrite aE (grad_code hD hV hQ) => -[<-]; rewrite nth_row_seq => gd.
by rewrite weights_code; have [-> _ _] := weights_lemma (affr i x) vol pi0 gd; rewrite -/(AA _ _) wE.
Qed.

(** A smooth hypersurface has nowhere zero homogeneous gradient. *)
Lemma smooth_grad : smooth D V ps m -> forall x : 'rV[C]_m.+2, x != 0 ->
  v_defining V (row_seq x) (PArr ps) (PatchNone C) = Ok 0 -> exists k, peval (Q^`M(k)) x != 0.
Proof.
move=> hs x x0 hx; have Qx : peval Q x = 0 by move: hx; rewrite hQ => -[].
have [i xi] : exists i, x 0 i != 0.
  by apply/existsP; apply: contra_neqT x0 => /existsPn H; apply/rowP => k; rewrite mxE; apply/eqP; have := H k; rewrite negbK.
have [d [a [g [_ _ ha hg gd]]]] := smooth_every hD hV hQ hs x0 Qx xi.
have aE : a = row_seq (affr i x) by move: ha; rewrite hom_to_affine_seq => -[<-].
exists (lift i d); move: hg; rewrite aE (grad_code hD hV hQ) => -[Eg].
move: gd; rewrite -Eg nth_row_seq mxE dehom_deriv => gd.
apply: contra_neq gd => E; have := deriv_scale HQ xi (lift i d); rewrite E mulr0 => /esym/eqP.
by rewrite mulf_eq0 expf_eq0 (negbTE xi) andbF /= => /eqP.
Qed.
End Code.
