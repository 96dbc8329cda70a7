(** Change of patch: polynomials, metrics, measures. *)
From Coq Require Import ZArith Lia.
From mathcomp Require Import all_ssreflect all_algebra.
From mathcomp Require Import zify ssrZ ring.
From SsrMultinomials Require Import mpoly.
From Verif Require Import Base ModelUtil ModelProjective SpecMon ModelBasis ModelGeom ModelVariety ModelDiff ProofUtil ProofProjective
  Bridge Deriv Herm ProofDiff ProofFS SpecGeom SpecBasis SpecSections SpecPatch PolyGrad ProofGeom4 ProofBasis2 ProofBasis3 ProofSections ProofVariety3.
Delimit Scope Z_scope with Z.

Set Implicit Arguments.
Unset Strict Implicit.
Unset Printing Implicit Defensive.

Import GRing.Theory Num.Theory Order.POrderTheory.
Local Open Scope ring_scope.

Lemma det_swap (F : fieldType) n (u : 'M[F]_(n, 1)) (v : 'M[F]_(1, n)) :
  \det (1%:M + u *m v) = 1 + (v *m u) 0 0.
Proof.
have E1 : block_mx 1%:M (- v) u 1%:M =
  block_mx (1%:M : 'M_1) 0 u 1%:M *m block_mx 1%:M (- v) 0 (1%:M + u *m v).
  by rewrite mulmx_block !mul1mx !mul0mx ?mulmx0 ?mulmx1 ?addr0 ?add0r mulmxN addrC addrK.
have E2 : block_mx 1%:M (- v) u 1%:M =
  block_mx (1%:M + v *m u : 'M_1) (- v) 0 1%:M *m block_mx 1%:M 0 u 1%:M.
  by rewrite mulmx_block !mul1mx !mul0mx ?mulmx0 ?mulmx1 ?addr0 ?add0r mulNmx addrK.
have := congr1 (fun A => \det A) E1; rewrite {1}E2 !det_mulmx !det_lblock !det_ublock !det1 !mulr1 !mul1r.
by rewrite det_mx11 => <-; rewrite !mxE eqxx.
Qed.

Lemma det_fs (C : numClosedFieldType) n (z : 'rV[C]_n) :
  \det (fs_metric_real z) = (norm2p1 z (conj_row z)) ^- n.+1.
Proof.
set N := norm2p1 _ _; have N0 : N != 0 by rewrite gt_eqF // norm2p1_gt0.
have -> : fs_metric_real z = N^-1 *: (1%:M + (- N^-1 *: (conj_row z)^T) *m z).
  have EN : N = 1 + \sum_i `|z 0 i| ^+ 2.
    by congr (1 + _); apply: eq_bigr => i _; rewrite mxE normCK.
  rewrite fs_formula -EN scalerDr -scalemxAl scalerA; congr (_ + _).
  by rewrite -scaleNr; congr (_ *: _); rewrite mulrN -invfM -expr2.
rewrite detZ det_swap -scalemxAr mxE.
have -> : (z *m (conj_row z)^T) 0 0 = N - 1.
  rewrite /N /norm2p1 [1 + _]addrC addrK mxE; by apply: eq_bigr => i _; rewrite !mxE.
have -> : 1 + - N^-1 * (N - 1) = N^-1 by field.
by rewrite -exprVn -exprSr exprVn.
Qed.

Section Patch.
Variables (C : numClosedFieldType) (n : nat) (i j : 'I_n.+1).

Lemma det_chart (z : 'rV[C]_n) : homr i z 0 j != 0 ->
  `|\det (chart_jac i j z)| ^+ 2 = `|homr i z 0 j| ^- (2 * n.+1).
Proof.
move=> nz; have := congr1 (fun A => \det A) (fs_patch nz).
rewrite !det_mulmx det_adjm !det_fs norm2p1_chart // -normCK.
set N := norm2p1 _ _; have N0 : N != 0 by rewrite gt_eqF // norm2p1_gt0.
have x0 : `|homr i z 0 j| != 0 by rewrite normr_eq0.
rewrite mulrAC -normCK expr_div_n => H.
apply: (@mulIf _ ((N ^+ n.+1 / (`|homr i z 0 j| ^+ 2) ^+ n.+1)^-1)).
  by rewrite invr_eq0 mulf_neq0 ?invr_eq0 ?expf_neq0.
rewrite -H exprM invf_div mulrA mulVf ?mul1r ?expf_neq0 //.
Qed.

Lemma homr_chart (z : 'rV[C]_n) k : homr i z 0 j != 0 ->
  homr j (chart i j z) 0 k = homr i z 0 k / homr i z 0 j.
Proof.
move=> nz; case: (unliftP j k) => [a ->|->]; first by rewrite homr_lift mxE.
by rewrite homr_patch divff.
Qed.

Lemma hom_scale m (P : {mpoly C[m]}) e (c : C) (v : 'I_m -> C) : P \is e.-homog ->
  P.@[fun k => c * v k] = c ^+ e * P.@[v].
Proof.
move=> /dhomogP hP; rewrite !mevalE mulr_sumr big_seq [in RHS]big_seq.
apply: eq_bigr => mo /hP /= <-.
rewrite mulrCA; congr (_ * _).
rewrite mdegE -prodrXr -big_split /=; apply: eq_bigr => k _; exact: exprMn.
Qed.

Lemma dehom_patch (P : {mpoly C[n.+1]}) e (z : 'rV[C]_n) : P \is e.-homog -> homr i z 0 j != 0 ->
  peval (dehom i P) z = homr i z 0 j ^+ e * peval (dehom j P) (chart i j z).
Proof.
move=> hP nz; rewrite !dehom_eval -hom_scale //; apply: meval_eq => k.
by rewrite homr_chart // mulrC divfK.
Qed.

Definition patch_row : 'rV[C]_n := \row_(a < n) (lift i a == j)%:R.

Lemma homr_near (z : 'rV[C]_n) : homr i z 0 j != 0 ->
  exists2 r : C, 0 < r & forall v, norm1 v < r -> homr i (z + v) 0 j != 0.
Proof.
move=> nz; case: (unliftP i j) => [a ja|ji]; last first.
  by exists 1 => [|v _]; rewrite ?ltr01 // ji homr_patch oner_eq0.
exists `|z 0 a| => [|v Hv]; first by rewrite normr_gt0 -(homr_lift i) -ja.
rewrite ja homr_lift mxE; apply: contraTneq Hv => /eqP; rewrite addrC addr_eq0 => /eqP E.
suff : `|z 0 a| <= norm1 v by move=> le; rewrite -real_leNgt // ?ger0_real ?norm1_ge0.
by rewrite -[z 0 a]opprK -E normrN; exact: norm_le_norm1.
Qed.

Lemma pgrad_patch (P : {mpoly C[n.+1]}) e (z : 'rV[C]_n) : P \is e.-homog -> homr i z 0 j != 0 ->
  let x := homr i z 0 j in let w := chart i j z in
  pgrad (dehom i P) z = x ^+ e *: (pgrad (dehom j P) w *m (chart_jac i j z)^T)
    + (e%:R * x ^+ e.-1 * peval (dehom j P) w) *: patch_row.
Proof.
move=> hP nz x w.
have [r r0 Hr] := homr_near nz.
have H1 := is_grad_exp e (is_grad_homr i z j).
have H2 := is_grad_comp (chart_is_jac nz) (poly_grad (dehom j P) (chart i j z)).
have H3 := is_grad_mul H1 H2.
apply: (is_grad_unique (poly_grad (dehom i P) z)).
apply: is_grad_near r0 _ _; last first.
  apply: is_grad_eq H3; congr (_ + _).
    congr (_ *: _); apply/rowP => a; rewrite !mxE; apply: eq_bigr => k _; rewrite !mxE mulrC //.
  by rewrite scalerA; congr (_ *: _); rewrite mulrC mulr_natl.
by move=> v Hv; rewrite (dehom_patch hP (Hr v Hv)).
Qed.

Lemma pgrad_patch0 (P : {mpoly C[n.+1]}) e (z : 'rV[C]_n) : P \is e.-homog -> homr i z 0 j != 0 ->
  peval (dehom i P) z = 0 ->
  pgrad (dehom i P) z = homr i z 0 j ^+ e *: (pgrad (dehom j P) (chart i j z) *m (chart_jac i j z)^T).
Proof.
move=> hP nz; rewrite (dehom_patch hP nz) => /eqP; rewrite mulf_eq0 expf_eq0 (negbTE nz) andbF /= => /eqP E.
by rewrite (pgrad_patch hP nz) /= E mulr0 scale0r addr0.
Qed.
End Patch.

Section Measure.
Variables (C : numClosedFieldType) (m : nat).
Implicit Types (g T : 'M[C]_m.+1) (G : 'rV[C]_m.+1).

Definition AA g G : C := \det (g + G^T *m adjm G^T) - \det g.

Lemma Jm_scale c G d : c != 0 -> Jm (c *: G) d = Jm G d.
Proof.
move=> c0; apply/matrixP => r k; case: (unliftP d k) => [a ->|->]; first by rewrite !Jm_lift.
by rewrite !Jm_d !mxE invfM -mulrN mulrACA divff // mul1r.
Qed.

Lemma AA_scale g c G : AA g (c *: G) = `|c| ^+ 2 * AA g G.
Proof.
have AA0 : AA g 0 = 0 by rewrite /AA trmx0 mul0mx addr0 subrr.
have [->|c0] := eqVneq c 0; first by rewrite scale0r AA0 normr0 expr0n mul0r.
have [->|G0] := eqVneq G 0; first by rewrite scaler0 AA0 mulr0.
have [d nz] : exists d, G 0 d != 0.
  by apply/existsP; apply: contra_neqT G0; rewrite negb_exists => /forallP H; apply/rowP => d;
     rewrite mxE; apply/eqP; have := H d; rewrite negbK.
have cnz : (c *: G) 0 d != 0 by rewrite mxE mulf_neq0.
by rewrite /AA -(vol_lemma g nz) -(vol_lemma g cnz) Jm_scale // mxE normrM exprMn mulrCA.
Qed.

Lemma AA_congr g T G : AA (T *m g *m adjm T) (G *m T^T) = `|\det T| ^+ 2 * AA g G.
Proof.
have E : T *m g *m adjm T + (G *m T^T)^T *m adjm (G *m T^T)^T = T *m (g + G^T *m adjm G^T) *m adjm T.
  by rewrite trmx_mul trmxK adjm_mul mulmxDr mulmxDl !mulmxA.
rewrite /AA E !det_mulmx det_adjm normCK mulrBr; congr (_ - _); rewrite mulrAC //.
Qed.
End Measure.

Section Alg.
Variables (C : numClosedFieldType) (N n : nat) (M : 'M[C]_N) (s : 'rV[C]_N) (S1 : 'M[C]_(n, N)).
Variables (T : 'M[C]_n) (u : 'cV[C]_n) (l p : C).
Hypothesis l0 : l != 0.
Hypothesis p0 : p != 0.
Hypothesis sE : s *m M *m adjm s = p%:M.

Definition galg (p : C) (s : 'rV[C]_N) (S1 : 'M[C]_(n, N)) : 'M[C]_n :=
  p^-1 *: (S1 *m M *m adjm S1) - p^-2 *: (S1 *m M *m adjm s *m (s *m M *m adjm S1)).

Lemma galg_scale W : galg (`|l| ^+ 2 * p) (l *: s) (l *: W) = galg p s W.
Proof.
rewrite /galg !adjm_scale -!scalemxAl -!scalemxAr -!scalemxAl -?scalemxAr !scalerA normCK.
have lc : l^* != 0 by rewrite conjC_eq0.
by congr (_ *: _ - _ *: _); field; rewrite ?p0 ?l0 ?lc.
Qed.

Lemma galg_shift : galg p s (T *m S1 + u *m s) = T *m galg p s S1 *m adjm T.
Proof.
set W := _ + _.
have Eb : W *m M *m adjm s = T *m (S1 *m M *m adjm s) + p *: u.
  by rewrite /W !mulmxDl -!mulmxA [s *m (_ *m _)]mulmxA sE mul_mx_scalar.
have Ec : s *m M *m adjm W = s *m M *m adjm S1 *m adjm T + p *: adjm u.
  by rewrite /W adjm_add !adjm_mul mulmxDr !mulmxA sE mul_scalar_mx.
have EA : W *m M *m adjm W = T *m (S1 *m M *m adjm S1) *m adjm T + T *m (S1 *m M *m adjm s) *m adjm u +
    u *m (s *m M *m adjm S1 *m adjm T) + p *: (u *m adjm u).
  rewrite {1}/W !mulmxDl -[u *m s *m M *m _]mulmxA -[u *m s *m (M *m _)]mulmxA [s *m (M *m _)]mulmxA Ec.
  rewrite {1}/W adjm_add !adjm_mul !mulmxDr -scalemxAr !mulmxA; by rewrite !addrA.
rewrite /galg EA Eb Ec mulmxBr mulmxBl -!scalemxAr -!scalemxAl.
move: (S1 *m M *m adjm S1) (S1 *m M *m adjm s) (s *m M *m adjm S1) => A b c.
rewrite !mulmxDl !mulmxDr -!scalemxAl -!scalemxAr !mulmxA.
move: (T *m A *m adjm T) (T *m b *m adjm u) (u *m c *m adjm T) (u *m adjm u) (T *m b *m c *m adjm T) => X1 X2 X3 X4 X5.
by apply/matrixP => a' b'; rewrite !mxE; move: (X1 a' b') (X2 a' b') (X3 a' b') (X4 a' b') (X5 a' b') => *; field.
Qed.
End Alg.

Section Metric.
Variables (C : numClosedFieldType) (N m : nat).
Notation n := m.+1.
Variables (M : 'M[C]_N) (k : nat) (SS : 'I_N -> {mpoly C[n.+1]}) (pi : C).
Hypothesis HM : hermitian M.
Hypothesis HS : forall a, SS a \is k.-homog.

Let ob (P : {mpoly C[n.+1]}) (i : 'I_n.+1) d z := poly_objects M k (fun a => dehom i (SS a)) (dehom i P) d z.

Variables (P : {mpoly C[n.+1]}) (i j : 'I_n.+1) (z : 'rV[C]_n).
Hypothesis nz : homr i z 0 j != 0.
Notation x := (homr i z 0 j).
Notation w := (chart i j z).
Notation T := (chart_jac i j z).

Lemma s_patch d d' : \row_a o_s (ob P i d z) a = x ^+ k *: \row_a o_s (ob P j d' w) a.
Proof. by apply/rowP => a; rewrite !mxE /= (dehom_patch (HS a) nz). Qed.

Lemma s1_patch d d' : \matrix_(b, a) o_s1 (ob P i d z) a b =
  x ^+ k *: (T *m (\matrix_(b, a) o_s1 (ob P j d' w) a b)) +
  (k%:R * x ^+ k.-1) *: ((patch_row C i j)^T *m (\row_a o_s (ob P j d' w) a)).
Proof.
apply/matrixP => b a; rewrite [LHS]mxE /=.
have := pgrad_patch (HS a) nz => /rowP/(_ b); rewrite /= {1}/pgrad [LHS]mxE => ->.
rewrite !mxE big_ord1 !mxE; congr (_ * _ + _).
  by apply: eq_bigr => q _; rewrite !mxE mulrC.
by rewrite -mulrA; congr (_ * _); rewrite mulrC.
Qed.

Lemma psi_patch d d' : ob_psi (ob P i d z) = (`|x| ^+ 2) ^+ k * ob_psi (ob P j d' w).
Proof.
rewrite !(@psiE _ _ _ _ M) // (s_patch d d') !hformE adjm_scale -!scalemxAl -scalemxAr !mxE mulrA; congr (_ * _).
by rewrite -normCK normrX exprAC.
Qed.

Lemma gpm_patch d d' : ob_psi (ob P j d' w) != 0 ->
  gpm pi (ob P i d z) = T *m gpm pi (ob P j d' w) *m adjm T.
Proof.
move=> p0; rewrite (@gpmE _ _ _ pi (ob P i d z) M) // (@gpmE _ _ _ pi (ob P j d' w) M) //.
rewrite -scalemxAr -scalemxAl; congr (_ *: _).
rewrite (s_patch d d') (s1_patch d d') (psi_patch d d').
have sE : (\row_a o_s (ob P j d' w) a) *m M *m adjm (\row_a o_s (ob P j d' w) a) = (ob_psi (ob P j d' w))%:M.
  by rewrite [LHS]mx11_scalar (@psiE _ _ _ _ M) // hformE.
move: (ob_psi (ob P j d' w)) p0 sE => p p0.
move: (\row_a o_s (ob P j d' w) a) (\matrix_(b, a) o_s1 (ob P j d' w) a b) => s S1 sE.
have l0 : x ^+ k != 0 by rewrite expf_neq0.
have E : k%:R * x ^+ k.-1 = x ^+ k * (k%:R / x).
  by case: (k) => [|k']; rewrite ?mul0r ?mulr0 // mulrCA; congr (_ * _); rewrite exprS mulrC mulKf.
have -> : (`|x| ^+ 2) ^+ k * p = `|x ^+ k| ^+ 2 * p by rewrite normrX exprAC.
have -> : x ^+ k *: (T *m S1) + (k%:R * x ^+ k.-1) *: ((patch_row C i j)^T *m s) =
   x ^+ k *: (T *m S1 + ((k%:R / x) *: (patch_row C i j)^T) *m s).
  by rewrite E -scalerA -scalerDr scalemxAl.
have := galg_scale M s l0 p0 (T *m S1 + ((k%:R / x) *: (patch_row C i j)^T) *m s); rewrite (galg_shift _ _ _ p0 sE); exact.
Qed.
End Metric.

Lemma row_nz (C : numClosedFieldType) n (G : 'rV[C]_n) d : G 0 d != 0 -> G != 0.
Proof. by apply: contra_neq => ->; rewrite mxE. Qed.

Section Laws.
Variables (C : numClosedFieldType) (m : nat).
Notation n := m.+1.
Variables (P : {mpoly C[n.+1]}) (e : nat) (i j : 'I_n.+1) (z : 'rV[C]_n).
Hypothesis HP : P \is e.-homog.
Hypothesis nz : homr i z 0 j != 0.
Hypothesis Qz : peval (dehom i P) z = 0.
Notation x := (homr i z 0 j).
Notation w := (chart i j z).
Notation T := (chart_jac i j z).
Notation G := (pgrad (dehom i P) z).
Notation G' := (pgrad (dehom j P) w).

Lemma AA_patch g' : AA (T *m g' *m adjm T) G * `|x| ^+ (2 * n.+1) = `|x| ^+ (2 * e) * AA g' G'.
Proof.
have x0 : `|x| != 0 by rewrite normr_eq0.
rewrite (pgrad_patch0 HP nz Qz) AA_scale AA_congr det_chart // normrX -exprM [(e * 2)%N]mulnC.
have : `|x| ^+ (2 * n.+1) != 0 by rewrite expf_neq0.
by move: (`|x| ^+ (2 * n.+1)) (`|x| ^+ (2 * e)) (AA _ _) => a b c a0; field.
Qed.

Lemma T_unit : T \in unitmx.
Proof.
rewrite unitmxE unitfE; apply/negP => /eqP E; have /eqP := det_chart nz.
rewrite E normr0 expr0n /= eq_sym invr_eq0 expf_eq0 normr_eq0 (negbTE nz) andbF //.
Qed.

Lemma tangent d d' : G 0 d != 0 -> G' 0 d' != 0 ->
  exists2 A, A \in unitmx & Jm G d *m T = A *m Jm G' d'.
Proof.
move=> gd gd'; pose A : 'M[C]_m := \matrix_(r, q) (Jm G d *m T) r (lift d' q).
have E : Jm G d *m T = A *m Jm G' d'.
  have K : Jm G d *m T *m G'^T = 0.
    have := Jm_ker gd; rewrite {2}(pgrad_patch0 HP nz Qz) linearZ /= trmx_mul trmxK -scalemxAr mulmxA => /eqP.
    by rewrite scaler_eq0 expf_eq0 (negbTE nz) andbF /= => /eqP.
  apply/row_matrixP => r; rewrite [in RHS]row_mul -(_ : (\row_q (row r (Jm G d *m T)) 0 (lift d' q)) = row r A).
    rewrite [in LHS](Jm_span gd' (v := row r (Jm G d *m T))) //.
    have := congr1 (fun X : 'M_(_, _) => X r 0) K; rewrite /= mxE [RHS]mxE => K0; apply: etrans K0.
    by apply: eq_bigr => c _; congr (_ * _); [rewrite [LHS]mxE | rewrite [RHS]mxE].
  by apply/rowP => q; rewrite !mxE.
exists A => //; rewrite -row_free_unit; apply: inj_row_free => v vA.
apply: (@Jm_inj _ _ G d); apply: (@row_free_inj _ _ _ _ T); first by rewrite row_free_unit T_unit.
by rewrite -mulmxA E mulmxA vA !mul0mx.
Qed.
End Laws.

Lemma log_pow (C : numClosedFieldType) (log : C -> C) (a : C) k :
  (forall x y, 0 < x -> 0 < y -> log (x * y) = log x + log y) -> 0 < a -> log (a ^+ k) = k%:R * log a.
Proof.
move=> lg a0; elim: k => [|k IH].
  have /eqP := lg 1 1 ltr01 ltr01; rewrite mulr1 -subr_eq0 opprD addrA subrr sub0r oppr_eq0 => /eqP E.
  by rewrite expr0 mul0r.
by rewrite exprS lg ?exprn_gt0 // IH -[in RHS]addn1 natrD mulrDl mul1r addrC.
Qed.

Lemma nth_homr (C : numClosedFieldType) n (i j : 'I_n.+1) (z : 'rV[C]_n) :
  nth 0 (affine_to_hom (row_seq z) (Z.of_nat i)) j = homr i z 0 j.
Proof. by rewrite homr_seq nth_row_seq. Qed.

Lemma chart_jac_seq (C : numClosedFieldType) n (i j : 'I_n.+1) (z : 'rV[C]_n) : i != j -> homr i z 0 j != 0 ->
  is_jac (fun y => res_row n (change_chart (row_seq y) (Z.of_nat i) (Z.of_nat j))) z (chart_jac i j z).
Proof.
move=> ij nz k; apply: is_grad_ext (chart_is_jac nz k) => y.
by rewrite chart_seq //= row_seqK.
Qed.

Lemma class_homog (C : numClosedFieldType) (n k : nat) (B : basis) : basis_class C n k B ->
  forall a : 'I_(size (power_matrix B)), mono C n (nth [::] (power_matrix B) a) \is k.-homog.
Proof.
have K B' : (forall v, v \in power_matrix B' -> is_monomial n.+1 k v) ->
    forall a : 'I_(size (power_matrix B')), mono C n (nth [::] (power_matrix B') a) \is k.-homog.
  move=> H a; have /H[sz <-] : nth [::] (power_matrix B') a \in power_matrix B' by exact: mem_nth.
  rewrite /mono dhomogX /= mdegE; apply/eqP.
  under eq_bigr do rewrite mnmE.
  by rewrite -(big_mkord xpredT (fun l => nth 0%N (nth [::] (power_matrix B') a) l)) -sz.
case=> [|[P [e [P0 Ph occ EB]]]].
  have [B' [E dk B0 _ mem]] := full_class n k; rewrite E => -[E']; subst B'.
  by apply: K => v /mem.
have [B' [E dk _ mem _]] := reduced_class_lemma k P0 Ph occ.
move: EB; rewrite E => -[E']; subst B'.
by apply: K => v /mem.
Qed.

Lemma metric_patch (C : numClosedFieldType) (m k : nat) (B : basis) : basis_class C m.+1 k B ->
  forall (M : 'M[C]_(size (power_matrix B))) (pi : C) (P : {mpoly C[m.+2]}) (i j : 'I_m.+2) (d d' : 'I_m.+1) (z : 'rV[C]_m.+1),
  let o := on_patch k M P in let x := hom_coord i j z in
  hermitian M -> i != j -> x != 0 -> 0 < ob_psi (o i d z) ->
  exists w T, [/\ chart_change i j z w T, ob_psi (o i d z) = `|x| ^+ (2 * k) * ob_psi (o j d' w),
    \matrix_(a, b) ob_g_proj pi (o i d z) a b = T *m (\matrix_(a, b) ob_g_proj pi (o j d' w) a b) *m adjm T &
    forall log : C -> C, (forall a b, 0 < a -> 0 < b -> log (a * b) = log a + log b) -> (0 < k)%N ->
    ob_kahler log pi (o i d z) = ob_kahler log pi (o j d' w) + log (`|x| ^+ 2) / pi].
Proof.
move=> /class_homog HS M pi P i j d d' z o x HM ij; rewrite /x /hom_coord nth_homr => nz pp.
have x0 : 0 < `|homr i z 0 j| ^+ 2 by rewrite exprn_gt0 // normr_gt0.
have E := psi_patch M HS P nz d d'.
have p0 : 0 < ob_psi (o j d' (chart i j z)).
  by move: pp; rewrite /o /on_patch /section_polys E pmulr_rgt0 // exprn_gt0.
exists (chart i j z), (chart_jac i j z); split.
- by split; [exact: chart_seq|exact: chart_jac_seq].
- by rewrite exprM; exact: E.
- by apply: (gpm_patch pi HM HS nz d (d' := d')); rewrite gt_eqF.
move=> log lg k0; rewrite /ob_kahler /kahler.
have -> : log (ob_psi (o i d z)) = k%:R * log (`|homr i z 0 j| ^+ 2) + log (ob_psi (o j d' (chart i j z))).
  rewrite -(log_pow _ lg) // -lg ?exprn_gt0 //.
    by congr log; exact: E.
  by rewrite normr_gt0.
rewrite /= mulrDl addrC; congr (_ + _).
have kn : k%:R != 0 :> C by rewrite pnatr_eq0 -lt0n.
by rewrite invfM; move: (log _) (pi^-1) (k%:R) kn => L q c cn; field.
Qed.

Section Final.
Variables (C : numClosedFieldType) (m k e : nat) (B : basis).
Hypothesis HB : basis_class C m.+1 k B.
Variables (M : 'M[C]_(size (power_matrix B))) (pi : C) (P : {mpoly C[m.+2]}) (i j : 'I_m.+2) (d d' : 'I_m.+1) (z : 'rV[C]_m.+1).
Let o := on_patch k M P.
Hypothesis HM : hermitian M.
Hypothesis pi0 : 0 < pi.
Hypothesis HP : P \is e.-homog.
Hypothesis ij : i != j.
Let w := chart i j z.
Let x := homr i z 0 j.
Hypothesis nz : x != 0.
Hypothesis Pz : peval (dehom i P) z = 0.
Hypothesis gd : peval ((dehom i P)^`M(d)) z != 0.
Hypothesis gd' : peval ((dehom j P)^`M(d')) w != 0.
Hypothesis pp : 0 < ob_psi (o i d z).

Let psi' : ob_psi (o j d' w) != 0.
Proof.
have := psi_patch M (class_homog HB) P nz d d' => E.
by move: pp; rewrite [ob_psi _]E => /lt0r_neq0; rewrite mulf_eq0 negb_or => /andP[].
Qed.

Let gdE : pgrad (dehom i P) z 0 d != 0. Proof. by rewrite mxE. Qed.
Let gdE' : pgrad (dehom j P) w 0 d' != 0. Proof. by rewrite mxE. Qed.

Lemma eta_patch : exists ei ej, [/\ ob_eta pi (o i d z) = Ok ei, ob_eta pi (o j d' w) = Ok ej &
  ei * `|x| ^+ (2 * m.+2) = `|x| ^+ (2 * e) * ej].
Proof.
exists (AA (gpm pi (o i d z)) (pgrad (dehom i P) z)), (AA (gpm pi (o j d' w)) (pgrad (dehom j P) w)); split.
- exact: (@eta_dep _ _ _ pi (o i d z) d).
- exact: (@eta_dep _ _ _ pi (o j d' w) d').
rewrite -(AA_patch HP nz Pz); congr (AA _ _ * _).
exact: (gpm_patch pi HM (class_homog HB) nz d (d' := d') psi').
Qed.

Lemma weights_patch vol : exists wi wj,
  [/\ weights pi z (row_seq (pgrad (dehom i P) z)) (Some (Z.of_nat d)) vol = Ok wi,
     weights pi w (row_seq (pgrad (dehom j P) w)) (Some (Z.of_nat d')) vol = Ok wj, 0 < wj &
  wi * `|x| ^+ (2 * e) = `|x| ^+ (2 * m.+2) * wj].
Proof.
rewrite (weights_eq pi z vol gdE) (weights_eq pi w vol gdE').
eexists; eexists; split; [by []|by []|exact: divr_gt0 (wfactor_gt0 pi0 m vol) (A_gt0 w gdE')|].
have := AA_patch HP nz Pz (fs_metric_real w); rewrite -fs_patch // /AA.
have : 0 < \det (fs_metric_real z + (pgrad (dehom i P) z)^T *m adjm (pgrad (dehom i P) z)^T) - \det (fs_metric_real z) by exact: A_gt0 gdE.
have : 0 < \det (fs_metric_real w + (pgrad (dehom j P) w)^T *m adjm (pgrad (dehom j P) w)^T) - \det (fs_metric_real w) by exact: A_gt0 gdE'.
have : 0 < `|x| ^+ (2 * m.+2) by rewrite exprn_gt0 // normr_gt0.
have : 0 < `|x| ^+ (2 * e) by rewrite exprn_gt0 // normr_gt0.
move: (_ - _) (_ - _) (wfactor _ _ _) (`|x| ^+ _) (`|x| ^+ _) => a b c f g /lt0r_neq0 f0 /lt0r_neq0 g0 /lt0r_neq0 b0 /lt0r_neq0 a0.
by move=> H; have -> : g = a * f / b; [rewrite H mulfK|field; rewrite a0 b0].
Qed.

Lemma pow_eq_iff (y : C) p q : 0 < y -> y ^+ p = y ^+ q <-> y = 1 \/ p = q.
Proof.
move=> y0; split=> [|[->|->]//]; last by rewrite !expr1n.
have K p' q' : (p' < q')%N -> y ^+ p' = y ^+ q' -> y = 1.
  move=> pq /eqP; rewrite -(subnK (ltnW pq)) exprD -{1}[y ^+ p']mul1r (inj_eq (mulIf _)) ?expf_neq0 ?lt0r_neq0 //.
  by rewrite eq_sym pexpr_eq1 ?subn_gt0 // ?ltW // => /eqP.
move=> E; case: (ltngtP p q) => pq; [left|left|by right]; first exact: K pq E.
exact: K pq (esym E).
Qed.

Lemma laws_patch vol : exists ei ej wi wj,
  [/\ ob_eta pi (o i d z) = Ok ei, ob_eta pi (o j d' w) = Ok ej,
     weights pi z (row_seq (pgrad (dehom i P) z)) (Some (Z.of_nat d)) vol = Ok wi &
     weights pi w (row_seq (pgrad (dehom j P) w)) (Some (Z.of_nat d')) vol = Ok wj] /\
  [/\ ei * `|x| ^+ (2 * m.+2) = `|x| ^+ (2 * e) * ej,
     wi * `|x| ^+ (2 * e) = `|x| ^+ (2 * m.+2) * wj, wi * ei = wj * ej,
     e = m.+2 -> wi = wj /\ ei = ej & wi = wj <-> `|x| = 1 \/ e = m.+2].
Proof.
have [ei [ej [E1 E2 E3]]] := eta_patch; have [wi [wj [E4 E5 p0 E6]]] := weights_patch vol.
have f0 : `|x| ^+ (2 * m.+2) != 0 by rewrite expf_neq0 // normr_eq0.
have g0 : `|x| ^+ (2 * e) != 0 by rewrite expf_neq0 // normr_eq0.
have x0 : 0 < `|x| by rewrite normr_gt0.
exists ei, ej, wi, wj; split; first by split.
split=> //.
- apply: (mulIf f0); apply: (mulIf g0).
  have -> : wi * ei * `|x| ^+ (2 * m.+2) * `|x| ^+ (2 * e) = (ei * `|x| ^+ (2 * m.+2)) * (wi * `|x| ^+ (2 * e)).
    by move: (`|x| ^+ _) (`|x| ^+ _) => u v; ring.
  by rewrite E3 E6; move: (`|x| ^+ _) (`|x| ^+ _) => u v; ring.
- move=> ee; rewrite -ee in E3 E6; split.
    by apply: (mulIf g0); rewrite E6 mulrC.
  by apply: (mulIf g0); rewrite E3 mulrC.
split=> [ww|H].
  have : `|x| ^+ (2 * e) = `|x| ^+ (2 * m.+2).
    by apply: (mulIf (lt0r_neq0 p0)); rewrite -E6 -ww mulrC.
  by move=> /(pow_eq_iff _ _ x0)[]; [left|right; lia].
apply: (mulIf g0); rewrite E6 mulrC; congr (_ * _); apply/(pow_eq_iff _ _ x0).
by case: H => [|->]; [left|right].
Qed.

Lemma gloc_patch : exists gi gj Ji Jj A,
  [/\ ob_g_loc pi (o i d z) = Ok gi, ob_g_loc pi (o j d' w) = Ok gj,
     ob_jac (o i d z) = Ok Ji & ob_jac (o j d' w) = Ok Jj] /\
  [/\ A \in unitmx, Ji *m chart_jac i j z = A *m Jj & gi = A *m gj *m adjm A].
Proof.
have [A uA EA] := tangent HP nz Pz gdE gdE'.
exists (Jm (pgrad (dehom i P) z) d *m gpm pi (o i d z) *m adjm (Jm (pgrad (dehom i P) z) d)).
exists (Jm (pgrad (dehom j P) w) d' *m gpm pi (o j d' w) *m adjm (Jm (pgrad (dehom j P) w) d')).
exists (Jm (pgrad (dehom i P) z) d), (Jm (pgrad (dehom j P) w) d'), A; split; split=> //.
- exact: (@g_loc_dep _ _ _ pi (o i d z) d).
- exact: (@g_loc_dep _ _ _ pi (o j d' w) d').
- by rewrite /ob_jac /= /jac jacobian_embed_rows /= mx_rows_row.
- by rewrite /ob_jac /= /jac jacobian_embed_rows /= mx_rows_row.
have -> : gpm pi (o i d z) = chart_jac i j z *m gpm pi (o j d' w) *m adjm (chart_jac i j z).
  exact: (gpm_patch pi HM (class_homog HB) nz d (d' := d') psi').
rewrite !mulmxA EA -!mulmxA -adjm_mul EA adjm_mul !mulmxA //.
Qed.
End Final.

Section Wrap.
Variables (C : numClosedFieldType) (m k e : nat) (B : basis).
Hypothesis HB : basis_class C m.+1 k B.
Variables (M : 'M[C]_(size (power_matrix B))) (pi : C) (P : {mpoly C[m.+2]}) (i j : 'I_m.+2) (z w : 'rV[C]_m.+1) (T : 'M[C]_m.+1).
Notation o := (on_patch k M P).

Lemma chart_changeE : i != j -> hom_coord i j z != 0 -> chart_change i j z w T -> w = chart i j z /\ T = chart_jac i j z.
Proof.
rewrite /hom_coord nth_homr => ij nz [E J]; split.
  by move: E; rewrite chart_seq // => -[/(congr1 (seq_row m.+1))]; rewrite !row_seqK.
apply/matrixP => a b; have := is_grad_unique (J b) (chart_jac_seq ij nz b) => /rowP/(_ a).
by rewrite !mxE.
Qed.

Lemma volume_wrap (d d' : 'I_m.+1) vol : let x := hom_coord i j z in
  hermitian M -> 0 < pi -> P \is e.-homog -> i != j -> x != 0 -> chart_change i j z w T ->
  peval (dehom i P) z = 0 -> peval ((dehom i P)^`M(d)) z != 0 -> peval ((dehom j P)^`M(d')) w != 0 ->
  0 < ob_psi (o i d z) ->
  exists ei ej wi wj,
  [/\ ob_eta pi (o i d z) = Ok ei, ob_eta pi (o j d' w) = Ok ej,
     weights pi z (row_seq (pgrad (dehom i P) z)) (Some (Z.of_nat d)) vol = Ok wi &
     weights pi w (row_seq (pgrad (dehom j P) w)) (Some (Z.of_nat d')) vol = Ok wj] /\
  [/\ ei * `|x| ^+ (2 * m.+2) = `|x| ^+ (2 * e) * ej,
     wi * `|x| ^+ (2 * e) = `|x| ^+ (2 * m.+2) * wj, wi * ei = wj * ej,
     e = m.+2 -> wi = wj /\ ei = ej & wi = wj <-> `|x| = 1 \/ e = m.+2].
Proof.
move=> x HM pi0 HP ij nz cc; have [Ew ET] := chart_changeE ij nz cc; subst w.
move: nz; rewrite /x /hom_coord nth_homr => nz Pz gd gd' pp.
exact: laws_patch.
Qed.

Lemma gloc_wrap (d d' : 'I_m.+1) :
  hermitian M -> P \is e.-homog -> i != j -> hom_coord i j z != 0 -> chart_change i j z w T ->
  peval (dehom i P) z = 0 -> peval ((dehom i P)^`M(d)) z != 0 -> peval ((dehom j P)^`M(d')) w != 0 ->
  0 < ob_psi (o i d z) ->
  exists gi gj Ji Jj A,
  [/\ ob_g_loc pi (o i d z) = Ok gi, ob_g_loc pi (o j d' w) = Ok gj,
     ob_jac (o i d z) = Ok Ji & ob_jac (o j d' w) = Ok Jj] /\
  [/\ A \in unitmx, Ji *m T = A *m Jj & gi = A *m gj *m adjm A].
Proof.
move=> HM HP ij nz cc; have [Ew ET] := chart_changeE ij nz cc; subst w T.
move: nz; rewrite /hom_coord nth_homr => nz Pz gd gd' pp.
by apply: (@gloc_patch C m k e B HB M pi P i j d d' z HM).
Qed.

Lemma grad_wrap : P \is e.-homog -> i != j -> hom_coord i j z != 0 -> chart_change i j z w T ->
  peval (dehom i P) z = hom_coord i j z ^+ e * peval (dehom j P) w /\
  (peval (dehom i P) z = 0 -> pgrad (dehom i P) z = hom_coord i j z ^+ e *: (pgrad (dehom j P) w *m T^T)).
Proof.
move=> HP ij nz cc; have [Ew ET] := chart_changeE ij nz cc; subst w T.
move: nz; rewrite /hom_coord nth_homr => nz; split; first exact: dehom_patch.
exact: pgrad_patch0.
Qed.
End Wrap.

(** Instance: the points (1 : 2 : 0) of X1^e = 2^e X0^e *)
Section Instance.
Variables (C : numClosedFieldType) (e : nat).
Hypothesis e0 : (0 < e)%N.
Definition two_P : {mpoly C[3]} := 'X_1 ^+ e - (2%:R ^+ e) *: 'X_0 ^+ e.
Definition two_pt : 'rV[C]_2 := \row_i (if i == 0 then 2%:R else 0).
Definition half_pt : 'rV[C]_2 := \row_i (if i == 0 then 2%:R^-1 else 0).

Lemma two_instance : [/\ two_P \is e.-homog, `|hom_coord 0 1 two_pt| = 2%:R, exists T, chart_change 0 1 two_pt half_pt T,
  peval (dehom 0 two_P) two_pt = 0 & peval ((dehom 0 two_P)^`M(0)) two_pt != 0 /\ peval ((dehom 1 two_P)^`M(0)) half_pt != 0].
Proof.
have l00 : lift 0 0 = 1 :> 'I_3 by exact: val_inj.
have l10 : lift 1 0 = 0 :> 'I_3 by exact: val_inj.
have h0 y : homr (0 : 'I_3) y 0 1 = y 0 0 :> C by rewrite -l00 homr_lift.
have h1 y : homr (1 : 'I_3) y 0 0 = y 0 0 :> C by rewrite -[X in homr _ _ _ X]l10 homr_lift.
have t0 : 2%:R != 0 :> C by rewrite pnatr_eq0.
have hx : hom_coord 0 1 two_pt = 2%:R :> C by rewrite /hom_coord nth_homr h0 mxE.
have q0 y : peval (dehom 0 two_P) y = y 0 0 ^+ e - 2%:R ^+ e.
  by rewrite dehom_eval /two_P mevalB mevalZ !rmorphX /= !mevalXU h0 homr_patch expr1n mulr1.
have q1 y : peval (dehom 1 two_P) y = 1 - 2%:R ^+ e * y 0 0 ^+ e.
  by rewrite dehom_eval /two_P mevalB mevalZ !rmorphX /= !mevalXU h1 homr_patch expr1n.
split.
- by rewrite /two_P rpredB ?rpredZ // homX.
- by rewrite hx normr_nat.
- exists (chart_jac 0 1 two_pt); have nz : homr 0 two_pt 0 1 != 0 :> C by rewrite h0 mxE.
  split; last exact: chart_jac_seq.
  rewrite chart_seq //; congr (Ok (row_seq _)); apply/rowP => a; rewrite !mxE h0 mxE /=.
  case: (unliftP 0 a) => [a' ->|->].
    have -> : lift 1 (lift 0 a') = lift 0 1 :> 'I_3 by rewrite !ord1; exact: val_inj.
    by rewrite homr_lift mxE /= mul0r.
  by rewrite l10 homr_patch /= mul1r.
- by rewrite q0 mxE subrr.
split.
  have : pgrad (dehom 0 two_P) two_pt 0 0 = (2%:R ^+ e.-1 *+ e) :> C.
    have := is_grad_unique (poly_grad (dehom 0 two_P) two_pt)
      (is_grad_ext (fsym q0) (is_grad_sub (is_grad_exp e (is_grad_coord 0 two_pt)) (is_grad_const _ _))) => ->.
    by rewrite !mxE /= subr0 mulr1.
  by rewrite mxE => ->; rewrite mulrn_eq0 negb_or -lt0n e0 expf_neq0.
have : pgrad (dehom 1 two_P) half_pt 0 0 = - (2%:R ^+ e * (2%:R^-1 ^+ e.-1 *+ e)) :> C.
  have := is_grad_unique (poly_grad (dehom 1 two_P) half_pt)
      (is_grad_ext (fsym q1) (is_grad_sub (is_grad_const _ _) (is_grad_scale _ (is_grad_exp e (is_grad_coord 0 half_pt))))) => ->.
  by rewrite !mxE /= sub0r mulr1.
rewrite mxE => ->; rewrite oppr_eq0 mulf_eq0 mulrn_eq0 !negb_or -lt0n e0 !expf_neq0 //.
by rewrite invr_eq0.
Qed.
End Instance.
