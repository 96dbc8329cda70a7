(** AlgebraicMetric at a point of the variety: any coordinates against the
    defaults. *)
From Coq Require Import ZArith Lia Reals.
From mathcomp Require Import all_ssreflect all_algebra.
From mathcomp Require Import zify ssrZ ring.
From mathcomp Require Import complex.
From SsrMultinomials Require Import mpoly.
From Verif Require Import Base ModelUtil ModelProjective ModelDiff ModelExpr ModelPoly ModelHom ModelVariety ModelBasis ModelGeom ModelAlg.
From Verif Require Import SpecPoly SpecHom SpecVariety SpecGeom SpecBasis SpecSections SpecPatch SpecAlg Herm.
From Verif Require Import Deriv Wirtinger Bridge PolyGrad ProofUtil ProofProjective ProofDiff ProofDiff2 ProofSections ProofPatch.
From Verif Require Import RealField ComplexR ProofComplex ProofRicci2 ProofHom ProofHom2 ProofBasis3 ProofPolyExpr ProofAlg.
Delimit Scope Z_scope with Z.

Set Implicit Arguments.
Unset Strict Implicit.
Unset Printing Implicit Defensive.

Import GRing.Theory Num.Theory Order.POrderTheory.
Local Open Scope ring_scope.
Delimit Scope R_scope with RR.
#[local] Hint Extern 0 (is_true (0 < _)) => solve [apply: ltr01 | apply: ltr0Sn] : core.

Section Affine.
Variables (C : numClosedFieldType) (m : nat).
Implicit Types (x : 'rV[C]_m.+2) (i j : 'I_m.+2).

(** Affine coordinates of a point given by homogeneous ones. *)
Definition affr i x : 'rV[C]_m.+1 := \row_(k < m.+1) (x 0 (lift i k) / x 0 i).

Lemma homr_aff i x k : x 0 i != 0 -> homr i (affr i x) 0 k = x 0 k / x 0 i.
Proof.
move=> x0; case: (unliftP i k) => [a ->|->]; first by rewrite homr_lift mxE.
by rewrite homr_patch divff.
Qed.

Lemma chart_aff i j x : x 0 i != 0 -> x 0 j != 0 -> chart i j (affr i x) = affr j x.
Proof. by move=> xi xj; apply/rowP => k; rewrite !mxE !homr_aff //; field; rewrite xi xj. Qed.

Lemma dehom_aff (Q : {mpoly C[m.+2]}) e i x : Q \is e.-homog -> x 0 i != 0 ->
  peval (dehom i Q) (affr i x) = (x 0 i)^-1 ^+ e * peval Q x.
Proof.
move=> hQ xi; rewrite dehom_eval /peval -hom_scale //; apply: meval_eq => k.
by rewrite homr_aff // mulrC.
Qed.

Lemma auto_aff x j : x 0 j != 0 -> exists i : 'I_m.+2, [/\ x 0 i != 0, forall j, `|x 0 j| <= `|x 0 i| &
  hom_to_affine_auto (row_seq x) = Ok (row_seq (affr i x), val i)].
Proof.
move=> xj; have nz : has (fun y => y != 0) (row_seq x).
  by apply/hasP; exists (x 0 j) => //; rewrite -nth_row_seq mem_nth // size_row_seq.
have [z [p [E [pn p0 le _ [Ez _ _]]]]] := auto_lemma nz.
rewrite size_row_seq in pn le; pose i := Ordinal pn.
have xi : nth 0 (row_seq x) p = x 0 i by rewrite -nth_row_seq.
exists i; split=> [||//]; first by rewrite -xi.
  by move=> k; rewrite -xi -nth_row_seq; apply: le.
move: E; rewrite /hom_to_affine_auto; case: argmax => //= p'.
case E2: hom_to_affine => [z'|//] [_ Ep]; subst p'; move: E2.
by rewrite (hom_to_affine_seq i x) => -[<-].
Qed.
End Affine.

Section Default.
Variable C : numClosedFieldType.
Variable D : forall n : nat, ('rV[C]_n -> C) -> 'rV[C]_n -> 'rV[C]_n.
Hypothesis hD : diff_ok D.
Variables (lg ex : C -> C) (pi : C) (m e : nat).
Variables (V : variety C) (ps : seq C) (Q : {mpoly C[m.+2]}).
Hypotheses (hV : hypersurface V ps m e) (hQ : defined_by V ps Q).
Variables (k : nat) (B : basis).
Hypotheses (hB : basis_for k Q B) (k0 : (0 < k)%N) (pi0 : 0 < pi).
Variable M : 'M[C]_(size (power_matrix B)).
Hypotheses (HM : hermitian M) (pd : posdef M).
Variable x : 'rV[C]_m.+2.
Hypothesis hx : v_defining V (row_seq x) (PArr ps) (PatchNone C) = Ok 0.
Variables (i : 'I_m.+2) (a g : seq C) (d : 'I_m.+1).
Hypotheses (xi : x 0 i != 0) (ha : hom_to_affine (row_seq x) (Z.of_nat i) = Ok a).
Hypothesis hg : v_grad_defining D V a (PArr ps) (PatchInt C (Z.of_nat i)) = Ok g.
Hypothesis gd : nth 0 g d != 0.

Let HQ : Q \is e.-homog := V_homog hV hQ.
Let hC : basis_class C m.+1 k B := for_class HQ hB.
Let z := affr i x.
Let aE : a = row_seq z. Proof. by move: ha; rewrite hom_to_affine_seq => -[<-]. Qed.
Let Qx : peval Q x = 0. Proof. by move: hx; rewrite hQ => -[]. Qed.
Let Qa j : x 0 j != 0 -> peval (dehom j Q) (affr j x) = 0.
Proof. by move=> xj; rewrite (dehom_aff HQ xj) Qx mulr0. Qed.
Let gz : peval ((dehom i Q)^`M(d)) z != 0.
Proof. by move: gd; move: hg; rewrite aE (grad_code hD hV hQ) => -[<-]; rewrite nth_row_seq mxE. Qed.

Let pos j b : x 0 j != 0 -> peval ((dehom j Q)^`M(b)) (affr j x) != 0 ->
  0 < ob_psi (on_patch k M Q j b (affr j x)) /\
  exists2 G, ob_g_loc pi (on_patch k M Q j b (affr j x)) = Ok G & posdef G.
Proof. by move=> xj gj; apply: (for_positive HQ hB k0 pi0 HM pd (Qa xj) gj). Qed.

Lemma B_ne : power_matrix B <> [::].
Proof.
move=> E; have [] := pos xi gz; rewrite /ob_psi /psi /= big1 ?ltxx // => s.
by exfalso; move: (ltn_ord s); move: (val s) => q; rewrite E.
Qed.

Lemma default_point : exists (i0 : 'I_m.+2) (d0 : 'I_m.+1),
  [/\ x 0 i0 != 0, forall j, `|x 0 j| <= `|x 0 i0|, peval ((dehom i0 Q)^`M(d0)) (affr i0 x) != 0,
      forall b, `|peval ((dehom i0 Q)^`M(b)) (affr i0 x)| <= `|peval ((dehom i0 Q)^`M(d0)) (affr i0 x)| &
      alg_point m V (row_seq x) None = alg_point m V (row_seq (affr i0 x)) (Some (Z.of_nat i0)) /\
      choose_dependent (row_seq (pgrad (dehom i0 Q) (affr i0 x))) None = Ok (Z.of_nat d0)].
Proof.
have [i0 [x0 le E]] := auto_aff xi; exists i0.
set G := pgrad (dehom i0 Q) (affr i0 x).
have nz : homr i z 0 i0 != 0 by rewrite homr_aff // mulf_neq0 // invr_neq0.
have G0 : has (fun y => y != 0) (row_seq G).
  apply/negP => /negP/hasPn G0; case/eqP: gz.
  have -> : peval ((dehom i Q)^`M(d)) z = pgrad (dehom i Q) z 0 d by rewrite mxE.
  rewrite (pgrad_patch0 HQ nz (Qa xi)) chart_aff // -/G.
  have -> : G = 0.
    apply/rowP => b; rewrite [RHS]mxE; apply/eqP; rewrite -[_ == 0]negbK.
    by apply: G0; rewrite -nth_row_seq mem_nth // size_row_seq.
  by rewrite mul0mx scaler0 mxE.
have [w [q [Eq [qn q0 qle _ _]]]] := auto_lemma G0; rewrite size_row_seq in qn qle.
exists (Ordinal qn).
have nE (b : 'I_m.+1) : nth 0 (row_seq G) b = peval ((dehom i0 Q)^`M(b)) (affr i0 x) by rewrite nth_row_seq mxE.
split=> //.
- by rewrite -nE.
- by move=> b; rewrite -!nE; apply: qle.
split; first by rewrite /alg_point E.
move: Eq; rewrite /hom_to_affine_auto /choose_dependent; case: argmax => //= p'.
by case: hom_to_affine => //= z' [_ ->].
Qed.

Lemma objects_of (i0 : 'I_m.+2) : alg_point m V (row_seq x) None = alg_point m V (row_seq (affr i0 x)) (Some (Z.of_nat i0)) ->
  forall G dep, alg_objects D lg ex m V (HMat M) (row_seq x) (PArr ps) None G dep =
    alg_objects D lg ex m V (HMat M) (row_seq (affr i0 x)) (PArr ps) (Some (Z.of_nat i0)) G dep.
Proof. by rewrite /alg_objects => ->. Qed.

(** metric *)
Lemma metric_point : exists (i0 : 'I_m.+2) (d0 : 'I_m.+1) G G0 A,
  [/\ alg_metric D lg ex pi m V (HMat M) a (PArr ps) (Some (Z.of_nat i)) None (Some (Z.of_nat d)) =
        Ok (G, Z.of_nat i, Z.of_nat d),
      alg_metric D lg ex pi m V (HMat M) (row_seq x) (PArr ps) None None None = Ok (G0, Z.of_nat i0, Z.of_nat d0),
      A \in unitmx /\ G = A *m G0 *m adjm A, posdef G0 &
      (forall j : 'I_m.+2, `|x 0 j| <= `|nth 0 (row_seq x) i0|) /\
      exists a0 g0, [/\ hom_to_affine (row_seq x) (Z.of_nat i0) = Ok a0,
        v_grad_defining D V a0 (PArr ps) (PatchInt C (Z.of_nat i0)) = Ok g0 &
        forall b : 'I_m.+1, `|nth 0 g0 b| <= `|nth 0 g0 d0|]].
Proof.
have [i0 [d0 [x0 le g0 gle [Eo Ed]]]] := default_point.
have nz : homr i z 0 i0 != 0 by rewrite homr_aff // mulf_neq0 // invr_neq0.
have [pp _] := pos xi gz; have [_ [G0' EG0 pG0]] := pos x0 g0.
have gw : peval ((dehom i0 Q)^`M(d0)) (chart i i0 z) != 0 by rewrite chart_aff.
have [G [G0 [Ji [Jj [A [[E1 E2 _ _] [uA _ EG]]]]]]] :=
  @gloc_patch C m k e B hC M pi Q i i0 d d0 z HM HQ nz (Qa xi) gz gw pp.
rewrite chart_aff // in E2; move: EG0; rewrite E2 => -[E']; subst G0'.
exists i0, d0, G, G0, A; split=> //.
- rewrite /alg_metric aE (objects_gen hD lg ex hV hQ hC B_ne M (d := d)) //; last by left.
  by rewrite /= E1.
- rewrite /alg_metric (objects_of Eo) (objects_gen hD lg ex hV hQ hC B_ne M Ed) //; last by left.
  by rewrite /= E2.
split; first by move=> j; rewrite nth_row_seq.
exists (row_seq (affr i0 x)), (row_seq (pgrad (dehom i0 Q) (affr i0 x))); split.
- exact: hom_to_affine_seq.
- exact: (grad_code hD hV hQ).
by move=> b; rewrite !nth_row_seq !mxE.
Qed.

(** eta *)
Lemma eta_point : exists (i0 : 'I_m.+2) E E0,
  [/\ alg_eta D lg ex pi m V (HMat M) a (PArr ps) (Some (Z.of_nat i)) None (Some (Z.of_nat d)) = Ok E,
      alg_eta D lg ex pi m V (HMat M) (row_seq x) (PArr ps) None None None = Ok E0,
      E * `|x 0 i0 / x 0 i| ^+ (2 * m.+2) = `|x 0 i0 / x 0 i| ^+ (2 * e) * E0, e = m.+2 -> E = E0 &
      forall j : 'I_m.+2, `|x 0 j| <= `|x 0 i0|].
Proof.
have [i0 [d0 [x0 le g0 _ [Eo Ed]]]] := default_point.
have nz : homr i z 0 i0 != 0 by rewrite homr_aff // mulf_neq0 // invr_neq0.
have [pp _] := pos xi gz.
have gw : peval ((dehom i0 Q)^`M(d0)) (chart i i0 z) != 0 by rewrite chart_aff.
have [E [E0 [E1 E2 E3]]] := @eta_patch C m k e B hC M pi Q i i0 d d0 z HM HQ nz (Qa xi) gz gw pp.
rewrite chart_aff // in E2; rewrite homr_aff // in E3.
exists i0, E, E0; split=> //.
- by rewrite /alg_eta aE (objects_gen hD lg ex hV hQ hC B_ne M (d := d)) //; left.
- by rewrite /alg_eta (objects_of Eo) (objects_gen hD lg ex hV hQ hC B_ne M Ed) //; left.
move=> ee; rewrite ee [RHS]mulrC in E3; apply: mulIf E3.
by rewrite expf_neq0 // normr_eq0 mulf_neq0 // invr_neq0.
Qed.

(** kahler_potential *)
Lemma kahler_code (j : 'I_m.+2) (b : 'I_m.+1) y : alg_kahler lg ex pi m V (HMat M) (row_seq y) (Some (Z.of_nat j)) =
  Ok (ob_kahler lg pi (on_patch k M Q j b y)).
Proof.
rewrite /alg_kahler (point_code hV) /= (sections_code lg ex hC B_ne) /= (class_degree hC).
rewrite /ob_kahler /ob_psi /on_patch /=; congr (Ok (kahler _ _ _ _)).
have E (s : 'I_(size (power_matrix B))) :
  nth 0 [seq peval (section_polys C j s) y | s <- enum 'I_(size (power_matrix B))] s = peval (section_polys C j s) y.
  by rewrite (nth_map s) ?size_enum_ord // nth_ord_enum.
by apply: eq_bigr => s _; apply: eq_bigr => t _; rewrite /s_c !E.
Qed.

Lemma kahler_point : (forall a b, 0 < a -> 0 < b -> lg (a * b) = lg a + lg b) ->
  exists (i0 : 'I_m.+2) K K0,
  [/\ alg_kahler lg ex pi m V (HMat M) a (Some (Z.of_nat i)) = Ok K,
      alg_kahler lg ex pi m V (HMat M) (row_seq x) None = Ok K0,
      K = K0 + lg (`|x 0 i0 / x 0 i| ^+ 2) / pi &
      forall j : 'I_m.+2, `|x 0 j| <= `|x 0 i0|].
Proof.
move=> hl; have [i0 [d0 [x0 le g0 _ [Eo Ed]]]] := default_point.
have nz : homr i z 0 i0 != 0 by rewrite homr_aff // mulf_neq0 // invr_neq0.
have [pp _] := pos xi gz; have [pp0 _] := pos x0 g0.
exists i0, (ob_kahler lg pi (on_patch k M Q i d z)), (ob_kahler lg pi (on_patch k M Q i0 d0 (affr i0 x))); split=> //.
- by rewrite aE (kahler_code _ d).
- rewrite /alg_kahler Eo; exact: (kahler_code i0 d0).
have E := psi_patch M (class_homog hC) Q nz d d0; rewrite chart_aff // homr_aff // in E.
rewrite /ob_kahler /kahler.
have y0 : 0 < `|x 0 i0 / x 0 i| ^+ 2 by rewrite exprn_gt0 // normr_gt0 mulf_neq0 // invr_neq0.
have -> : lg (ob_psi (on_patch k M Q i d z)) = k%:R * lg (`|x 0 i0 / x 0 i| ^+ 2) + lg (ob_psi (on_patch k M Q i0 d0 (affr i0 x))).
  have y1 : 0 < (`|x 0 i0 / x 0 i| ^+ 2) ^+ k by rewrite exprn_gt0.
  by rewrite -(log_pow _ hl y0) -(hl _ _ y1 pp0); congr lg; exact: E.
rewrite /= mulrDl addrC; congr (_ + _).
have kn : k%:R != 0 :> C by rewrite pnatr_eq0 -lt0n.
by rewrite invfM; move: (lg _) (pi^-1) (k%:R) kn => L q c cn; field.
Qed.

(** The gradient passed as an argument *)
Lemma grad_argument dep :
  alg_objects D lg ex m V (HMat M) a (PArr ps) (Some (Z.of_nat i)) (Some (seq_row m.+1 g)) dep =
  alg_objects D lg ex m V (HMat M) a (PArr ps) (Some (Z.of_nat i)) None dep.
Proof. by rewrite /alg_objects aE (point_code hV) /= /alg_grad -aE hg. Qed.
End Default.

Section Ricci.
Variable D : forall n : nat, ('rV[CR]_n -> CR) -> 'rV[CR]_n -> 'rV[CR]_n.
Hypothesis hD : diff_ok D.
Variables (lg ex : CR -> CR) (m e : nat).
Variables (V : variety CR) (ps : seq CR) (Q : {mpoly CR[m.+2]}).
Hypotheses (hV : hypersurface V ps m e) (hQ : defined_by V ps Q).
Variables (k : nat) (B : basis).
Hypotheses (hB : basis_for k Q B) (k0 : (0 < k)%N).
Variable M : 'M[CR]_(size (power_matrix B)).
Hypotheses (HM : hermitian M) (pd : posdef M).
Variable x : 'rV[CR]_m.+2.
Hypothesis hx : v_defining V (row_seq x) (PArr ps) (PatchNone _) = Ok 0.
Variables (i : 'I_m.+2) (a g : seq CR) (d : 'I_m.+1).
Hypotheses (xi : x 0 i != 0) (ha : hom_to_affine (row_seq x) (Z.of_nat i) = Ok a).
Hypothesis hg : v_grad_defining D V a (PArr ps) (PatchInt _ (Z.of_nat i)) = Ok g.
Hypothesis gd : nth 0 g d != 0.

Lemma ricci_point : exists i0 d0 G G0 R R0 A r,
  [/\ alg_metric D lg ex (rc PI) m V (HMat M) a (PArr ps) (Some (Z.of_nat i)) None (Some (Z.of_nat d)) =
        Ok (G, Z.of_nat i, Z.of_nat d),
      alg_metric D lg ex (rc PI) m V (HMat M) (row_seq x) (PArr ps) None None None = Ok (G0, i0, d0),
      alg_ricci D lg ex (rc PI) m V (HMat M) a (PArr ps) (Some (Z.of_nat i)) None (Some (Z.of_nat d)) =
        Ok (R, Z.of_nat i, Z.of_nat d) &
      alg_ricci D lg ex (rc PI) m V (HMat M) (row_seq x) (PArr ps) None None None = Ok (R0, i0, d0)] /\
  [/\ A \in unitmx, G = A *m G0 *m adjm A, R = A *m R0 *m adjm A,
      alg_ricci_scalar D lg ex (rc PI) m V (HMat M) a (PArr ps) (Some (Z.of_nat i)) None (Some (Z.of_nat d)) = Ok r &
      alg_ricci_scalar D lg ex (rc PI) m V (HMat M) (row_seq x) (PArr ps) None None None = Ok r].
Proof.
have HQ := V_homog hV hQ; have hC := for_class HQ hB.
have aE : a = row_seq (affr i x) by move: ha; rewrite hom_to_affine_seq => -[<-].
have Qx : peval Q x = 0 by move: hx; rewrite hQ => -[].
have Qi : peval (dehom i Q) (affr i x) = 0 by rewrite (dehom_aff HQ xi) Qx mulr0.
have gz : peval ((dehom i Q)^`M(d)) (affr i x) != 0.
  by move: gd; move: hg; rewrite aE (grad_code hD hV hQ) => -[<-]; rewrite nth_row_seq mxE.
have [i0 [d0 [x0 le g0 _ [Eo Ed]]]] := default_point hD hV hQ hx xi ha hg gd.
have nz : homr i (affr i x) 0 i0 != 0 by rewrite homr_aff // mulf_neq0 // invr_neq0.
have gw : peval ((dehom i0 Q)^`M(d0)) (chart i i0 (affr i x)) != 0 by rewrite chart_aff.
have [G [G0 [R [R0 [A [[[G1 G2] [R1 R2] uA EG ER] [r [r1 r2]]]]]]]] :=
  curvature_chart hB HQ k0 HM pd nz Qi gz gw.
rewrite chart_aff // in G2 R2 r2.
have bne := B_ne hD hV hQ hB k0 pi_pos HM pd hx xi ha hg gd.
have O1 := objects_gen hD lg ex hV hQ hC bne M (erefl : choose_dependent _ (Some _) = _) (or_introl erefl) gz.
have O2 := objects_gen hD lg ex hV hQ hC bne M Ed (or_introl erefl) g0.
have O2' := objects_of D lg ex ps M Eo None None.
exists (Z.of_nat i0), (Z.of_nat d0), G, G0, R, R0, A, r; split; split=> //.
- by rewrite /alg_metric aE O1 /= G1.
- by rewrite /alg_metric O2' O2 /= G2.
- by rewrite /alg_ricci aE O1 /= R1.
- by rewrite /alg_ricci O2' O2 /= R2.
- by rewrite /alg_ricci_scalar aE O1 /= r1.
by rewrite /alg_ricci_scalar O2' O2 /= r2.
Qed.
End Ricci.

(** Inputs of the wrong length, and the gradient as an argument *)
Section Inputs.
Variable C : numClosedFieldType.
Variable D : forall n : nat, ('rV[C]_n -> C) -> 'rV[C]_n -> 'rV[C]_n.
Variables (lg ex : C -> C) (pi : C) (m : nat).
Variables (V : variety C) (B : basis) (h : hvalue C (size (power_matrix B))).

Lemma wrong_length zs params patch g dep : v_coordinates V = Ok m.+2 ->
  (if patch is Some p then size zs <> m.+1 else size zs <> m.+2 /\ has (fun x => x != 0) zs) ->
  [/\ alg_kahler lg ex pi m V h zs patch = Err AssertionError,
      alg_metric D lg ex pi m V h zs params patch g dep = Err AssertionError,
      alg_eta D lg ex pi m V h zs params patch g dep = Err AssertionError,
      alg_ricci D lg ex pi m V h zs params patch g dep = Err AssertionError &
      alg_ricci_scalar D lg ex pi m V h zs params patch g dep = Err AssertionError].
Proof.
move=> hd hs; have E : alg_point m V zs patch = Err AssertionError.
  rewrite /alg_point; case: patch hs => [p /eqP sz|[/eqP sz nz]] /=; first by rewrite /v_dim_projective hd /= (negbTE sz).
  have [a [p [-> [pn _ _ _ [Ea _ _]]]]] := auto_lemma nz; rewrite /= /v_dim_projective hd /=.
  have := congr1 size Ea; rewrite size_map /affine_to_hom size_insert_1d /= addn1 => sa.
  by case: eqP => // E; move: sz; rewrite -sa E eqxx.
by rewrite /alg_kahler /alg_metric /alg_eta /alg_ricci /alg_ricci_scalar /alg_objects E.
Qed.

Lemma grad_same a p params g : size a = m.+1 -> size g = m.+1 -> v_coordinates V = Ok m.+2 ->
  v_grad_defining D V a params (PatchInt C p) = Ok g ->
  forall dep d, choose_dependent g dep = Ok d ->
  alg_objects D lg ex m V h a params (Some p) (Some (seq_row m.+1 g)) (Some d) =
  alg_objects D lg ex m V h a params (Some p) None dep.
Proof.
move=> sa sg hd hg dep d Ed; rewrite /alg_objects /alg_point /v_dim_projective /= hd /= sa eqxx /=.
case: alg_sections => //= s; rewrite /alg_grad seq_rowK // hg /=.
by rewrite seq_rowK // Ed.
Qed.

Lemma rescaled zs (c : C) : c != 0 ->
  alg_point m V [seq c * x | x <- zs] None = alg_point m V zs None.
Proof. by move=> c0; rewrite /alg_point auto_scale. Qed.
End Inputs.

Section Points.
Variable C : numClosedFieldType.
Variable D : forall n : nat, ('rV[C]_n -> C) -> 'rV[C]_n -> 'rV[C]_n.
Variables (lg ex : C -> C) (pi : C) (m : nat).
Variables (V : variety C) (B : basis) (h : hvalue C (size (power_matrix B))).
Variables (params : pyval C) (g : option 'rV[C]_m.+1) (dep : option Z).

Lemma same_point zs zs' p p' : alg_point m V zs p = alg_point m V zs' p' ->
  [/\ alg_kahler lg ex pi m V h zs p = alg_kahler lg ex pi m V h zs' p',
      alg_metric D lg ex pi m V h zs params p g dep = alg_metric D lg ex pi m V h zs' params p' g dep,
      alg_eta D lg ex pi m V h zs params p g dep = alg_eta D lg ex pi m V h zs' params p' g dep,
      alg_ricci D lg ex pi m V h zs params p g dep = alg_ricci D lg ex pi m V h zs' params p' g dep &
      alg_ricci_scalar D lg ex pi m V h zs params p g dep =
      alg_ricci_scalar D lg ex pi m V h zs' params p' g dep].
Proof. by move=> E; rewrite /alg_kahler /alg_metric /alg_eta /alg_ricci /alg_ricci_scalar /alg_objects E. Qed.

Lemma projective_functions zs (c : C) : c != 0 ->
  [/\ alg_kahler lg ex pi m V h [seq c * x | x <- zs] None = alg_kahler lg ex pi m V h zs None,
      alg_metric D lg ex pi m V h [seq c * x | x <- zs] params None g dep =
      alg_metric D lg ex pi m V h zs params None g dep,
      alg_eta D lg ex pi m V h [seq c * x | x <- zs] params None g dep =
      alg_eta D lg ex pi m V h zs params None g dep,
      alg_ricci D lg ex pi m V h [seq c * x | x <- zs] params None g dep =
      alg_ricci D lg ex pi m V h zs params None g dep &
      alg_ricci_scalar D lg ex pi m V h [seq c * x | x <- zs] params None g dep =
      alg_ricci_scalar D lg ex pi m V h zs params None g dep].
Proof. by move=> c0; apply: same_point; exact: rescaled. Qed.

Lemma explicit_functions zs a p : hom_to_affine_auto zs = Ok (a, p) ->
  [/\ alg_kahler lg ex pi m V h zs None = alg_kahler lg ex pi m V h a (Some (Z.of_nat p)),
      alg_metric D lg ex pi m V h zs params None g dep =
      alg_metric D lg ex pi m V h a params (Some (Z.of_nat p)) g dep,
      alg_eta D lg ex pi m V h zs params None g dep =
      alg_eta D lg ex pi m V h a params (Some (Z.of_nat p)) g dep,
      alg_ricci D lg ex pi m V h zs params None g dep =
      alg_ricci D lg ex pi m V h a params (Some (Z.of_nat p)) g dep &
      alg_ricci_scalar D lg ex pi m V h zs params None g dep =
      alg_ricci_scalar D lg ex pi m V h a params (Some (Z.of_nat p)) g dep].
Proof. by move=> E; apply: same_point; rewrite /alg_point E. Qed.

Lemma gradient_functions a p gr d : size a = m.+1 -> size gr = m.+1 -> v_coordinates V = Ok m.+2 ->
  v_grad_defining D V a params (PatchInt C p) = Ok gr -> choose_dependent gr dep = Ok d ->
  let G := Some (seq_row m.+1 gr) in
  [/\ alg_metric D lg ex pi m V h a params (Some p) None dep =
      alg_metric D lg ex pi m V h a params (Some p) G (Some d),
      alg_eta D lg ex pi m V h a params (Some p) None dep =
      alg_eta D lg ex pi m V h a params (Some p) G (Some d),
      alg_ricci D lg ex pi m V h a params (Some p) None dep =
      alg_ricci D lg ex pi m V h a params (Some p) G (Some d) &
      alg_ricci_scalar D lg ex pi m V h a params (Some p) None dep =
      alg_ricci_scalar D lg ex pi m V h a params (Some p) G (Some d)].
Proof.
move=> sa sg hd hg Ed G; have E := grad_same lg ex h sa sg hd hg Ed.
by rewrite /alg_metric /alg_eta /alg_ricci /alg_ricci_scalar /G E.
Qed.
End Points.
