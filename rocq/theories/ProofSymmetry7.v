(** The curvature at moved points. *)
From Coq Require Import ZArith Lia Reals.
From mathcomp Require Import all_ssreflect all_algebra all_fingroup.
From mathcomp Require Import zify ssrZ ring.
From mathcomp Require Import complex.
From SsrMultinomials Require Import mpoly.
From Verif Require Import Base ModelUtil ModelProjective ModelExpr ModelPoly ModelHom ModelVariety ModelBasis ModelGeom ModelDonaldson ModelAlg.
From Verif Require Import SpecGeom SpecBasis SpecSections SpecPatch SpecAlg SpecDonaldson SpecPipe SpecStep SpecSymmetry Herm Herm2.
From Verif Require Import Deriv Wirtinger Bridge PolyGrad RealField ComplexR ProofComplex ProofDiff Implicit Implicit2 ProofGeom ProofGeom2 ProofGeom3 ProofGeom4 ProofSections ProofPatch ProofRicci ProofAlg ProofAlg2 ProofAlg4 ProofAlg6 ProofRicci2 ProofSymmetry ProofSymmetry2 ProofSymmetry5 ProofSymmetry6.
Delimit Scope Z_scope with Z.

Set Implicit Arguments.
Unset Strict Implicit.
Unset Printing Implicit Defensive.

Import GRing.Theory Num.Theory Order.POrderTheory.
Local Open Scope ring_scope.

#[local] Hint Extern 0 (is_true (0 < _)) => solve [apply: ltr01 | apply: ltr0Sn] : core.

Section Two.
Variables (C : numClosedFieldType) (log : C -> C) (pi : C).
Hypothesis lgm : forall a b, 0 < a -> 0 < b -> log (a * b) = log a + log b.
Hypothesis lgn : forall y, 0 < y -> log_near log y.
Hypothesis pi0 : 0 < pi.
Variables (m k e : nat) (B : basis).
Notation n := m.+1.
Variables (M : 'M[C]_(size (power_matrix B))) (P : {mpoly C[n.+1]}).
Hypothesis HM : hermitian M.
Hypothesis k0 : (0 < k)%N.
Hypothesis HP : P \is e.-homog.
Hypothesis HB : basis_class C n k B.
Notation Q p := (dehom p P).
Let o := on_patch k M P.
Hypothesis pos : forall p dep y, peval (Q p) y = 0 -> peval ((Q p)^`M(dep)) y != 0 ->
  0 < ob_psi (o p dep y) /\ exists2 g, ob_g_loc pi (o p dep y) = Ok g & posdef g.

Variables (l : 'I_n.+1 -> C) (s : {perm 'I_n.+1}) (sg : {perm 'I_(size (power_matrix B))}).
Hypothesis l1 : forall j, `|l j| = 1.
Variable c0 : C.
Hypotheses (c01 : `|c0| = 1) (Pl : forall x, peval P (move l s x) = c0 * peval P x).
Hypothesis Hsg : permutes_basis s sg.
Hypothesis Ms : h_symmetric l sg M.

Variables (j : 'I_n.+1) (d d' : 'I_n) (z : 'rV[C]_n).
Notation i := (s j).
Notation mv := (mv l s j).
Hypothesis Pz : peval (Q i) z = 0.
Hypothesis gd : peval ((Q i)^`M(d)) z != 0.
Let w := mv z.
Hypothesis gd' : peval ((Q j)^`M(d')) w != 0.

Lemma P_mv y : peval (Q i) y = 0 -> peval (Q j) (mv y) = 0.
Proof. by move=> E; rewrite (dehom_mv l1 j HP Pl) E mulr0. Qed.
Let Pw : peval (Q j) w = 0. Proof. exact: P_mv. Qed.

Lemma kahler_mv y : ob_kahler log pi (o i d y) = ob_kahler log pi (o j d' (mv y)).
Proof. by rewrite /ob_kahler /o (psi_mv P l1 HB Hsg Ms j d d'). Qed.

Definition ratio y : C := peval ((Q j)^`M(d')) (mv y) * (peval ((Q i)^`M(d)) y)^-1.

Lemma det_mv y : peval ((Q i)^`M(d)) y != 0 ->
  peval ((Q j)^`M(d')) (mv y) != 0 -> 0 < ob_psi (o j d' (mv y)) ->
  \det (res_mx (ob_g_loc pi (o i d y))) =
  \det (res_mx (ob_g_loc pi (o j d' (mv y)))) * (ratio y * (ratio y)^*).
Proof.
move=> gy gy' p0.
have gE : pgrad (Q i) y 0 d != 0 by rewrite mxE.
have gE' : pgrad (Q j) (mv y) 0 d' != 0 by rewrite mxE.
rewrite (@g_loc_dep _ _ _ pi (o i d y) d) // (@g_loc_dep _ _ _ pi (o j d' (mv y)) d') //=.
have V := vol_lemma (gpm pi (o i d y)) gE; have V' := vol_lemma (gpm pi (o j d' (mv y))) gE'.
have pi' : ob_psi (o i d y) != 0 by rewrite /o -(psi_mv P l1 HB Hsg Ms j d d') lt0r_neq0.
have := AA_mv HP l1 c01 Pl HB Hsg pi HM Ms (j := j) (d := d) d' (z := y) pi'.
rewrite /AA -V -V' -normCK /ratio !normrM normfV !mxE.
move: (\det _) (\det _) => D' D.
have : `|peval ((Q i)^`M(d)) y| != 0 by rewrite normr_eq0.
move: (`|peval ((Q i)^`M(d)) _|) (`|peval ((Q j)^`M(d')) _|) => a b a0 H.
have -> : D = D * a ^+ 2 / (a ^+ 2) by field.
by rewrite H; field.
Qed.

Let x0 := others d z.

Lemma two_points : exists gi gj Ri Rj A,
  [/\ ob_g_loc pi (o i d z) = Ok gi /\ ob_g_loc pi (o j d' w) = Ok gj,
     ob_ricci_loc pi (o i d z) = Ok Ri /\ ob_ricci_loc pi (o j d' w) = Ok Rj,
     A \in unitmx, gi = A *m gj *m adjm A & Ri = A *m Rj *m adjm A].
Proof.
have [psiz [gi Egi pgi]] := pos Pz gd; have [psiw [gj Egj pgj]] := pos Pw gd'.
have [phi [phx par loc]] := implicit_function Pz gd.
have [phi' [phx' par' loc']] := implicit_function Pw gd'.
rewrite -/x0 in phx par; set x0' := others d' w in phx' par'.
have {}par : local_parametrisation (peval (Q i)) (fun y => o_grad (o i d y)) d phi x0 by exact: par.
have {}par' : local_parametrisation (peval (Q j)) (fun y => o_grad (o j d' y)) d' phi' x0' by exact: par'.
have emb : embedding_contract (o i d) (phi x0) d by rewrite phx; exact: poly_embedding.
have emb' : embedding_contract (o j d') (phi' x0') d' by rewrite phx'; exact: poly_embedding.
have sec : sections_contract (o i d) (phi x0) M k by exact: poly_sections.
have sec' : sections_contract (o j d') (phi' x0') M k by exact: poly_sections.
have p1 : ob_psi (o i d (phi x0)) != 0 by rewrite phx lt0r_neq0.
have p1' : ob_psi (o j d' (phi' x0')) != 0 by rewrite phx' lt0r_neq0.
have dgi : 0 < \det gi by exact: posdef_det.
have dgj : 0 < \det gj by exact: posdef_det.
(* the mixed derivatives *)
have Ki : is_mixed (fun y => ob_kahler log pi (o i d (phi y))) x0 gi.
  have := metric_pullback pi par emb HM sec p1 (log := log).
  by rewrite phx => /(_ (lgn psiz))[g' Eg']; move: Egi; rewrite Eg' => -[->].
have Kj : is_mixed (fun y => ob_kahler log pi (o j d' (phi' y))) x0' gj.
  have := metric_pullback pi par' emb' HM sec' p1' (log := log).
  by rewrite phx' => /(_ (lgn psiw))[g' Eg']; move: Egj; rewrite Eg' => -[->].
have [Ri ERi Li] := ricci_pullback par emb HM sec pi0 p1 (etrans (congr1 (fun y => ob_g_loc pi (o i d y)) phx) Egi)
  (lt0r_neq0 dgi) (lgn dgi).
have [Rj ERj Lj] := ricci_pullback par' emb' HM sec' pi0 p1' (etrans (congr1 (fun y => ob_g_loc pi (o j d' y)) phx') Egj)
  (lt0r_neq0 dgj) (lgn dgj).
rewrite phx in ERi; rewrite phx' in ERj.
(* the change of coordinates *)
have Hphi c : hol2 (fun y => phi y 0 c) x0 by exact: phi_hol2 par emb.
have HF c : hol2 (fun y => mv (phi y) 0 c) x0.
  by apply: hol2_ext (hol2_mul (hol2_const (l (lift j c) / l j) x0) (hol2_homr i (s (lift j c)) Hphi)) => y; rewrite mxE.
pose tau y := others d' (mv (phi y)).
have Htau c : hol2 (fun y => tau y 0 c) x0 by apply: hol2_ext (HF (lift d' c)) => y; rewrite [RHS]mxE.
have tx : tau x0 = x0' by rewrite /tau phx.
have [J [rJ [rJ0 HJ HJ2]]] := hol2_jac Htau.
have [JF [rF [rF0 HJF _]]] := hol2_jac HF.
(* nearby points *)
have Hg : hol2 (fun y => peval ((Q i)^`M(d)) (phi y)) x0 by exact: hol2_peval.
have Hg' : hol2 (fun y => peval ((Q j)^`M(d')) (mv (phi y))) x0 by exact: hol2_peval.
have [|r2 r20 H2] := hol2_nz Hg; first by rewrite phx.
have [|r3 r30 H3] := hol2_nz Hg'; first by rewrite phx.
have [r4 r40 [_ _ H4]] := par.
have [r5 r50 H5] := loc'.
have JFx : is_jac (fun y => mv (phi y)) x0 (JF x0) by apply: HJF; rewrite subrr norm10.
have [r6 r60 H6] := jac_close JFx r50.
have [q2 [q20 q2a q2b]] := pos_min r30 r40.
have [q3 [q30 q3a q3b]] := pos_min r20 q20; have [q [q0 qa qb]] := pos_min q30 r60.
have near y : norm1 (y - x0) < q -> [/\ peval (Q i) (phi y) = 0, peval ((Q i)^`M(d)) (phi y) != 0,
    peval ((Q j)^`M(d')) (mv (phi y)) != 0 & phi' (tau y) = mv (phi y)].
  move=> Hy; have Hy3 := lt_le_trans Hy qa; have Hy2 := lt_le_trans Hy3 q3b.
  have [Py _] := H4 y (lt_le_trans Hy2 q2b).
  split=> //; first exact: H2 (lt_le_trans Hy3 q3a).
    exact: H3 (lt_le_trans Hy2 q2a).
  by apply: H5; [have := H6 y (lt_le_trans Hy qb); rewrite phx|exact: P_mv].
have posF y : norm1 (y - x0) < q -> 0 < ob_psi (o j d' (mv (phi y))).
  by move=> /near[Py gy gy' _]; apply: (pos _ gy').1; exact: P_mv.
have Eg a b : gi a b = (J x0 *m gj *m adjm (J x0)) a b.
  rewrite (mixed_unique Ki (H' := fun a b => \sum_c \sum_l J x0 a c * gj c l * (J x0 b l)^*)).
    rewrite mxE exchange_big; apply: eq_bigr => l' _ /=; rewrite mxE mulr_suml.
    by apply: eq_bigr => c _; rewrite mxE.
  have K2 := mixed_comp rJ0 HJ HJ2 (eq_ind_r (fun t => is_mixed _ t gj) Kj tx).
  apply: mixed_near q0 _ K2 => y Hy.
  have [Py gy gy' Ey] := near y Hy.
  by rewrite Ey -kahler_mv.
have Hr : hol2 (fun y => ratio (phi y)) x0.
  by apply: hol2_mul Hg' (hol2_inv _ Hg); rewrite phx.
have rnz y : norm1 (y - x0) < q -> ratio (phi y) != 0.
  by move=> /near[_ gy gy' _]; rewrite /ratio mulf_neq0 // invr_eq0.
have ER a b : Ri a b = (J x0 *m Rj *m adjm (J x0)) a b.
  rewrite (mixed_unique Li (H' := fun a b => \sum_c \sum_l J x0 a c * Rj c l * (J x0 b l)^*)).
    rewrite mxE exchange_big; apply: eq_bigr => l' _ /=; rewrite mxE mulr_suml.
    by apply: eq_bigr => c _; rewrite mxE.
  have r0' : ratio (phi x0) != 0 by apply: rnz; rewrite subrr norm10.
  have K2 := mixed_log (-1) lgn Hr r0' (mixed_comp rJ0 HJ HJ2 (eq_ind_r (fun t => is_mixed _ t Rj) Lj tx)).
  apply: mixed_near q0 _ K2 => y Hy.
  have [Py gy gy' Ey] := near y Hy.
  have Pw' := P_mv Py.
  have [pp [g Eg' pg]] := pos Pw' gy'.
  rewrite Ey (det_mv gy gy' pp) Eg' /= [in RHS]lgm; first by rewrite mulN1r opprD.
    exact: posdef_det.
  by rewrite -normCK exprn_gt0 // normr_gt0 rnz.
have {}Eg : gi = J x0 *m gj *m adjm (J x0) by apply/matrixP.
have {}ER : Ri = J x0 *m Rj *m adjm (J x0) by apply/matrixP.
exists gi, gj, Ri, Rj, (J x0); split=> //.
move: (posdef_unit pgi); rewrite Eg !unitmx_mul => /andP[/andP[//]].
Qed.

Lemma scalar_two_points : exists r, ob_ricci_scalar pi (o i d z) = Ok r /\ ob_ricci_scalar pi (o j d' w) = Ok r.
Proof.
have [gi [gj [Ri [Rj [A [[Egi Egj] [ERi ERj] uA Eg ER]]]]]] := two_points.
have [psiz [g Eg1 pg]] := pos Pz gd; move: (Eg1); rewrite Egi => -[E]; subst g.
have [psiw [g Eg2 pg']] := pos Pw gd'; move: (Eg2); rewrite Egj => -[E]; subst g.
have emb : embedding_contract (o i d) z d by exact: poly_embedding.
have emb' : embedding_contract (o j d') w d' by exact: poly_embedding.
have sec : sections_contract (o i d) z M k by exact: poly_sections.
have sec' : sections_contract (o j d') w M k by exact: poly_sections.
have dgi : 0 < \det gi by exact: posdef_det.
have dgj : 0 < \det gj by exact: posdef_det.
have [J1 [R1 [_ _ _]]] := ricci_thm HM sec emb k0 pi0 (lt0r_neq0 psiz) Egi (lt0r_neq0 dgi) (lgn dgi).
rewrite ERi => -[<-] ->.
have [J2 [R2 [_ _ _]]] := ricci_thm HM sec' emb' k0 pi0 (lt0r_neq0 psiw) Egj (lt0r_neq0 dgj) (lgn dgj).
rewrite ERj => -[<-] ->.
exists (\tr (Rj *m invmx gj)); split=> //; congr Ok.
have ugi := posdef_unit pg; have ugj := posdef_unit pg'.
have E : gj *m (adjm A *m invmx gi *m A) = 1%:M.
  have := mulmxV ugi; rewrite {1}Eg -!mulmxA => /(congr1 (mulmx (invmx A))).
  rewrite mulKmx // mulmx1 => /(congr1 (mulmx^~ A)).
  by rewrite mulVmx // -!mulmxA.
have -> : invmx gj = adjm A *m invmx gi *m A by rewrite -[RHS](mulKmx ugj) E mulmx1.
by rewrite ER -!mulmxA mxtrace_mulC -!mulmxA.
Qed.
End Two.

Delimit Scope R_scope with RR.
Section Points.
Variable D : forall n : nat, ('rV[CR]_n -> CR) -> 'rV[CR]_n -> 'rV[CR]_n.
Hypothesis hD : diff_ok D.
Variables (lg ex : CR -> CR) (m e : nat).
Variables (V : variety CR) (ps : seq CR) (Q : {mpoly CR[m.+2]}).
Hypotheses (hV : hypersurface V ps m e) (hQ : defined_by V ps Q).
Variables (k : nat) (B : basis).
Hypotheses (hB : basis_for k Q B) (k0 : (0 < k)%N).
Variable M : 'M[CR]_(size (power_matrix B)).
Hypotheses (HM : hermitian M) (pd : posdef M).
Variables (l : 'I_m.+2 -> CR) (s : {perm 'I_m.+2}) (sg : {perm 'I_(size (power_matrix B))}).
Hypothesis l1 : forall j, `|l j| = 1.
Hypothesis Ql : exists2 c, `|c| = 1 & forall x, peval Q (move l s x) = c * peval Q x.
Hypothesis Hsg : permutes_basis s sg.
Hypothesis Ms : h_symmetric l sg M.

Lemma ricci_moved x i d a g : smooth_at D V ps x i d a g -> forall c : CR, c != 0 ->
  let metric_of y := alg_metric D lg ex (rc PI) m V (HMat M) (row_seq y) (PArr ps) None None None in
  let ricci_of y := alg_ricci D lg ex (rc PI) m V (HMat M) (row_seq y) (PArr ps) None None None in
  let scalar_of y := alg_ricci_scalar D lg ex (rc PI) m V (HMat M) (row_seq y) (PArr ps) None None None in
  let y := c *: move l s x in
  exists i0 d0 j0 b0 G R G' R' A r,
  [/\ metric_of x = Ok (G, i0, d0), metric_of y = Ok (G', j0, b0), ricci_of x = Ok (R, i0, d0) & ricci_of y = Ok (R', j0, b0)] /\
  [/\ A \in unitmx, G = A *m G' *m adjm A, R = A *m R' *m adjm A, scalar_of x = Ok r & scalar_of y = Ok r].
Proof.
move=> sm c c0 metric_of ricci_of scalar_of y.
have HQ := V_homog hV hQ; have hC := for_class HQ hB; have [q q1 hq] := Ql.
have [Qx xi aE Qi gz] := smooth_code hD hV hQ sm.
have [d' [g' smy]] := moved_smooth hD hV hQ l1 Ql sm c0.
set j := (s^-1)%g i in smy; have sj : s j = i by exact: permKV.
rewrite -/y in smy.
have [i0 [d0 [G1 [G [R1 [R [A [r [[E1 E2 E3 E4] [uA EG ER S1 S2]]]]]]]]]] := ricci_wrap hD lg ex hV hQ hB k0 HM pd sm.
have [j0 [b0 [G1' [G' [R1' [R' [A' [r' [[F1 F2 F3 F4] [uA' FG FR T1 T2]]]]]]]]]] := ricci_wrap hD lg ex hV hQ hB k0 HM pd smy.
have [hx _ ha hg gd] := sm.
have bne := B_ne hD hV hQ hB k0 pi_pos HM pd hx xi ha hg gd.
have [_ yj _ hgy gdy] := smy.
have gw : peval ((dehom j Q)^`M(d')) (affr j y) != 0.
  by move: gdy; move: hgy; rewrite (grad_code hD hV hQ) => -[<-]; rewrite nth_row_seq mxE.
have yE : affr j y = mv l s j (affr i x) by rewrite -sj /y affr_mv // sj.
have pos := for_positive HQ hB k0 pi_pos HM pd.
have Qi' : peval (dehom (s j) Q) (affr i x) = 0 by rewrite sj.
have gz' : peval ((dehom (s j) Q)^`M(d)) (affr i x) != 0 by rewrite sj.
have gw' : peval ((dehom j Q)^`M(d')) (mv l s j (affr i x)) != 0 by rewrite -yE.
have [gi [gj [Ri [Rj [T [[Egi Egj] [ERi ERj] uT Eg EE]]]]]] :=
  two_points clog_pos_mul clog_near pi_pos HM HQ hC pos l1 q1 hq Hsg Ms Qi' gz' gw'.
have [t [t1 t2]] := scalar_two_points clog_pos_mul clog_near pi_pos HM k0 HQ hC pos l1 q1 hq Hsg Ms Qi' gz' gw'.
rewrite sj -yE in Egi Egj ERi ERj t1 t2.
have O1 := objects_gen hD lg ex hV hQ hC bne M (erefl : choose_dependent _ (Some (Z.of_nat d)) = _) (or_introl erefl) gz.
have O2 := objects_gen hD lg ex hV hQ hC bne M (erefl : choose_dependent _ (Some (Z.of_nat d')) = _) (or_introl erefl) gw.
move: E1 E3 S1; rewrite aE /alg_metric /alg_ricci /alg_ricci_scalar O1 /= Egi ERi t1 /= => -[G1E] [R1E] [rE].
move: F1 F3 T1; rewrite /alg_metric /alg_ricci /alg_ricci_scalar O2 /= Egj ERj t2 /= => -[G1E'] [R1E'] [rE'].
exists i0, d0, j0, b0, G, R, G', R', (invmx A *m T *m A'), t; split=> //.
have K X X1 X' X1' : X1 = A *m X *m adjm A -> X1' = A' *m X' *m adjm A' -> X1 = T *m X1' *m adjm T ->
    X = invmx A *m T *m A' *m X' *m adjm (invmx A *m T *m A').
  move=> H1 H2 H3; have -> : X = invmx A *m X1 *m adjm (invmx A).
    by rewrite H1 -!mulmxA mulKmx // -adjm_mul mulVmx // adjm1 mulmx1.
  by rewrite H3 H2 !adjm_mul !mulmxA.
split; [by rewrite !unitmx_mul unitmx_inv uA uT uA'|..].
- by apply: K EG FG _; rewrite -G1E -G1E'.
- by apply: K ER FR _; rewrite -R1E -R1E'.
- by rewrite /scalar_of S2 rE.
by rewrite /scalar_of T2 rE'.
Qed.
End Points.
