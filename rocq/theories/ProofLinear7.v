(** The Ricci tensor under linear changes of the homogeneous coordinates. *)
From Coq Require Import ZArith Lia.
From mathcomp Require Import all_ssreflect all_algebra.
From mathcomp Require Import zify ssrZ ring.
From SsrMultinomials Require Import mpoly.
From Verif Require Import Base ModelUtil ModelProjective SpecMon ModelBasis ModelGeom ModelDiff ProofUtil ProofProjective
  Bridge Deriv Wirtinger Herm Herm2 ProofDiff ProofFS SpecGeom SpecBasis SpecSections SpecPatch PolyGrad ProofGeom3 ProofGeom4
  ProofSections ProofPatch Implicit Implicit2 ProofRicci SpecLinear ProofLinear ProofLinear2.
Delimit Scope Z_scope with Z.

Set Implicit Arguments.
Unset Strict Implicit.
Unset Printing Implicit Defensive.

Import GRing.Theory Num.Theory Order.POrderTheory.
Local Open Scope ring_scope.

#[local] Hint Extern 0 (is_true (0 < _)) => solve [apply: ltr01 | apply: ltr0Sn] : core.

Lemma hol2_scale (C : numClosedFieldType) n (f : 'rV[C]_n -> C) c x : hol2 f x -> hol2 (fun y => c * f y) x.
Proof. exact: hol2_mul (hol2_const c x). Qed.

Lemma hol2_sum (C : numClosedFieldType) n (I : finType) (f : I -> 'rV[C]_n -> C) x :
  (forall l, hol2 (f l) x) -> hol2 (fun y => \sum_l f l y) x.
Proof.
move=> H; have K : hol2 (fun y => \sum_(l <- enum I) f l y) x.
  elim: (enum I) => [|l s IH]; first by apply: hol2_ext (hol2_const 0 x) => y; rewrite big_nil.
  by apply: hol2_ext (hol2_add (H l) IH) => y; rewrite big_cons.
by apply: hol2_ext K => y; rewrite big_enum.
Qed.

Lemma hol2_ly (C : numClosedFieldType) n m (A : 'M[C]_m.+2) i (F : 'rV[C]_n -> 'rV[C]_m.+1) c x :
  (forall c, hol2 (fun y => F y 0 c) x) -> hol2 (fun y => ly A i (F y) 0 c) x.
Proof.
move=> H; apply: (@hol2_ext _ _ (fun y => \sum_l A l c * homr i (F y) 0 l)).
  by move=> y; rewrite lyE mxE; apply: eq_bigr => l _; rewrite mulrC.
by apply: hol2_sum => l; apply: hol2_scale; exact: hol2_homr.
Qed.

Section Two.
Variables (C : numClosedFieldType) (log : C -> C) (pi : C).
Hypothesis lgm : forall a b, 0 < a -> 0 < b -> log (a * b) = log a + log b.
Hypothesis lgn : forall y, 0 < y -> log_near log y.
Hypothesis pi0 : 0 < pi.
Variables (m k e : nat) (B : basis).
Notation n := m.+1.
Variables (A : 'M[C]_n.+1) (RR M : 'M[C]_(size (power_matrix B))) (P P' : {mpoly C[n.+1]}).
Hypothesis AR : lin_sections A RR.
Hypothesis HM : hermitian M.
Hypothesis uA : A \in unitmx.
Hypothesis k0 : (0 < k)%N.
Hypothesis HP : P \is e.-homog.
Hypothesis PP : forall x, peval P' x = peval P (x *m A).
Hypothesis HB : basis_class C n k B.
Notation Q p := (dehom p P).
Notation Q' p := (dehom p P').
Let M' := RR *m M *m adjm RR.
Let HM' : hermitian M'. Proof. exact: hermitian_congr. Qed.
Let o := on_patch k M P.
Let o' := on_patch k M' P'.
Hypothesis pos' : forall p dep y, peval (Q' p) y = 0 -> peval ((Q' p)^`M(dep)) y != 0 ->
  0 < ob_psi (o' p dep y) /\ exists2 g, ob_g_loc pi (o' p dep y) = Ok g & posdef g.
Hypothesis pos : forall p dep y, peval (Q p) y = 0 -> peval ((Q p)^`M(dep)) y != 0 ->
  0 < ob_psi (o p dep y) /\ exists2 g, ob_g_loc pi (o p dep y) = Ok g & posdef g.

Variables (i j : 'I_n.+1) (d d' : 'I_n) (z : 'rV[C]_n).
Hypothesis nz : ly A i z 0 j != 0.
Hypothesis Pz : peval (Q' i) z = 0.
Hypothesis gd : peval ((Q' i)^`M(d)) z != 0.
Let w := lw A i j z.
Hypothesis gd' : peval ((Q j)^`M(d')) w != 0.

Let Pw : peval (Q j) w = 0.
Proof.
move: Pz; rewrite (dehom_lin HP PP nz) => /eqP.
by rewrite mulf_eq0 expf_eq0 (negbTE nz) andbF /= => /eqP.
Qed.

Lemma kahler_lin y : ly A i y 0 j != 0 -> 0 < ob_psi (o j d' (lw A i j y)) ->
  ob_kahler log pi (o' i d y) =
  ob_kahler log pi (o j d' (lw A i j y)) + pi^-1 * log (ly A i y 0 j * (ly A i y 0 j)^*).
Proof.
move=> ny p0; rewrite -normCK.
have x0 : 0 < `|ly A i y 0 j| ^+ 2 by rewrite exprn_gt0 // normr_gt0.
have E := psi_lin HB M AR P P' ny d d'.
rewrite /ob_kahler /kahler.
have -> : log (ob_psi (o' i d y)) = k%:R * log (`|ly A i y 0 j| ^+ 2) + log (ob_psi (o j d' (lw A i j y))).
  by rewrite -(log_pow _ lgm) // -lgm ?exprn_gt0 ?normr_gt0 //; congr log; exact: E.
rewrite /= mulrDl addrC; congr (_ + _).
have kn : k%:R != 0 :> C by rewrite pnatr_eq0 -lt0n.
by rewrite invfM; move: (log _) (pi^-1) (k%:R) kn => L q c cn; field.
Qed.

Definition ratio y : C := \det A * ly A i y 0 j ^+ e * peval ((Q j)^`M(d')) (lw A i j y) *
  (ly A i y 0 j ^+ n.+1 * peval ((Q' i)^`M(d)) y)^-1.

Lemma det_lin y : ly A i y 0 j != 0 -> peval (Q' i) y = 0 -> peval ((Q' i)^`M(d)) y != 0 ->
  peval ((Q j)^`M(d')) (lw A i j y) != 0 -> 0 < ob_psi (o j d' (lw A i j y)) ->
  \det (res_mx (ob_g_loc pi (o' i d y))) =
  \det (res_mx (ob_g_loc pi (o j d' (lw A i j y)))) * (ratio y * (ratio y)^*).
Proof.
move=> ny Py gy gy' p0.
have gE : pgrad (Q' i) y 0 d != 0 by rewrite mxE.
have gE' : pgrad (Q j) (lw A i j y) 0 d' != 0 by rewrite mxE.
rewrite (@g_loc_dep _ _ _ pi (o' i d y) d) // (@g_loc_dep _ _ _ pi (o j d' (lw A i j y)) d') //=.
have V := vol_lemma (gpm pi (o' i d y)) gE; have V' := vol_lemma (gpm pi (o j d' (lw A i j y))) gE'.
have E : gpm pi (o' i d y) = lT A i j y *m gpm pi (o j d' (lw A i j y)) *m adjm (lT A i j y).
  by rewrite /o' /M'; apply: gpm_lin (lt0r_neq0 p0).
have := AA_lin HP PP ny Py (gpm pi (o j d' (lw A i j y))).
rewrite -E /AA -V -V' -normCK /ratio !normrM normfV normrM !normrX !mxE.
move: (`|\det A|) => q; move: (\det _) (\det _) => D' D.
have : `|ly A i y 0 j| != 0 by rewrite normr_eq0.
have : `|peval ((Q' i)^`M(d)) y| != 0 by rewrite normr_eq0.
move: (`|ly A i y 0 j|) (`|peval ((Q' i)^`M(d)) _|) (`|peval ((Q j)^`M(d')) _|) => x a b a0 x0.
have v0 : x ^+ n.+1 != 0 by rewrite expf_neq0.
rewrite ![(2 * _)%N]mulnC !exprM; move: (x ^+ n.+1) (x ^+ e) v0 => v u v0 H.
have -> : D = D * a ^+ 2 * v ^+ 2 / (a ^+ 2 * v ^+ 2) by field; rewrite a0 v0.
by rewrite H; field; rewrite a0 v0.
Qed.

Let x0 := others d z.
Let dA : \det A != 0. Proof. by move: uA; rewrite unitmxE unitfE. Qed.

Lemma two_lin : exists gi gj Ri Rj S,
  [/\ ob_g_loc pi (o' i d z) = Ok gi /\ ob_g_loc pi (o j d' w) = Ok gj,
     ob_ricci_loc pi (o' i d z) = Ok Ri /\ ob_ricci_loc pi (o j d' w) = Ok Rj,
     S \in unitmx, gi = S *m gj *m adjm S & Ri = S *m Rj *m adjm S].
Proof.
have [psiz [gi Egi pgi]] := pos' Pz gd; have [psiw [gj Egj pgj]] := pos Pw gd'.
have [phi [phx par loc]] := implicit_function Pz gd.
have [phi' [phx' par' loc']] := implicit_function Pw gd'.
rewrite -/x0 in phx par; set x0' := others d' w in phx' par'.
have {}par : local_parametrisation (peval (Q' i)) (fun y => o_grad (o' i d y)) d phi x0 by exact: par.
have {}par' : local_parametrisation (peval (Q j)) (fun y => o_grad (o j d' y)) d' phi' x0' by exact: par'.
have emb : embedding_contract (o' i d) (phi x0) d by rewrite phx; exact: poly_embedding.
have emb' : embedding_contract (o j d') (phi' x0') d' by rewrite phx'; exact: poly_embedding.
have sec : sections_contract (o' i d) (phi x0) M' k by exact: poly_sections.
have sec' : sections_contract (o j d') (phi' x0') M k by exact: poly_sections.
have p1 : ob_psi (o' i d (phi x0)) != 0 by rewrite phx lt0r_neq0.
have p1' : ob_psi (o j d' (phi' x0')) != 0 by rewrite phx' lt0r_neq0.
have dgi : 0 < \det gi by exact: posdef_det.
have dgj : 0 < \det gj by exact: posdef_det.
(* the mixed derivatives *)
have Ki : is_mixed (fun y => ob_kahler log pi (o' i d (phi y))) x0 gi.
  have := metric_pullback pi par emb HM' sec p1 (log := log).
  by rewrite phx => /(_ (lgn psiz))[g' Eg']; move: Egi; rewrite Eg' => -[->].
have Kj : is_mixed (fun y => ob_kahler log pi (o j d' (phi' y))) x0' gj.
  have := metric_pullback pi par' emb' HM sec' p1' (log := log).
  by rewrite phx' => /(_ (lgn psiw))[g' Eg']; move: Egj; rewrite Eg' => -[->].
have [Ri ERi Li] := ricci_pullback par emb HM' sec pi0 p1 (etrans (congr1 (fun y => ob_g_loc pi (o' i d y)) phx) Egi)
  (lt0r_neq0 dgi) (lgn dgi).
have [Rj ERj Lj] := ricci_pullback par' emb' HM sec' pi0 p1' (etrans (congr1 (fun y => ob_g_loc pi (o j d' y)) phx') Egj)
  (lt0r_neq0 dgj) (lgn dgj).
rewrite phx in ERi; rewrite phx' in ERj.
(* the change of coordinates *)
have Hphi c : hol2 (fun y => phi y 0 c) x0 by exact: phi_hol2 par emb.
pose xx y := ly A i (phi y) 0 j.
have Hxx : hol2 xx x0 by exact: hol2_ly.
have xx0 : xx x0 != 0 by rewrite /xx phx.
have HF c : hol2 (fun y => lw A i j (phi y) 0 c) x0.
  apply: hol2_ext (hol2_mul (hol2_ly A i (lift j c) Hphi) (hol2_inv xx0 Hxx)) => y; by rewrite mxE.
pose tau y := others d' (lw A i j (phi y)).
have Htau c : hol2 (fun y => tau y 0 c) x0 by apply: hol2_ext (HF (lift d' c)) => y; rewrite [RHS]mxE.
have tx : tau x0 = x0' by rewrite /tau phx.
have [J [rJ [rJ0 HJ HJ2]]] := hol2_jac Htau.
have [JF [rF [rF0 HJF _]]] := hol2_jac HF.
(* nearby points *)
have [r1 r10 H1] := hol2_nz Hxx xx0.
have Hg : hol2 (fun y => peval ((Q' i)^`M(d)) (phi y)) x0 by exact: hol2_peval.
have Hg' : hol2 (fun y => peval ((Q j)^`M(d')) (lw A i j (phi y))) x0 by exact: hol2_peval.
have [|r2 r20 H2] := hol2_nz Hg; first by rewrite phx.
have [|r3 r30 H3] := hol2_nz Hg'; first by rewrite phx.
have [r4 r40 [_ _ H4]] := par.
have [r5 r50 H5] := loc'.
have JFx : is_jac (fun y => lw A i j (phi y)) x0 (JF x0) by apply: HJF; rewrite subrr norm10.
have [r6 r60 H6] := jac_close JFx r50.
have [q1 [q10 q1a q1b]] := pos_min r10 r20; have [q2 [q20 q2a q2b]] := pos_min r30 r40.
have [q3 [q30 q3a q3b]] := pos_min q10 q20; have [q [q0 qa qb]] := pos_min q30 r60.
have near y : norm1 (y - x0) < q -> [/\ xx y != 0, peval (Q' i) (phi y) = 0, peval ((Q' i)^`M(d)) (phi y) != 0,
    peval ((Q j)^`M(d')) (lw A i j (phi y)) != 0 & phi' (tau y) = lw A i j (phi y)].
  move=> Hy; have Hy3 := lt_le_trans Hy qa; have Hy1 := lt_le_trans Hy3 q3a; have Hy2 := lt_le_trans Hy3 q3b.
  have ny := H1 y (lt_le_trans Hy1 q1a); have [Py _] := H4 y (lt_le_trans Hy2 q2b).
  split=> //; first exact: H2 (lt_le_trans Hy1 q1b).
    exact: H3 (lt_le_trans Hy2 q2a).
  apply: H5; first by have := H6 y (lt_le_trans Hy qb); rewrite phx.
  move: Py; rewrite (dehom_lin HP PP ny) => /eqP.
  by rewrite mulf_eq0 expf_eq0 (negbTE ny) andbF /= => /eqP.
have posF y : norm1 (y - x0) < q -> 0 < ob_psi (o j d' (lw A i j (phi y))).
  move=> /near[ny Py gy gy' _]; apply: (pos _ gy').1.
  move: Py; rewrite (dehom_lin HP PP ny) => /eqP.
  by rewrite mulf_eq0 expf_eq0 (negbTE ny) andbF /= => /eqP.
have Eg a b : gi a b = (J x0 *m gj *m adjm (J x0)) a b.
  rewrite (mixed_unique Ki (H' := fun a b => \sum_c \sum_l J x0 a c * gj c l * (J x0 b l)^*)).
    rewrite mxE exchange_big; apply: eq_bigr => l _ /=; rewrite mxE mulr_suml.
    by apply: eq_bigr => c _; rewrite mxE.
  have K2 := mixed_log pi^-1 lgn Hxx xx0 (mixed_comp rJ0 HJ HJ2 (eq_ind_r (fun t => is_mixed _ t gj) Kj tx)).
  apply: mixed_near q0 _ K2 => y Hy.
  have [ny Py gy gy' Ey] := near y Hy.
  by rewrite Ey -kahler_lin // posF.
have Hr : hol2 (fun y => ratio (phi y)) x0.
  apply: hol2_mul (hol2_mul (hol2_scale _ (hol2_exp e Hxx)) Hg') (hol2_inv _ (hol2_mul (hol2_exp n.+1 Hxx) Hg)).
  by rewrite mulf_neq0 ?expf_neq0 // phx.
have rnz y : norm1 (y - x0) < q -> ratio (phi y) != 0.
  by move=> /near[ny _ gy gy' _]; rewrite /ratio !mulf_eq0 invr_eq0 mulf_eq0 !expf_eq0 !negb_or !negb_and dA ny gy gy' !orbT.
have ER a b : Ri a b = (J x0 *m Rj *m adjm (J x0)) a b.
  rewrite (mixed_unique Li (H' := fun a b => \sum_c \sum_l J x0 a c * Rj c l * (J x0 b l)^*)).
    rewrite mxE exchange_big; apply: eq_bigr => l _ /=; rewrite mxE mulr_suml.
    by apply: eq_bigr => c _; rewrite mxE.
  have r0' : ratio (phi x0) != 0 by apply: rnz; rewrite subrr norm10.
  have K2 := mixed_log (-1) lgn Hr r0' (mixed_comp rJ0 HJ HJ2 (eq_ind_r (fun t => is_mixed _ t Rj) Lj tx)).
  apply: mixed_near q0 _ K2 => y Hy.
  have [ny Py gy gy' Ey] := near y Hy.
  have Pw' : peval (Q j) (lw A i j (phi y)) = 0.
    move: Py; rewrite (dehom_lin HP PP ny) => /eqP.
    by rewrite mulf_eq0 expf_eq0 (negbTE ny) andbF /= => /eqP.
  have [pp [g Eg' pg]] := pos Pw' gy'.
  rewrite Ey (det_lin ny Py gy gy' pp) Eg' /= [in RHS]lgm; first by rewrite mulN1r opprD.
    exact: posdef_det.
  by rewrite -normCK exprn_gt0 // normr_gt0 rnz.
have {}Eg : gi = J x0 *m gj *m adjm (J x0) by apply/matrixP.
have {}ER : Ri = J x0 *m Rj *m adjm (J x0) by apply/matrixP.
exists gi, gj, Ri, Rj, (J x0); split=> //.
move: (posdef_unit pgi); rewrite Eg !unitmx_mul => /andP[/andP[//]].
Qed.

Lemma scalar_two_lin : exists r, ob_ricci_scalar pi (o' i d z) = Ok r /\ ob_ricci_scalar pi (o j d' w) = Ok r.
Proof.
have [gi [gj [Ri [Rj [S [[Egi Egj] [ERi ERj] uS Eg ER]]]]]] := two_lin.
have [psiz [g Eg1 pg]] := pos' Pz gd; move: (Eg1); rewrite Egi => -[E]; subst g.
have [psiw [g Eg2 pg']] := pos Pw gd'; move: (Eg2); rewrite Egj => -[E]; subst g.
have emb : embedding_contract (o' i d) z d by exact: poly_embedding.
have emb' : embedding_contract (o j d') w d' by exact: poly_embedding.
have sec : sections_contract (o' i d) z M' k by exact: poly_sections.
have sec' : sections_contract (o j d') w M k by exact: poly_sections.
have dgi : 0 < \det gi by exact: posdef_det.
have dgj : 0 < \det gj by exact: posdef_det.
have [J1 [R1 [_ _ _]]] := ricci_thm HM' sec emb k0 pi0 (lt0r_neq0 psiz) Egi (lt0r_neq0 dgi) (lgn dgi).
rewrite ERi => -[<-] ->.
have [J2 [R2 [_ _ _]]] := ricci_thm HM sec' emb' k0 pi0 (lt0r_neq0 psiw) Egj (lt0r_neq0 dgj) (lgn dgj).
rewrite ERj => -[<-] ->.
exists (\tr (Rj *m invmx gj)); split=> //; congr Ok.
have ugi := posdef_unit pg; have ugj := posdef_unit pg'.
have E : gj *m (adjm S *m invmx gi *m S) = 1%:M.
  have := mulmxV ugi; rewrite {1}Eg -!mulmxA => /(congr1 (mulmx (invmx S))).
  rewrite mulKmx // mulmx1 => /(congr1 (mulmx^~ S)).
  by rewrite mulVmx // -!mulmxA.
have -> : invmx gj = adjm S *m invmx gi *m S by rewrite -[RHS](mulKmx ugj) E mulmx1.
by rewrite ER -!mulmxA mxtrace_mulC -!mulmxA.
Qed.
End Two.
