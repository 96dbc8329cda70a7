(** The Ricci tensor and its trace in two systems of local coordinates. *)
From Coq Require Import ZArith Lia.
From mathcomp Require Import all_ssreflect all_algebra.
From mathcomp Require Import zify ssrZ ring.
From SsrMultinomials Require Import mpoly.
From Verif Require Import Base ModelUtil ModelProjective SpecMon ModelBasis ModelGeom ModelDiff ProofUtil ProofProjective
  Bridge Deriv Wirtinger Herm Herm2 ProofDiff ProofFS SpecGeom SpecBasis SpecSections SpecPatch PolyGrad ProofGeom3 ProofGeom4
  ProofSections ProofPatch Implicit Implicit2.
Delimit Scope Z_scope with Z.

Set Implicit Arguments.
Unset Strict Implicit.
Unset Printing Implicit Defensive.

Import GRing.Theory Num.Theory Order.POrderTheory.
Local Open Scope ring_scope.

#[local] Hint Extern 0 (is_true (0 < _)) => solve [apply: ltr01 | apply: ltr0Sn] : core.

Section Hol.
Variables (C : numClosedFieldType) (n : nat).
Implicit Types (f : 'rV[C]_n -> C) (x : 'rV[C]_n).

(** twice complex differentiable *)
Definition hol2 f x : Prop := exists (g : 'rV[C]_n -> 'rV[C]_n) (r : C),
  [/\ 0 < r, forall y, norm1 (y - x) < r -> is_grad f y (g y) & forall a, exists t, is_grad (fun y => g y 0 a) x t].

Lemma hol2_grad f x : hol2 f x -> exists t, is_grad f x t.
Proof. by case=> g [r [r0 H _]]; exists (g x); apply: H; rewrite subrr norm10. Qed.

Lemma hol2_const c x : hol2 (fun=> c) x.
Proof.
exists (fun=> 0), 1; split=> // [y _|a]; first exact: is_grad_const.
by eexists; apply: is_grad_ext (is_grad_const 0 x) => y; rewrite mxE.
Qed.

Lemma hol2_coord i x : hol2 (fun y => y 0 i) x.
Proof.
exists (fun=> delta_mx 0 i), 1; split=> // [y _|a]; first exact: is_grad_coord.
by eexists; exact: is_grad_const.
Qed.

Lemma hol2_ext f f' x : f =1 f' -> hol2 f x -> hol2 f' x.
Proof.
move=> E [g [r [r0 H1 H2]]]; exists g, r; split=> // y Hy; exact: is_grad_ext (H1 y Hy).
Qed.

Lemma hol2_add f1 f2 x : hol2 f1 x -> hol2 f2 x -> hol2 (fun y => f1 y + f2 y) x.
Proof.
move=> [g1 [r1 [r10 H1 D1]]] [g2 [r2 [r20 H2 D2]]].
have [r [r0 ra rb]] := pos_min r10 r20.
exists (fun y => g1 y + g2 y), r; split=> // [y Hy|a].
  by apply: is_grad_add; [exact: H1 (lt_le_trans Hy ra)|exact: H2 (lt_le_trans Hy rb)].
have [t1 K1] := D1 a; have [t2 K2] := D2 a; exists (t1 + t2).
by apply: is_grad_ext (is_grad_add K1 K2) => y; rewrite mxE.
Qed.

Lemma hol2_mul f1 f2 x : hol2 f1 x -> hol2 f2 x -> hol2 (fun y => f1 y * f2 y) x.
Proof.
move=> h1 h2; have [u1 U1] := hol2_grad h1; have [u2 U2] := hol2_grad h2.
move: h1 h2 => [g1 [r1 [r10 H1 D1]]] [g2 [r2 [r20 H2 D2]]].
have [r [r0 ra rb]] := pos_min r10 r20.
exists (fun y => f1 y *: g2 y + f2 y *: g1 y), r; split=> // [y Hy|a].
  by apply: is_grad_mul; [exact: H1 (lt_le_trans Hy ra)|exact: H2 (lt_le_trans Hy rb)].
have [t1 K1] := D1 a; have [t2 K2] := D2 a; eexists.
by apply: is_grad_ext (is_grad_add (is_grad_mul U1 K2) (is_grad_mul U2 K1)) => y; rewrite !mxE.
Qed.

Lemma hol2_nz f x : hol2 f x -> f x != 0 ->
  exists2 r : C, 0 < r & forall y, norm1 (y - x) < r -> f y != 0.
Proof.
move=> /hol2_grad[t /wgrad_hol/wgrad_diff H] nz; have [r r0 Hr] := diff_nonzero H nz.
by exists r => // y /Hr[].
Qed.

Lemma hol2_inv f x : f x != 0 -> hol2 f x -> hol2 (fun y => (f y)^-1) x.
Proof.
move=> nz h; have [u U] := hol2_grad h; have [s s0 Hs] := hol2_nz h nz.
move: h => [g [r1 [r10 H D]]].
have [r [r0 ra rb]] := pos_min r10 s0.
have V := is_grad_inv nz U.
exists (fun y => - (f y) ^- 2 *: g y), r; split=> // [y Hy|a].
  by apply: is_grad_inv; [exact: Hs (lt_le_trans Hy rb)|exact: H (lt_le_trans Hy ra)].
have [t K] := D a; eexists.
apply: is_grad_ext (is_grad_mul (is_grad_opp (is_grad_mul V V)) K) => y; rewrite !mxE.
by rewrite -invfM -expr2.
Qed.

Lemma hol2_exp f x k : hol2 f x -> hol2 (fun y => f y ^+ k) x.
Proof.
move=> h; elim: k => [|k IH]; first exact: hol2_const.
by apply: hol2_ext (hol2_mul h IH) => y; rewrite exprS.
Qed.

Lemma hol2_peval p (Q : {mpoly C[p]}) (F : 'rV[C]_n -> 'rV[C]_p) x :
  (forall i, hol2 (fun y => F y 0 i) x) -> hol2 (fun y => peval Q (F y)) x.
Proof.
move=> H; elim/mpoly_ring_ind: Q => [c|i|P Q IHP IHQ|P Q IHP IHQ].
- by apply: hol2_ext (hol2_const c x) => y; rewrite /peval mevalC.
- by apply: hol2_ext (H i) => y; rewrite /peval mevalXU.
- by apply: hol2_ext (hol2_add IHP IHQ) => y; rewrite /peval mevalD.
by apply: hol2_ext (hol2_mul IHP IHQ) => y; rewrite /peval mevalM.
Qed.

Lemma mixed_unique f x H H' : is_mixed f x H -> is_mixed f x H' -> forall a b, H a b = H' a b.
Proof.
move=> [df [dc [r [r0 [h1 h2]]]]] [df' [dc' [r' [r'0 [h1' h2']]]]] a b.
have [s [s0 sa sb]] := pos_min r0 r'0.
have [t Ht] := h2 a; have [t' Ht'] := h2' a.
have K : is_wgrad (fun y => df' y a) x t (H a).
  apply: wgrad_near s0 _ Ht => v Hv.
  by have [->] := wgrad_unique (h1 _ (lt_le_trans Hv sa)) (h1' _ (lt_le_trans Hv sb)).
by have [_ ->] := wgrad_unique K Ht'.
Qed.

Lemma mixed_near f f' x H (r : C) : 0 < r -> (forall y, norm1 (y - x) < r -> f y = f' y) ->
  is_mixed f x H -> is_mixed f' x H.
Proof.
move=> r0 E [df [dc [s [s0 [h1 h2]]]]].
have r2 : 0 < r / 2%:R by rewrite divr_gt0.
have [q [q0 q1 q2]] := pos_min r2 s0.
exists df, dc, q; split=> //; split=> // y Hy.
apply: wgrad_near r2 _ (h1 y (lt_le_trans Hy q2)) => v Hv; apply: E.
have -> : v - x = (y - x) + (v - y) by rewrite [RHS]addrC addrA subrK.
have -> : r = r / 2%:R + r / 2%:R by field.
apply: le_lt_trans _ (ltr_add (lt_le_trans Hy q1) Hv).
rewrite /norm1 -big_split; apply: ler_sum => i _ /=; rewrite mxE; exact: ler_norm_add.
Qed.

(** log |h|^2 has no mixed derivatives *)
Lemma mixed_log (log : C -> C) f h x H c : (forall y, 0 < y -> log_near log y) ->
  hol2 h x -> h x != 0 -> is_mixed f x H ->
  is_mixed (fun y => f y + c * log (h y * (h y)^*)) x H.
Proof.
move=> lgn hh nz [df [dc [r [r0 [h1 h2]]]]].
have [u U] := hol2_grad hh; have [s s0 Hs] := hol2_nz hh nz.
move: hh => [g [r1 [r10 Hg Dg]]].
have [q1 [q10 qa qb]] := pos_min r10 s0; have [q [q0 qc qd]] := pos_min q10 r0.
exists (fun y a => df y a + c * (g y 0 a / h y)), (fun y a => dc y a + c * (g y 0 a / h y)^*), q.
split=> //; split=> [y Hy|a].
  apply: wgrad_add; first exact: h1 (lt_le_trans Hy qd).
  apply: wgrad_scale.
  have hy : h y != 0 by apply: Hs; apply: lt_le_trans qb; apply: lt_le_trans qc.
  have /wgrad_hol G : is_grad h y (g y) by apply: Hg; apply: lt_le_trans qa; apply: lt_le_trans qc.
  have p0 : 0 < h y * (h y)^* by rewrite -normCK exprn_gt0 // normr_gt0.
  have [rl rl0 Hl] := lgn _ p0.
  have L : is_deriv log (h y * (h y)^*) (h y * (h y)^*)^-1 by apply: Hl; rewrite subrr normr0.
  have hyc : (h y)^* != 0 by rewrite conjC_eq0.
  apply: wgrad_eq (wgrad_comp1 (f := fun y => h y * (h y)^*) L (wgrad_mul G (wgrad_conj G))) => b /=.
    by rewrite ?conjC0 ?mulr0 ?add0r; field; rewrite hy hyc.
  by rewrite ?mulr0 ?addr0 cjM cjV; field; rewrite hy hyc.
have [t Ht] := h2 a; have [t' Ht'] := Dg a.
have /wgrad_hol K := is_grad_div nz Ht' U.
eexists; apply: wgrad_eq (wgrad_add Ht (wgrad_scale c K)) => [//|b] /=.
by rewrite mulr0 addr0.
Qed.
End Hol.

Lemma pos_min_fin (C : numClosedFieldType) (I : finType) (s : I -> C) : (forall b, 0 < s b) ->
  exists2 r : C, 0 < r & forall b, r <= s b.
Proof.
move=> s0; have [r r0 H] : exists2 r : C, 0 < r & forall b, b \in enum I -> r <= s b.
  elim: (enum I) => [|b l [r r0 H]]; first by exists 1.
  have [q [q0 qa qb]] := pos_min r0 (s0 b); exists q => // c; rewrite inE => /orP[/eqP->//|/H].
  exact: le_trans.
by exists r => // b; apply: H; rewrite mem_enum.
Qed.

Lemma hol2_jac (C : numClosedFieldType) n p (F : 'rV[C]_n -> 'rV[C]_p) x : (forall b, hol2 (fun y => F y 0 b) x) ->
  exists (J : 'rV[C]_n -> 'M[C]_(n, p)) (r : C), [/\ 0 < r, forall y, norm1 (y - x) < r -> is_jac F y (J y) &
    forall a b, exists t, is_wgrad (fun y => J y a b) x t (fun=> 0)].
Proof.
move=> /fin_all_exists[g /fin_all_exists[s H]].
have [|r r0 Hr] := @pos_min_fin C _ s; first by move=> b; case: (H b).
exists (fun y => \matrix_(a, b) g b y 0 a), r; split=> // [y Hy b|a b].
  have [_ h _] := H b; apply: is_grad_eq (h y (lt_le_trans Hy (Hr b))).
  by apply/rowP => a; rewrite !mxE.
have [_ _ /(_ a)[t /wgrad_hol Ht]] := H b; exists (fun c => t 0 c).
by apply: wgrad_ext Ht => y; rewrite mxE.
Qed.

Lemma phi_hol2 (C : numClosedFieldType) (N m : nat) (o : 'rV[C]_m.+1 -> objects C N m) d Q phi x c :
  local_parametrisation Q (fun y => o_grad (o y)) d phi x -> embedding_contract o (phi x) d ->
  hol2 (fun y => phi y 0 c) x.
Proof.
move=> par emb; have [r r0 Hr] := phi_jac par emb.
exists (fun y => \row_a ProofGeom2.J o d (phi y) a c), r; split=> // [y Hy|a]; first exact: Hr y Hy c.
have [t Ht] := phi_jac2 par emb a c; exists (\row_b t b); apply/wgrad_hol.
by apply: wgrad_eq (wgrad_ext _ Ht) => [b|//|y]; rewrite mxE.
Qed.

Lemma hol2_homr (C : numClosedFieldType) n p (F : 'rV[C]_n -> 'rV[C]_p) (i l : 'I_p.+1) x :
  (forall c, hol2 (fun y => F y 0 c) x) -> hol2 (fun y => homr i (F y) 0 l) x.
Proof.
move=> H; case: (unliftP i l) => [a ->|->].
  by apply: hol2_ext (H a) => y; rewrite homr_lift.
by apply: hol2_ext (hol2_const 1 x) => y; rewrite homr_patch.
Qed.

Section Two.
Variables (C : numClosedFieldType) (log : C -> C) (pi : C).
Hypothesis lgm : forall a b, 0 < a -> 0 < b -> log (a * b) = log a + log b.
Hypothesis lgn : forall y, 0 < y -> log_near log y.
Hypothesis pi0 : 0 < pi.
Variables (m k e : nat) (B : basis).
Notation n := m.+1.
Variables (M : 'M[C]_(size (power_matrix B))) (P : {mpoly C[n.+1]}).
Hypothesis HM : hermitian M.
Hypothesis k0 : (0 < k)%N.
Hypothesis HP : P \is e.-homog.
Hypothesis HB : basis_class C n k B.
Notation Q p := (dehom p P).
Let o := on_patch k M P.
Hypothesis pos : forall p dep y, peval (Q p) y = 0 -> peval ((Q p)^`M(dep)) y != 0 ->
  0 < ob_psi (o p dep y) /\ exists2 g, ob_g_loc pi (o p dep y) = Ok g & posdef g.

Variables (i j : 'I_n.+1) (d d' : 'I_n) (z : 'rV[C]_n).
Hypothesis nz : homr i z 0 j != 0.
Hypothesis Pz : peval (Q i) z = 0.
Hypothesis gd : peval ((Q i)^`M(d)) z != 0.
Let w := chart i j z.
Hypothesis gd' : peval ((Q j)^`M(d')) w != 0.

Let Pw : peval (Q j) w = 0.
Proof.
move: Pz; rewrite (dehom_patch HP nz) => /eqP.
by rewrite mulf_eq0 expf_eq0 (negbTE nz) andbF /= => /eqP.
Qed.

Lemma kahler_patch y : homr i y 0 j != 0 -> 0 < ob_psi (o j d' (chart i j y)) ->
  ob_kahler log pi (o i d y) =
  ob_kahler log pi (o j d' (chart i j y)) + pi^-1 * log (homr i y 0 j * (homr i y 0 j)^*).
Proof.
move=> ny p0; rewrite -normCK.
have x0 : 0 < `|homr i y 0 j| ^+ 2 by rewrite exprn_gt0 // normr_gt0.
have E := psi_patch M (class_homog HB) P ny d d'.
rewrite /ob_kahler /kahler.
have -> : log (ob_psi (o i d y)) = k%:R * log (`|homr i y 0 j| ^+ 2) + log (ob_psi (o j d' (chart i j y))).
  by rewrite -(log_pow _ lgm) // -lgm ?exprn_gt0 ?normr_gt0 //; congr log; exact: E.
rewrite /= mulrDl addrC; congr (_ + _).
have kn : k%:R != 0 :> C by rewrite pnatr_eq0 -lt0n.
by rewrite invfM; move: (log _) (pi^-1) (k%:R) kn => L q c cn; field.
Qed.

Definition ratio y : C := homr i y 0 j ^+ e * peval ((Q j)^`M(d')) (chart i j y) *
  (homr i y 0 j ^+ n.+1 * peval ((Q i)^`M(d)) y)^-1.

Lemma det_patch y : homr i y 0 j != 0 -> peval (Q i) y = 0 -> peval ((Q i)^`M(d)) y != 0 ->
  peval ((Q j)^`M(d')) (chart i j y) != 0 -> 0 < ob_psi (o j d' (chart i j y)) ->
  \det (res_mx (ob_g_loc pi (o i d y))) =
  \det (res_mx (ob_g_loc pi (o j d' (chart i j y)))) * (ratio y * (ratio y)^*).
Proof.
move=> ny Py gy gy' p0.
have gE : pgrad (Q i) y 0 d != 0 by rewrite mxE.
have gE' : pgrad (Q j) (chart i j y) 0 d' != 0 by rewrite mxE.
rewrite (@g_loc_dep _ _ _ pi (o i d y) d) // (@g_loc_dep _ _ _ pi (o j d' (chart i j y)) d') //=.
have V := vol_lemma (gpm pi (o i d y)) gE; have V' := vol_lemma (gpm pi (o j d' (chart i j y))) gE'.
have E : gpm pi (o i d y) = chart_jac i j y *m gpm pi (o j d' (chart i j y)) *m adjm (chart_jac i j y).
  by apply: (gpm_patch pi HM (class_homog HB) ny d (d' := d')); rewrite gt_eqF.
have := AA_patch HP ny Py (gpm pi (o j d' (chart i j y))).
rewrite -E /AA -V -V' -normCK /ratio !normrM normfV normrM !normrX !mxE.
move: (\det _) (\det _) => D' D.
have : `|homr i y 0 j| != 0 by rewrite normr_eq0.
have : `|peval ((Q i)^`M(d)) y| != 0 by rewrite normr_eq0.
move: (`|homr i y 0 j|) (`|peval ((Q i)^`M(d)) _|) (`|peval ((Q j)^`M(d')) _|) => x a b a0 x0.
have v0 : x ^+ n.+1 != 0 by rewrite expf_neq0.
rewrite ![(2 * _)%N]mulnC !exprM; move: (x ^+ n.+1) (x ^+ e) v0 => v u v0 H.
have -> : D = D * a ^+ 2 * v ^+ 2 / (a ^+ 2 * v ^+ 2) by field; rewrite a0 v0.
by rewrite H; field; rewrite a0 v0.
Qed.

Let x0 := others d z.

Lemma two_charts : exists gi gj Ri Rj A,
  [/\ ob_g_loc pi (o i d z) = Ok gi /\ ob_g_loc pi (o j d' w) = Ok gj,
     ob_ricci_loc pi (o i d z) = Ok Ri /\ ob_ricci_loc pi (o j d' w) = Ok Rj,
     A \in unitmx, gi = A *m gj *m adjm A & Ri = A *m Rj *m adjm A].
Proof.
have [psiz [gi Egi pgi]] := pos Pz gd; have [psiw [gj Egj pgj]] := pos Pw gd'.
have [phi [phx par loc]] := implicit_function Pz gd.
have [phi' [phx' par' loc']] := implicit_function Pw gd'.
rewrite -/x0 in phx par; set x0' := others d' w in phx' par'.
have {}par : local_parametrisation (peval (Q i)) (fun y => o_grad (o i d y)) d phi x0 by exact: par.
have {}par' : local_parametrisation (peval (Q j)) (fun y => o_grad (o j d' y)) d' phi' x0' by exact: par'.
have emb : embedding_contract (o i d) (phi x0) d by rewrite phx; exact: poly_embedding.
have emb' : embedding_contract (o j d') (phi' x0') d' by rewrite phx'; exact: poly_embedding.
have sec : sections_contract (o i d) (phi x0) M k by exact: poly_sections.
have sec' : sections_contract (o j d') (phi' x0') M k by exact: poly_sections.
have p1 : ob_psi (o i d (phi x0)) != 0 by rewrite phx lt0r_neq0.
have p1' : ob_psi (o j d' (phi' x0')) != 0 by rewrite phx' lt0r_neq0.
have dgi : 0 < \det gi by exact: posdef_det.
have dgj : 0 < \det gj by exact: posdef_det.
(* the mixed derivatives *)
have Ki : is_mixed (fun y => ob_kahler log pi (o i d (phi y))) x0 gi.
  have := metric_pullback pi par emb HM sec p1 (log := log).
  by rewrite phx => /(_ (lgn psiz))[g' Eg']; move: Egi; rewrite Eg' => -[->].
have Kj : is_mixed (fun y => ob_kahler log pi (o j d' (phi' y))) x0' gj.
  have := metric_pullback pi par' emb' HM sec' p1' (log := log).
  by rewrite phx' => /(_ (lgn psiw))[g' Eg']; move: Egj; rewrite Eg' => -[->].
have [Ri ERi Li] := ricci_pullback par emb HM sec pi0 p1 (etrans (congr1 (fun y => ob_g_loc pi (o i d y)) phx) Egi)
  (lt0r_neq0 dgi) (lgn dgi).
have [Rj ERj Lj] := ricci_pullback par' emb' HM sec' pi0 p1' (etrans (congr1 (fun y => ob_g_loc pi (o j d' y)) phx') Egj)
  (lt0r_neq0 dgj) (lgn dgj).
rewrite phx in ERi; rewrite phx' in ERj.
(* the change of coordinates *)
have Hphi c : hol2 (fun y => phi y 0 c) x0 by exact: phi_hol2 par emb.
pose xx y := homr i (phi y) 0 j.
have Hxx : hol2 xx x0 by exact: hol2_homr.
have xx0 : xx x0 != 0 by rewrite /xx phx.
have HF c : hol2 (fun y => chart i j (phi y) 0 c) x0.
  apply: hol2_ext (hol2_mul (hol2_homr i (lift j c) Hphi) (hol2_inv xx0 Hxx)) => y; by rewrite mxE.
pose tau y := others d' (chart i j (phi y)).
have Htau c : hol2 (fun y => tau y 0 c) x0 by apply: hol2_ext (HF (lift d' c)) => y; rewrite [RHS]mxE.
have tx : tau x0 = x0' by rewrite /tau phx.
have [J [rJ [rJ0 HJ HJ2]]] := hol2_jac Htau.
have [JF [rF [rF0 HJF _]]] := hol2_jac HF.
(* nearby points *)
have [r1 r10 H1] := hol2_nz Hxx xx0.
have Hg : hol2 (fun y => peval ((Q i)^`M(d)) (phi y)) x0 by exact: hol2_peval.
have Hg' : hol2 (fun y => peval ((Q j)^`M(d')) (chart i j (phi y))) x0 by exact: hol2_peval.
have [|r2 r20 H2] := hol2_nz Hg; first by rewrite phx.
have [|r3 r30 H3] := hol2_nz Hg'; first by rewrite phx.
have [r4 r40 [_ _ H4]] := par.
have [r5 r50 H5] := loc'.
have JFx : is_jac (fun y => chart i j (phi y)) x0 (JF x0) by apply: HJF; rewrite subrr norm10.
have [r6 r60 H6] := jac_close JFx r50.
have [q1 [q10 q1a q1b]] := pos_min r10 r20; have [q2 [q20 q2a q2b]] := pos_min r30 r40.
have [q3 [q30 q3a q3b]] := pos_min q10 q20; have [q [q0 qa qb]] := pos_min q30 r60.
have near y : norm1 (y - x0) < q -> [/\ xx y != 0, peval (Q i) (phi y) = 0, peval ((Q i)^`M(d)) (phi y) != 0,
    peval ((Q j)^`M(d')) (chart i j (phi y)) != 0 & phi' (tau y) = chart i j (phi y)].
  move=> Hy; have Hy3 := lt_le_trans Hy qa; have Hy1 := lt_le_trans Hy3 q3a; have Hy2 := lt_le_trans Hy3 q3b.
  have ny := H1 y (lt_le_trans Hy1 q1a); have [Py _] := H4 y (lt_le_trans Hy2 q2b).
  split=> //; first exact: H2 (lt_le_trans Hy1 q1b).
    exact: H3 (lt_le_trans Hy2 q2a).
  apply: H5; first by have := H6 y (lt_le_trans Hy qb); rewrite phx.
  move: Py; rewrite (dehom_patch HP ny) => /eqP.
  by rewrite mulf_eq0 expf_eq0 (negbTE ny) andbF /= => /eqP.
have posF y : norm1 (y - x0) < q -> 0 < ob_psi (o j d' (chart i j (phi y))).
  move=> /near[ny Py gy gy' _]; apply: (pos _ gy').1.
  move: Py; rewrite (dehom_patch HP ny) => /eqP.
  by rewrite mulf_eq0 expf_eq0 (negbTE ny) andbF /= => /eqP.
have Eg a b : gi a b = (J x0 *m gj *m adjm (J x0)) a b.
  rewrite (mixed_unique Ki (H' := fun a b => \sum_c \sum_l J x0 a c * gj c l * (J x0 b l)^*)).
    rewrite mxE exchange_big; apply: eq_bigr => l _ /=; rewrite mxE mulr_suml.
    by apply: eq_bigr => c _; rewrite mxE.
  have K2 := mixed_log pi^-1 lgn Hxx xx0 (mixed_comp rJ0 HJ HJ2 (eq_ind_r (fun t => is_mixed _ t gj) Kj tx)).
  apply: mixed_near q0 _ K2 => y Hy.
  have [ny Py gy gy' Ey] := near y Hy.
  by rewrite Ey -kahler_patch // posF.
have Hr : hol2 (fun y => ratio (phi y)) x0.
  apply: hol2_mul (hol2_mul (hol2_exp e Hxx) Hg') (hol2_inv _ (hol2_mul (hol2_exp n.+1 Hxx) Hg)).
  by rewrite mulf_neq0 ?expf_neq0 // phx.
have rnz y : norm1 (y - x0) < q -> ratio (phi y) != 0.
  by move=> /near[ny _ gy gy' _]; rewrite /ratio; apply: mulf_neq0; last rewrite invr_eq0; apply: mulf_neq0 => //; exact: expf_neq0.
have ER a b : Ri a b = (J x0 *m Rj *m adjm (J x0)) a b.
  rewrite (mixed_unique Li (H' := fun a b => \sum_c \sum_l J x0 a c * Rj c l * (J x0 b l)^*)).
    rewrite mxE exchange_big; apply: eq_bigr => l _ /=; rewrite mxE mulr_suml.
    by apply: eq_bigr => c _; rewrite mxE.
  have r0' : ratio (phi x0) != 0 by apply: rnz; rewrite subrr norm10.
  have K2 := mixed_log (-1) lgn Hr r0' (mixed_comp rJ0 HJ HJ2 (eq_ind_r (fun t => is_mixed _ t Rj) Lj tx)).
  apply: mixed_near q0 _ K2 => y Hy.
  have [ny Py gy gy' Ey] := near y Hy.
  have Pw' : peval (Q j) (chart i j (phi y)) = 0.
    move: Py; rewrite (dehom_patch HP ny) => /eqP.
    by rewrite mulf_eq0 expf_eq0 (negbTE ny) andbF /= => /eqP.
  have [pp [g Eg' pg]] := pos Pw' gy'.
  rewrite Ey (det_patch ny Py gy gy' pp) Eg' /= [in RHS]lgm; first by rewrite mulN1r opprD.
    exact: posdef_det.
  by rewrite -normCK exprn_gt0 // normr_gt0 rnz.
have {}Eg : gi = J x0 *m gj *m adjm (J x0) by apply/matrixP.
have {}ER : Ri = J x0 *m Rj *m adjm (J x0) by apply/matrixP.
exists gi, gj, Ri, Rj, (J x0); split=> //.
move: (posdef_unit pgi); rewrite Eg !unitmx_mul => /andP[/andP[//]].
Qed.

Lemma scalar_two_charts : exists r, ob_ricci_scalar pi (o i d z) = Ok r /\ ob_ricci_scalar pi (o j d' w) = Ok r.
Proof.
have [gi [gj [Ri [Rj [A [[Egi Egj] [ERi ERj] uA Eg ER]]]]]] := two_charts.
have [psiz [g Eg1 pg]] := pos Pz gd; move: (Eg1); rewrite Egi => -[E]; subst g.
have [psiw [g Eg2 pg']] := pos Pw gd'; move: (Eg2); rewrite Egj => -[E]; subst g.
have emb : embedding_contract (o i d) z d by exact: poly_embedding.
have emb' : embedding_contract (o j d') w d' by exact: poly_embedding.
have sec : sections_contract (o i d) z M k by exact: poly_sections.
have sec' : sections_contract (o j d') w M k by exact: poly_sections.
have dgi : 0 < \det gi by exact: posdef_det.
have dgj : 0 < \det gj by exact: posdef_det.
have [J1 [R1 [_ _ _]]] := ricci_thm HM sec emb k0 pi0 (lt0r_neq0 psiz) Egi (lt0r_neq0 dgi) (lgn dgi).
rewrite ERi => -[<-] ->.
have [J2 [R2 [_ _ _]]] := ricci_thm HM sec' emb' k0 pi0 (lt0r_neq0 psiw) Egj (lt0r_neq0 dgj) (lgn dgj).
rewrite ERj => -[<-] ->.
exists (\tr (Rj *m invmx gj)); split=> //; congr Ok.
have ugi := posdef_unit pg; have ugj := posdef_unit pg'.
have E : gj *m (adjm A *m invmx gi *m A) = 1%:M.
  have := mulmxV ugi; rewrite {1}Eg -!mulmxA => /(congr1 (mulmx (invmx A))).
  rewrite mulKmx // mulmx1 => /(congr1 (mulmx^~ A)).
  by rewrite mulVmx // -!mulmxA.
have -> : invmx gj = adjm A *m invmx gi *m A by rewrite -[RHS](mulKmx ugj) E mulmx1.
by rewrite ER -!mulmxA mxtrace_mulC -!mulmxA.
Qed.
End Two.
