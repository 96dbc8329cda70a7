(** VarietySingle: the Jacobian of the embedding, the induced metrics. *)
From Coq Require Import ZArith Lia.
From mathcomp Require Import all_ssreflect all_algebra.
From mathcomp Require Import zify ssrZ ring.
From SsrMultinomials Require Import mpoly.
From Verif Require Import Base ModelStr ModelUtil ModelProjective ModelDiff ModelExpr ModelPoly ModelHom ModelVariety ModelBasis ModelGeom ModelAlg.
From Verif Require Import SpecPoly SpecHom SpecVariety SpecGeom SpecBasis SpecSections SpecPatch SpecAlg Herm.
From Verif Require Import Deriv Wirtinger Bridge PolyGrad ProofUtil ProofProjective ProofFS ProofDiff ProofDiff2 ProofSections ProofPatch ProofPoly ProofPoly3.
From Verif Require Import ProofHom ProofHom2 ProofVariety ProofVariety3 ProofBasis3 ProofPolyExpr ProofAlg ProofAlg2.
Delimit Scope Z_scope with Z.

Set Implicit Arguments.
Unset Strict Implicit.
Unset Printing Implicit Defensive.

Import GRing.Theory Num.Theory Order.POrderTheory.
Local Open Scope ring_scope.

Section Conj.
Variable C : numClosedFieldType.

Lemma sem_conj rho (e : expr C) : real_numbers e -> sem (fun s => (rho s)^*) e = (sem rho e)^*.
Proof.
elim/expr_nest_ind: e => [c||s|es IH|es IH|e k IH] //=.
- by move=> /CrealP.
- move=> H; rewrite rmorph_sum /= !big_map.
  elim: es IH H => [|e es IHe] IH /=; first by rewrite !big_nil.
  move=> /andP[H1 H2]; rewrite !big_cons IH ?IHe //; last by left.
  by move=> x xe; apply: IH; right.
- move=> H; rewrite rmorph_prod /= !big_map.
  elim: es IH H => [|e es IHe] IH /=; first by rewrite !big_nil.
  move=> /andP[H1 H2]; rewrite !big_cons IH ?IHe //; last by left.
  by move=> x xe; apply: IH; right.
by move=> /IH ->; rewrite rmorphX.
Qed.

Definition cseq (s : seq C) : seq C := [seq x^* | x <- s].
Lemma nth_cseq s i : nth 0 (cseq s) i = (nth 0 s i)^*.
Proof.
have [lt|ge] := ltnP i (size s); first by rewrite (nth_map 0).
by rewrite !nth_default ?size_map // rmorph0.
Qed.
Lemma row_cseq n (z : 'rV[C]_n) : row_seq (conj_rv z) = cseq (row_seq z).
Proof. by rewrite /row_seq /cseq -[RHS]map_comp; apply: eq_map => i; rewrite mxE. Qed.

Variables (m e : nat) (V : variety C) (ps : seq C).
Hypothesis hV : real_hypersurface V ps m e.

Lemma real_hyp : hypersurface V ps m e.
Proof.
case: hV => [[norm [P [H [nk rP hP]]]]|[f [c [-> _ -> ->]]]|[-> ->]].
- by apply: Or31; exists norm, P, H.
- by apply: Or32; exists f, c.
exact: Or33.
Qed.

Lemma real_hyp_conj : hypersurface V (cseq ps) m e.
Proof.
case: hV => [[norm [P [H [nk rP [hP hi Ev Ei sp]]]]]|[f [c [-> _ -> ->]]]|[-> ->]].
- by apply: Or31; exists norm, P, H; split=> //; split=> //; rewrite size_map.
- by apply: Or32; exists f, c^*.
exact: Or33.
Qed.

Lemma defining_conj (z : 'rV[C]_m.+2) v : v_defining V (row_seq z) (PArr ps) (PatchNone C) = Ok v ->
  v_defining V (row_seq (conj_rv z)) (PArr (cseq ps)) (PatchNone C) = Ok v^*.
Proof.
case: hV => [[norm [P [H [nk rP [[hP he] hi Ev Ei sp]]]]]|[f [c [-> fr -> ee]]]|[-> ee]].
- have [nm En] : exists nm, variable_names P = [:: nm].
    have [hE _] := init_ok norm hi; move: Ev; rewrite /variety_init hE.
    by case: (variable_names P) => [//|nm [|//]] _; exists nm.
  have [wP _ _ uP] := hP.
  move: Ev; rewrite /variety_init; case: rassert => //= _ [<-]; rewrite /v_defining /defining.
  rewrite !(transform_none norm _ _ hi) !(call_kw _ _ En) !(call_F wP uP En Ei) ?size_row_seq ?size_map ?size_iota //.
  move=> -[<-]; congr Ok; rewrite /F /value; move: rP; rewrite /real_poly.
  have R ex : real_numbers ex -> sem (asg P nm [seq Z.of_nat i | i <- iota 0 m.+2] (row_seq (conj_rv z)) (cseq ps)) ex =
    (sem (asg P nm [seq Z.of_nat i | i <- iota 0 m.+2] (row_seq z) ps) ex)^*.
    move=> rx; rewrite -sem_conj //; apply: eq_sem => s _; rewrite /asg row_cseq.
    by case: ifP => _; rewrite nth_cseq.
  by case: sympy_poly => [g|] ex; exact: R.
- rewrite /v_defining /= /dwork_call !size_row_seq; case: rassert => //= _ [<-]; congr Ok.
  rewrite !big_row_seq rmorphD !rmorphM rmorph_sum rmorph_prod /= (CrealP fr); congr (_ + _ * _).
    by apply: eq_bigr => i _; rewrite mxE rmorphX.
  by apply: eq_bigr => i _; rewrite mxE.
rewrite /v_defining /= /fermat_call !size_row_seq; case: rassert => //= _ [<-]; congr Ok.
rewrite !big_row_seq rmorph_sum /=.
by apply: eq_bigr => i _; rewrite mxE rmorphX.
Qed.

Variable D : forall n : nat, ('rV[C]_n -> C) -> 'rV[C]_n -> 'rV[C]_n.
Hypothesis hD : diff_ok D.

(** The gradient for conjugate coordinates and parameters *)
Lemma grad_conj (p : 'I_m.+2) (z : 'rV[C]_m.+1) : exists g : 'rV[C]_m.+1,
  v_grad_defining D V (row_seq z) (PArr ps) (PatchInt C (Z.of_nat p)) = Ok (row_seq g) /\
  v_grad_defining D V (row_seq (conj_rv z)) (PArr (cseq ps)) (PatchInt C (Z.of_nat p)) = Ok (row_seq (conj_rv g)).
Proof.
have [Q [hQ _ _]] := V_poly real_hyp; have [Q' [hQ' _ _]] := V_poly real_hyp_conj.
exists (pgrad (dehom p Q) z); rewrite (grad_code hD real_hyp hQ) (grad_code hD real_hyp_conj hQ'); split=> //.
congr (Ok (row_seq _)); apply: (is_grad_unique (poly_grad _ _)).
apply: is_grad_ext (is_grad_conj (poly_grad (dehom p Q) z)) => y.
have ev (R : {mpoly C[m.+2]}) w : peval (dehom p R) w = peval R (homr p w) by rewrite dehom_eval; apply: meval_eq.
rewrite !ev; have := defining_conj (hQ (homr p (conj_rv y))).
have -> : conj_rv (homr p (conj_rv y)) = homr p y.
  apply/rowP => i; rewrite mxE; case: (unliftP p i) => [a ->|->].
    by rewrite !homr_lift mxE conjCK.
  by rewrite !homr_patch rmorph1.
by rewrite hQ' => -[->].
Qed.
End Conj.

Section Induced.
Variable C : numClosedFieldType.
Variable D : forall n : nat, ('rV[C]_n -> C) -> 'rV[C]_n -> 'rV[C]_n.
Hypothesis hD : diff_ok D.
Variables (m e : nat).

Lemma choose_max (g : 'rV[C]_m.+1) : exists d0 : 'I_m.+1,
  choose_dependent (row_seq g) None = Ok (Z.of_nat d0) /\ forall b, `|g 0 b| <= `|g 0 d0|.
Proof.
have ne : [seq `|x| | x <- row_seq g] != [::] by rewrite -size_eq0 size_map size_row_seq.
have re y : y \in [seq `|x| | x <- row_seq g] -> y \is Num.real by move=> /mapP[x _ ->]; exact: normr_real.
have [q [E [qn qle _]]] := argmaxP ne re; rewrite size_map size_row_seq in qn qle.
exists (Ordinal qn); rewrite /choose_dependent E; split=> // b.
have nE (k : 'I_m.+1) : nth 0 [seq `|x| | x <- row_seq g] k = `|g 0 k|.
  by rewrite (nth_map 0) ?size_row_seq // nth_row_seq.
by have := qle b (ltn_ord b); rewrite nE -[q]/(nat_of_ord (Ordinal qn)) nE.
Qed.

(** jacobian_embed *)
Lemma jacobian_point (V : variety C) ps x i d a g : hypersurface V ps m e -> smooth_at D V ps x i d a g ->
  exists (J J0 : 'M[C]_(m, m.+1)) (d0 : 'I_m.+1),
  [/\ v_jacobian_embed D V a (PArr ps) (PatchInt C (Z.of_nat i)) (Some (Z.of_nat d)) =
        Ok ([seq row_seq (row r J) | r <- enum 'I_m], None),
      v_jacobian_embed D V a (PArr ps) (PatchInt C (Z.of_nat i)) None =
        Ok ([seq row_seq (row r J0) | r <- enum 'I_m], Some (Z.of_nat d0)),
      J *m (seq_row m.+1 g)^T = 0 /\ J0 *m (seq_row m.+1 g)^T = 0,
      (forall r q, J r (lift d q) = (r == q)%:R) /\ (forall r q, J0 r (lift d0 q) = (r == q)%:R) &
      forall b : 'I_m.+1, `|nth 0 g b| <= `|nth 0 g d0|].
Proof.
move=> hV [hx xi ha hg gd].
have aE : a = row_seq (affr i x) by move: ha; rewrite hom_to_affine_seq => -[<-].
have [Q [hQ _ _]] := V_poly hV.
have hG := grad_code hD hV hQ i (affr i x); move: hg; rewrite aE hG => -[Eg].
set G := pgrad _ _ in hG Eg; have [d0 [Ed le]] := choose_max G.
have nE (b : 'I_m.+1) : nth 0 g b = G 0 b by rewrite -Eg nth_row_seq.
have gz : G 0 d != 0 by rewrite -nE.
have g0 : G 0 d0 != 0 by rewrite -normr_gt0; apply: lt_le_trans (le d); rewrite normr_gt0.
exists (Jm G d), (Jm G d0), d0; split.
- by rewrite /v_jacobian_embed hG /= jacobian_embed_rows.
- by rewrite /v_jacobian_embed hG; cbn [rbind]; rewrite Ed /= jacobian_embed_rows.
- by rewrite -Eg row_seqK; split; exact: Jm_ker.
- by split=> r q; rewrite Jm_lift.
by move=> b; rewrite !nE.
Qed.

(** induced_metric: the explicit conjugate coordinates *)
Lemma induced_conj (V : variety C) ps (M : 'M[C]_m.+1) (p : 'I_m.+2) (z : 'rV[C]_m.+1) (dep : option 'I_m.+1) :
  real_hypersurface V ps m e ->
  let f zc := v_induced_metric D m V M (row_seq z) (PArr ps) (PatchInt C (Z.of_nat p)) zc
    (omap (fun d : 'I_m.+1 => Z.of_nat d) dep) in
  is_ok (f None) /\ f (Some [seq x^* | x <- row_seq z]) = f None.
Proof.
move=> hV f; have [g [E1 E2]] := grad_conj hV hD p z.
have [d Ed] : exists d : 'I_m.+1, choose_dependent (row_seq g) (omap (fun d : 'I_m.+1 => Z.of_nat d) dep) = Ok (Z.of_nat d).
  by case: dep {f} => [d|]; [exists d|have [d [-> _]] := choose_max g; exists d].
rewrite /f /v_induced_metric E1; cbn [rbind]; rewrite Ed /= -/(cseq _) -/(cseq _) -row_cseq E2 /=.
by have [-> ->] := induced_lemma M g d.
Qed.

(** induced_fs on two patches *)
Lemma induced_fs_point (V : variety C) ps (x : 'rV[C]_m.+2) (i : 'I_m.+2) (d : 'I_m.+1) a g (j : 'I_m.+2) a' : hypersurface V ps m e -> smooth_at D V ps x i d a g ->
  x 0 j != 0 -> hom_to_affine (row_seq x) (Z.of_nat j) = Ok a' ->
  exists (d0 : 'I_m.+1) F F0 A,
  [/\ v_induced_fs D m V a (PArr ps) (PatchInt C (Z.of_nat i)) None (Some (Z.of_nat d)) = Ok (F, None),
      v_induced_fs D m V a' (PArr ps) (PatchInt C (Z.of_nat j)) None None = Ok (F0, Some (Z.of_nat d0)),
      A \in unitmx, F = A *m F0 *m adjm A & posdef F /\ posdef F0].
Proof.
move=> hV [hx xi ha hg gd] xj ha'.
have [Q [hQ HQ _]] := V_poly hV.
have aE : a = row_seq (affr i x) by move: ha; rewrite hom_to_affine_seq => -[<-].
have aE' : a' = row_seq (affr j x) by move: ha'; rewrite hom_to_affine_seq => -[<-].
have Qx : peval Q x = 0 by move: hx; rewrite hQ => -[].
have Qi : peval (dehom i Q) (affr i x) = 0 by rewrite (dehom_aff HQ xi) Qx mulr0.
have hG := grad_code hD hV hQ i (affr i x); have hG' := grad_code hD hV hQ j (affr j x).
have nz : homr i (affr i x) 0 j != 0 by rewrite homr_aff // mulf_neq0 // invr_neq0.
have gz : pgrad (dehom i Q) (affr i x) 0 d != 0.
  by move: gd; move: hg; rewrite aE hG => -[<-]; rewrite nth_row_seq.
have EG := pgrad_patch0 HQ nz Qi; rewrite chart_aff // in EG.
have [d0 [Ed le]] := choose_max (pgrad (dehom j Q) (affr j x)).
have g0 : pgrad (dehom j Q) (affr j x) 0 d0 != 0.
  apply: contraNneq gz => E; rewrite EG; have -> : pgrad (dehom j Q) (affr j x) = 0.
    apply/rowP => b; rewrite [RHS]mxE; apply/eqP; rewrite -normr_le0.
    by have := le b; rewrite E normr0.
  by rewrite mul0mx scaler0 mxE.
have gw : pgrad (dehom j Q) (chart i j (affr i x)) 0 d0 != 0 by rewrite chart_aff.
have [A uA EA] := tangent HQ nz Qi gz gw; rewrite chart_aff // in EA.
have [I1 _] := induced_lemma (fs_metric_real (affr i x)) (pgrad (dehom i Q) (affr i x)) d.
have [I2 _] := induced_lemma (fs_metric_real (affr j x)) (pgrad (dehom j Q) (affr j x)) d0.
pose J := Jm (pgrad (dehom i Q) (affr i x)) d; pose J0 := Jm (pgrad (dehom j Q) (affr j x)) d0.
exists d0, (J *m fs_metric_real (affr i x) *m adjm J), (J0 *m fs_metric_real (affr j x) *m adjm J0), A; split=> //.
- by rewrite /v_induced_fs /v_induced_metric aE hG /= row_seqK I1.
- by rewrite /v_induced_fs /v_induced_metric aE' hG'; cbn [rbind]; rewrite Ed /= row_seqK I2.
- have := fs_patch nz; rewrite chart_aff // => ->.
  by rewrite !mulmxA EA -!mulmxA -adjm_mul EA adjm_mul !mulmxA.
by split; apply: posdef_congr (fs_posdef _) => // v; exact: Jm_inj.
Qed.

(** No parameters: the conjugate of None *)
Lemma fermat_none (M : 'M[C]_m.+1) (p : Z) (zs : seq C) (dep : option 'I_m.+1) : size zs = m.+1 ->
  let f zc := v_induced_metric D m (fermat_variety C m) M zs (@PNone C) (PatchInt C p) zc
    (omap (fun d : 'I_m.+1 => Z.of_nat d) dep) in
  is_ok (f None) /\ f (Some [seq x^* | x <- zs]) = Err TypeError.
Proof.
move=> sz; have [z ->] : exists z : 'rV[C]_m.+1, zs = row_seq z by exists (seq_row m.+1 zs); rewrite seq_rowK.
move=> f.
have [g E1] : exists g : 'rV[C]_m.+1, v_grad_defining D (fermat_variety C m) (row_seq z) (@PNone C) (PatchInt C p) = Ok (row_seq g).
  rewrite /v_grad_defining /v_defining /= /fermat_call size_row_seq addn1 eqxx /=.
  by rewrite /grad_fn; case: _ / (esym (size_row_seq z)); eexists.
have [d Ed] : exists d : 'I_m.+1, choose_dependent (row_seq g) (omap (fun d : 'I_m.+1 => Z.of_nat d) dep) = Ok (Z.of_nat d).
  by case: dep {f} => [d|]; [exists d|have [d [-> _]] := choose_max g; exists d].
rewrite /f /v_induced_metric E1; cbn [rbind]; rewrite Ed /=.
by have [-> _] := induced_lemma M g d.
Qed.
End Induced.
