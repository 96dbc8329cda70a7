(** The reduced basis is independent on hypersurfaces which some line meets in enough points. *)
From Coq Require Import ZArith Lia.
From mathcomp Require Import all_ssreflect all_algebra.
From mathcomp Require Import polydiv separable zify ssrZ ring.
From SsrMultinomials Require Import mpoly.
From Verif Require Import Base ModelUtil ModelProjective SpecMon ModelExpr ModelPoly ModelHom ModelBasis ModelGeom ModelDonaldson ModelVariety ModelDiff ModelAlg ModelPipe
  Bridge Deriv Herm SpecGeom SpecBasis SpecSections SpecPatch SpecAlg SpecPipe SpecDonaldson SpecRank PolyGrad Implicit2 ProofPolyExpr ProofSections
  ProofBasis ProofBasis3 ProofPatch ProofAlg ProofAlg6 ProofReduce ProofReduce2 ProofReduce3 ProofRank.
Delimit Scope Z_scope with Z.

Set Implicit Arguments.
Unset Strict Implicit.
Unset Printing Implicit Defensive.

Import GRing.Theory Num.Theory Order.POrderTheory.
Local Open Scope ring_scope.

Section Uni.
Variables (C : numClosedFieldType) (m : nat).
Notation M := {mpoly C[m.+1]}.

Definition uni_gen (i : 'I_m.+2) : {poly M} := if unlift ord0 i is Some a then ('X_a)%:P else 'X.
Definition uni (p : {mpoly C[m.+2]}) : {poly M} := mmap ((@polyC _) \o (@mpolyC m.+1 C)) uni_gen p.

Lemma uni_fib p (y : 'rV[C]_m.+1) : map_poly (meval (fun i => y 0 i)) (uni p) = fib ord0 p y.
Proof.
elim/mpoly_ring_ind: p => [c|i|p q IHp IHq|p q IHp IHq].
- by rewrite /uni /fib !mmapC /= map_polyC /= mevalC.
- rewrite /uni /fib !mmapX !mmap1U /uni_gen /fib_gen; case: unlift => [a|]; last by rewrite map_polyX.
  by rewrite map_polyC /= mevalXU.
- by rewrite /uni /fib !rmorphD /= -/(uni p) -/(uni q) IHp IHq.
by rewrite /uni /fib !rmorphM /= -/(uni p) -/(uni q) IHp IHq.
Qed.

Lemma uniX (u : 'X_{1..m.+2}) : exists c : M, uni 'X_[u] = c%:P * 'X^(u ord0).
Proof.
rewrite /uni mmapX /mmap1 (bigD1_ord ord0) //= mulrC /uni_gen unlift_none.
exists (\prod_(a < m.+1) 'X_a ^+ u (lift ord0 a)); congr (_ * _); rewrite rmorph_prod /=.
by apply: eq_bigr => a _; rewrite liftK rmorphX.
Qed.

Lemma uni_size p e : (forall u, u \in msupp p -> (u ord0 < e)%N) -> (size (uni p) <= e)%N.
Proof.
move=> H; rewrite [p]mpolyE /uni rmorph_sum /=; apply: leq_trans (size_sum _ _ _) _.
apply/bigmax_leqP_seq => u /H lu _; rewrite -mul_mpolyC rmorphM /= mmapC -/(uni 'X_[u]).
have [c ->] := uniX u; rewrite /= mulrA -polyCM; apply: leq_trans (size_mul_leq _ _) _.
rewrite size_polyXn addnS /=; apply: leq_trans (leq_add (size_polyC_leq1 _) (leqnn _)) _.
by rewrite add1n.
Qed.

Lemma uni_lead Q e : Q \is e.-homog -> Q@_(U_(ord0) *+ e) != 0 ->
  size (uni Q) = e.+1 /\ lead_coef (uni Q) = (Q@_(U_(ord0) *+ e))%:MP.
Proof.
move=> /dhomogP HQ c0; move: c0; set ue := (U_(ord0) *+ e)%MM; set c := Q@_ue => c0.
pose R := Q - c *: 'X_[ue].
have dR u : u \in msupp R -> (u ord0 < e)%N.
  rewrite mcoeff_msupp mcoeffB mcoeffZ mcoeffX; have [<-|ne] := eqVneq ue u; first by rewrite mulr1 subrr eqxx.
  rewrite mulr0 subr0 -mcoeff_msupp => /HQ du; have {}du : mdeg u = e := du.
  rewrite ltnNge; apply/negP => le; case/eqP: ne; apply/mnmP => i.
  have := du; rewrite mdegE (bigD1 ord0) //= => S.
  rewrite mulmnE mnm1E; case: (eqVneq ord0 i) => [<-|i0]; first by rewrite /= ?mul1n ?muln1; move: S le; lia.
  move: S; rewrite (bigD1 i) ?[i == _]eq_sym //= ?mul0n ?muln0; move: le; lia.
have E : uni Q = (c%:MP)%:P * 'X^e + uni R.
  have -> : Q = c%:MP * 'X_[ue] + R by rewrite mul_mpolyC addrC subrK.
  rewrite /uni !rmorphD rmorphM /= mmapC -/(uni R) -/(uni 'X_[ue]); congr (_ * _ + _).
    rewrite /uni mmapX /mmap1 (bigD1 ord0) //= big1 => [|i i0]; last first.
      by rewrite mulmnE mnm1E eq_sym (negPf i0) /= ?mul0n ?muln0 expr0.
    by rewrite mulmnE mnm1E eqxx /= ?mul1n ?muln1 mulr1 /uni_gen unlift_none.
have sR := uni_size dR.
have cn : (c%:MP : M) != 0 by rewrite mpolyC_eq0.
have s1 : size ((c%:MP)%:P * 'X^e : {poly M}) = e.+1 by rewrite mul_polyC size_scale ?size_polyXn.
by rewrite E size_addl ?lead_coefDl ?s1 ?ltnS // lead_coefM lead_coefC lead_coefXn mulr1.
Qed.
End Uni.

Lemma resultant_map (aR rR : ringType) (f : {rmorphism aR -> rR}) (p q : {poly aR}) :
  f (lead_coef p) != 0 -> f (lead_coef q) != 0 -> f (resultant p q) = resultant (map_poly f p) (map_poly f q).
Proof.
move=> fp fq; rewrite /resultant /Sylvester_mx !size_map_poly_id0 //.
rewrite -det_map_mx /= map_col_mx; congr (\det (col_mx _ _));
  by apply: map_lin1_mx => v; rewrite map_poly_rV rmorphM /= map_rVpoly.
Qed.

Lemma resultant_separable (F : fieldType) (p : {poly F}) : p != 0 -> (resultant p p^`() != 0) = separable_poly p.
Proof.
move=> p0; rewrite resultant_eq0 /separable_poly /coprimep -leqNgt eqn_leq.
by rewrite size_poly_gt0 gcdp_eq0 negb_and p0 andbT.
Qed.

Section Transversal.
Variables (C : numClosedFieldType) (m e : nat) (V : variety C) (ps : seq C) (Q : {mpoly C[m.+2]}).
Hypotheses (hQ : defined_by V ps Q) (HQ : Q \is e.-homog) (Qe : Q@_(U_(ord0) *+ e) != 0).
Variables (y0 : 'rV[C]_m.+1) (ts : seq C).
Hypotheses (ut : uniq ts) (st : size ts = e) (Qt : forall t, t \in ts -> peval Q (pt ord0 y0 t) = 0).

Notation ev y := (meval (fun i : 'I_m.+1 => (y : 'rV[C]_m.+1) 0 i)).
Let P := uni Q.
Let Dis := resultant P P^`().

Let eP : size P = e.+1 := (uni_lead HQ Qe).1.
Let lP : lead_coef P = (Q@_(U_(ord0) *+ e))%:MP := (uni_lead HQ Qe).2.

Lemma P_eval y : size (map_poly (ev y) P) = e.+1.
Proof. by rewrite size_map_poly_id0 // lP mevalC. Qed.

Lemma Dis_eval y : (0 < e)%N -> ev y Dis = resultant (map_poly (ev y) P) (map_poly (ev y) P)^`().
Proof.
move=> e0; have Pn : P != 0 by rewrite -size_poly_eq0 eP.
have cE : (P^`())`_e.-1 = (Q@_(U_(ord0) *+ e))%:MP *+ e by rewrite coef_deriv prednK // -lP lead_coefE eP.
have ce : (Q@_(U_(ord0) *+ e))%:MP *+ e != 0 :> {mpoly C[m.+1]}.
  by rewrite -mpolyCMn mpolyC_eq0 mulrn_eq0 negb_or -lt0n e0 Qe.
have sP : size P^`() = e.
  apply/eqP; rewrite eqn_leq -ltnS -eP lt_size_deriv //= leqNgt; apply/negP => lt.
  by case/eqP: ce; rewrite -cE nth_default // -ltnS prednK // -eP.
rewrite /Dis resultant_map ?deriv_map //=; first by rewrite lP /= mevalC.
by rewrite lead_coefE sP cE -mpolyCMn /= mevalC mulrn_eq0 negb_or -lt0n e0 Qe.
Qed.

Lemma reduced_small (r : {mpoly C[m.+2]}) : (0 < e)%N -> (forall u, u \in msupp r -> (u ord0 < e)%N) ->
  vanishes_on V ps r -> r = 0.
Proof.
move=> e0 dr vr; have sr := uni_size dr.
have D0 : Dis != 0.
  suff : ev y0 Dis != 0 by apply: contraNneq => ->; rewrite meval0.
  have E : map_poly (ev y0) P = lead_coef (map_poly (ev y0) P) *: \prod_(t <- ts) ('X - t%:P).
    apply: all_roots_prod_XsubC; rewrite ?P_eval ?st ?uniq_rootsE //.
    by apply/allP => t /Qt; rewrite /root uni_fib; have [-> _] := fibP ord0 Q y0 t => ->.
  have l0 : lead_coef (map_poly (ev y0) P) != 0 by rewrite lead_coef_eq0 -size_poly_eq0 P_eval.
  rewrite Dis_eval // resultant_separable; last by rewrite -size_poly_eq0 P_eval.
  by rewrite E (eqp_separable (eqp_scale _ l0)) separable_prod_XsubC.
have Z y : ev y ('X_ord0 * Dis) != 0 -> map_poly (ev y) (uni r) = 0.
  rewrite mevalM mevalXU mulf_eq0 negb_or Dis_eval // => /andP[yn].
  rewrite resultant_separable; last by rewrite -size_poly_eq0 P_eval.
  have [rs E] := closed_field_poly_normal (map_poly (ev y) P).
  have l0 : lead_coef (map_poly (ev y) P) != 0 by rewrite lead_coef_eq0 -size_poly_eq0 P_eval.
  rewrite E (eqp_separable (eqp_scale _ l0)) separable_prod_XsubC => urs.
  have srs : size rs = e.
    by have := P_eval y; rewrite E size_scale // size_prod_XsubC => -[].
  apply: (roots_geq_poly_eq0 (rs := rs)); rewrite ?uniq_rootsE //; last first.
    by rewrite srs; apply: leq_trans (size_poly _ _) _.
  apply/allP => t ti; rewrite /root uni_fib; have [-> _] := fibP ord0 r y t; apply/eqP.
  apply: vr; apply/(point_onE hQ); split.
    by apply/eqP => /rowP/(_ (lift ord0 ord0)); rewrite pt_lift mxE => y00; move: yn; rewrite y00 eqxx.
  have [<- _] := fibP ord0 Q y t; rewrite -uni_fib -/P; apply/eqP; rewrite -/(root _ t) E rootZ // root_prod_XsubC.
  by [].
have ur : uni r = 0.
  apply/polyP => j; rewrite coef0; apply/eqP.
  suff /eqP : (uni r)`_j * ('X_ord0 * Dis) = 0.
    have X0 : ('X_ord0 : {mpoly C[m.+1]}) != 0 by rewrite -msupp_eq0 msuppX.
    by rewrite !mulf_eq0 (negPf D0) (negPf X0) !orbF.
  apply: peval_zero => y; rewrite /peval mevalM; have [->|/Z E] := eqVneq (ev y ('X_ord0 * Dis)) 0; first by rewrite mulr0.
  by have := congr1 (fun p : {poly C} => p`_j) E; rewrite coef_map coef0 /= => ->; rewrite mul0r.
apply: peval_zero => z; rewrite -(pt_others ord0 z); have [<- _] := fibP ord0 r (others ord0 z) (z 0 ord0).
by rewrite -uni_fib ur map_poly0 horner0.
Qed.

Lemma multinom_nth n (u : 'X_{1..n}) (i : 'I_n) : u i = nth 0%N u i.
Proof. by rewrite /fun_of_multinom (tnth_nth 0%N). Qed.

Lemma lead_first : (mlead Q : 'X_{1..m.+2}) = (U_(ord0) *+ e)%MM.
Proof.
have Q0 : Q != 0 by apply: contraNneq Qe => ->; rewrite mcoeff0.
have us : (U_(ord0) *+ e)%MM \in msupp Q by rewrite mcoeff_msupp.
have /dhomogP hd := HQ; have dl : mdeg (mlead Q) = e := hd _ (mlead_supp Q0).
have du : mdeg (U_(ord0) *+ e : 'X_{1..m.+2})%MM = e := hd _ us.
have := msupp_le_mlead us; rewrite -lexge_le ?dl ?du //.
have le0 : lexge (mlead Q) (U_(ord0) *+ e : 'X_{1..m.+2})%MM -> (e <= mlead Q ord0)%N.
  have hl (a b : seq nat) : size a = size b -> lexge a b -> (nth 0 b (ord0 : 'I_m.+2) <= nth 0 a (ord0 : 'I_m.+2))%N.
    by case: a b => [|x a] [|y b] //= _ /orP[/ltnW|/andP[/eqP ->]].
  move=> le; have {le} := hl _ _ (etrans (size_tuple _) (esym (size_tuple _))) le.
  rewrite -!multinom_nth.
  by rewrite mulmnE mnm1E eqxx /= ?mul1n ?muln1.
move=> /le0 le; apply/mnmP => i; move: dl; rewrite mdegE (bigD1 ord0) //= mulmnE mnm1E => S.
case: (eqVneq ord0 i) => [<-|i0]; first by rewrite /= ?mul1n ?muln1; move: S le; lia.
move: S; rewrite (bigD1 i) ?[i == _]eq_sym //= ?mul0n ?muln0; move: le; lia.
Qed.

Lemma transversal_independent k B : (0 < e)%N -> (forall i, variable_occurs Q i) -> basis_reduced Q k = Ok B ->
  independent_on V ps m B.
Proof.
move=> e0 occ hB; have Q0 : Q != 0 by apply: contraNneq Qe => ->; rewrite mcoeff0.
have hB' := hB; rewrite (reduced_class _ Q0 HQ occ) in hB'.
have nd w : w \in power_matrix B -> ~~ divides (mlead Q) w by case: hB' => <- /=; rewrite mem_filter => /andP[].
have [uB sB _] := red_facts Q0 HQ occ hB.
have szB v : v \in power_matrix B -> size v = m.+2 by move=> /sB[].
move=> v H; apply: (coords_zero uB szB).
apply: reduced_small => // [u|x px]; last by rewrite -sec_mono H.
rewrite mcoeff_msupp; apply: contraR; rewrite -leqNgt => eu; rewrite raddf_sum big1 // => a _.
rewrite /= mcoeffZ /mono mcoeffX -/(mn m.+2 _); case: eqP => [uE|_]; last by rewrite mulr0.
have /nd/negP[] := mem_nth [::] (ltn_ord a).
have sn : size (nth [::] (power_matrix B) a) = m.+2 by rewrite szB ?mem_nth.
apply/(all_nthP (0, 0)%N) => j; rewrite size_zip size_tuple sn minnn => lj.
rewrite nth_zip ?size_tuple ?sn //= lead_first -[j]/(val (Ordinal lj)) -multinom_nth mulmnE mnm1E.
case: eqP => [/(congr1 val)/= j0|_]; last by rewrite /= ?mul0n ?muln0.
by rewrite /= ?mul1n ?muln1 (leq_trans eu) // -uE mnmE /= -j0.
Qed.
End Transversal.

Lemma pt_meaning (C : numClosedFieldType) m (y : 'rV[C]_m.+1) t : row_seq (pt ord0 y t) = t :: row_seq y.
Proof.
apply: (@eq_from_nth _ 0) => [|[|i]]; first by rewrite /= !size_row_seq.
  by rewrite size_row_seq => lt; rewrite -[0%N]/(val (ord0 : 'I_m.+2)) nth_row_seq pt_d.
rewrite size_row_seq ltnS => li; rewrite /= -[i.+1]/(val (lift ord0 (Ordinal li))) nth_row_seq pt_lift.
by rewrite -[i in RHS]/(val (Ordinal li)) nth_row_seq.
Qed.

(** The Dwork polynomials *)
Lemma dwork_transversal (C : numClosedFieldType) m (c : C) :
  exists2 ts : seq C, uniq ts /\ size ts = m.+3 &
  forall t, t \in ts -> peval (dwork_Q m.+1 c) (pt ord0 (delta_mx 0 ord0) t) = 0.
Proof.
have [p pE] : {p : {poly C} | p = 'X^(m.+3) + 1} by eexists.
have sp : size p = m.+4 by rewrite pE size_addl size_polyXn // size_poly1.
have [ts E] := closed_field_poly_normal p; have l1 : lead_coef p = 1.
  by rewrite pE lead_coefDl ?lead_coefXn // size_polyXn size_poly1.
rewrite l1 scale1r in E; exists ts.
  split; last by move: sp; rewrite E size_prod_XsubC => -[].
  rewrite -separable_prod_XsubC -E /separable_poly pE derivD derivXn derivC addr0.
  apply: Pdiv.ClosedField.root_coprimep => x; rewrite /root hornerD hornerXn hornerC hornerMn hornerXn => /eqP rx.
  rewrite mulrn_eq0 negb_or /= expf_eq0 /=; apply/eqP => x0.
  by move: rx; rewrite x0 expr0n add0r => /eqP; rewrite oner_eq0.
move=> t ti; rewrite dwork_Q_eval.
have : root p t by rewrite E root_prod_XsubC.
rewrite pE /root hornerD hornerXn hornerC => /eqP rt.
rewrite big_ord_recl big_ord_recl pt_d big1 => [|i _].
  rewrite -[X in _ + (pt _ _ _ 0 X ^+ _ + _)]/(lift ord0 ord0) pt_lift mxE !eqxx expr1n addr0 rt add0r.
  by rewrite (bigD1 (lift ord0 (lift ord0 ord0))) //= pt_lift mxE /= mul0r mulr0.
by rewrite pt_lift mxE /= expr0n.
Qed.

Lemma dwork_independent (C : numClosedFieldType) m f (c : C) k B :
  basis_reduced (dwork_Q m.+1 (dwork_factor_value f * c)) k = Ok B ->
  independent_on (dwork_variety m.+1 f) [:: c] m.+1 B.
Proof.
move=> hB; have [ts [ut st] Ht] := dwork_transversal m (dwork_factor_value f * c).
have hom : dwork_Q m.+1 (dwork_factor_value f * c) \is m.+3.-homog by exact: dwork_Q_homog.
have co : (dwork_Q m.+1 (dwork_factor_value f * c))@_(U_(ord0) *+ m.+3) != 0 by rewrite dwork_coef oner_neq0.
have dd := @dwork_defined C m.+1 f c.
by apply: (transversal_independent dd hom co ut st Ht _ _ hB) => // i; exact: dwork_occurs.
Qed.

Lemma fermat_independent (C : numClosedFieldType) m k B : basis_reduced (dwork_Q m.+1 0 : {mpoly C[m.+3]}) k = Ok B ->
  independent_on (fermat_variety C m.+1) [::] m.+1 B.
Proof.
move=> hB; have [ts [ut st] Ht] := dwork_transversal m (0 : C).
have hom : (dwork_Q m.+1 0 : {mpoly C[m.+3]}) \is m.+3.-homog by exact: dwork_Q_homog.
have co : (dwork_Q m.+1 (0 : C))@_(U_(ord0) *+ m.+3) != 0 by rewrite dwork_coef oner_neq0.
have dd := @fermat_defined C m.+1 [::].
by apply: (transversal_independent dd hom co ut st Ht _ _ hB) => // i; exact: dwork_occurs.
Qed.

(** Both bases on a sample *)
Lemma rank_full_all : forall (C : numClosedFieldType) m e (V : variety C) ps (Q : {mpoly C[m.+2]}),
  defined_by V ps Q -> Q != 0 -> Q \is e.-homog -> forall k F, (e <= k)%N -> basis_full m.+1 k = Ok F ->
  forall (h : 'M[C]_(size (power_matrix F))) vol W zs, points_on V ps m zs -> T_mean h vol W zs \notin unitmx.
Proof.
move=> C m e V ps Q hQ Q0 HQ k F ek hF h vol W zs on.
by have [v vn H] := full_vector hQ Q0 HQ ek hF; exact: (mean_singular _ _ _ vn H on).
Qed.

Lemma rank_few_all : forall (C : numClosedFieldType) (B : basis) (h : 'M[C]_(size (power_matrix B))) vol W zs,
  (size zs < size (power_matrix B))%N -> T_mean h vol W zs \notin unitmx.
Proof.
move=> C B h vol W zs lt; apply/negP => Tu; set N := size (power_matrix B) in h Tu lt *.
pose A : 'M[C]_(N, size zs) := \matrix_(a, j) hom_sections B (nth [::] zs j) 0 a.
have : \rank (kermx A) != 0%N by rewrite mxrank_ker -lt0n subn_gt0 (leq_ltn_trans (rank_leq_col A)).
rewrite mxrank_eq0 => /rowV0Pn[v /sub_kermxP vA /negP[]]; apply/eqP.
suff E : v *m T_mean h vol W zs = 0 by rewrite -[v](mulmxK Tu) E mul0mx.
rewrite -T_mean_of; apply: T_kernel => p /mapP[z zi ->] /=; rewrite [X in _ * X](_ : _ = 0) ?mulr0 //.
have /(nthP [::])[j lj <-] := zi; transitivity ((v *m A) 0 (Ordinal lj)); last by rewrite vA mxE.
by rewrite mxE; apply: eq_bigr => a _; rewrite [A _ _]mxE.
Qed.

Lemma rank_line_all : forall (C : numClosedFieldType) m e (V : variety C) ps (Q : {mpoly C[m.+2]}),
  defined_by V ps Q -> Q \is e.-homog -> (forall i, variable_occurs Q i) -> (0 < e)%N -> Q@_(U_(ord0) *+ e) != 0 ->
  forall (y : 'rV[C]_m.+1) ts, uniq ts -> size ts = e ->
  (forall t, t \in ts -> v_defining V (t :: row_seq y) (PArr ps) (PatchNone C) = Ok 0) ->
  forall k B, basis_reduced Q k = Ok B -> independent_on V ps m B.
Proof.
move=> C m e V ps Q hQ HQ occ e0 co y ts ut st Ht k B hB.
have Qt t : t \in ts -> peval Q (pt ord0 y t) = 0 by move=> /Ht; rewrite -pt_meaning hQ => -[].
exact: (transversal_independent hQ HQ co ut st Qt e0 occ hB).
Qed.

Lemma fermat_both_bases (C : numClosedFieldType) m k : (m.+3 <= k)%N -> exists F B zs,
  [/\ basis_full m.+2 k = Ok F, basis_reduced (dwork_Q m.+1 0 : {mpoly C[m.+3]}) k = Ok B,
      points_on (fermat_variety C m.+1) [::] m.+1 zs,
      T_mean (1%:M : 'M[C]_(size (power_matrix F))) 1 (fun _ => 1) zs \notin unitmx &
      T_mean (1%:M : 'M[C]_(size (power_matrix B))) 1 (fun _ => 1) zs \in unitmx].
Proof.
move=> mk; have [F [B [hF hB _ _]]] := @dwork_bases C m.+1 0 k mk.
have [zs [_ on H]] := good_sample (fermat_independent hB).
exists F, B, zs; split=> //.
  exact: (rank_full_all (@fermat_defined C m.+1 [::]) (dwork_neq0 _ _) (dwork_Q_homog _ _) mk hF).
by apply: H => [||| z _]; rewrite ?ltr01 //; [exact: herm1|exact: pd1].
Qed.
