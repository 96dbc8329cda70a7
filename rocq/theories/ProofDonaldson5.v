(** Proofs about the fixed points of the Donaldson step on one sample: order,
    bounds, minimum of the energy, uniqueness. *)
From Coq Require Import ZArith Lia.
From mathcomp Require Import all_ssreflect all_algebra zify ssrZ ring.
From Verif Require Import Base Herm Herm2 Herm3 Herm4 ModelDonaldson SpecDonaldson SpecStep ProofDonaldson2
  ProofDonaldson4.
Delimit Scope Z_scope with Z.

Set Implicit Arguments.
Unset Strict Implicit.
Unset Printing Implicit Defensive.

Import GRing.Theory Num.Theory Order.POrderTheory.
Local Open Scope ring_scope.

Section Diag.
Variables (C : numClosedFieldType) (n : nat).
Implicit Types (J : 'M[C]_n) (d : 'rV[C]_n).

Lemma hform_diag d v : hform (diag_mx d) v = \sum_i d 0 i * `|v 0 i| ^+ 2.
Proof.
apply: eq_bigr => i _; rewrite (bigD1 i) //= mxE eqxx mulr1n big1 => [|j ji].
  by rewrite addr0 normCK [v 0 i * _]mulrC -mulrA.
by rewrite mxE eq_sym (negPf ji) mulr0n mulr0 mul0r.
Qed.

Lemma hform_Jd J d v : hform (J *m diag_mx d *m adjm J) v = \sum_i d 0 i * `|(v *m J) 0 i| ^+ 2.
Proof. by rewrite hform_congr hform_diag. Qed.

Lemma one_diag : 1%:M = diag_mx (const_mx 1) :> 'M[C]_n.
Proof. by rewrite diag_const_mx. Qed.

Lemma delta_diag i : delta_mx i i = diag_mx (delta_mx 0 i) :> 'M[C]_n.
Proof.
apply/matrixP => j k; rewrite !mxE eqxx /=; have [<-|jk] := eqVneq j k.
  by rewrite andbb mulr1n.
by case: (eqVneq j i) jk => [->|_ _] /=; rewrite ?mulr0n // eq_sym => /negPf ->.
Qed.

Lemma hform_Jdelta J i v : hform (J *m delta_mx i i *m adjm J) v = `|(v *m J) 0 i| ^+ 2.
Proof.
rewrite delta_diag hform_Jd (bigD1 i) //= mxE !eqxx mul1r big1 ?addr0 // => j ji.
by rewrite mxE (negPf ji) andbF mul0r.
Qed.

Lemma simdiag2 (h g : 'M[C]_n) : hermitian h -> posdef h -> hermitian g ->
  exists J d, [/\ J \in unitmx, h = J *m diag_mx (const_mx 1) *m adjm J, g = J *m diag_mx d *m adjm J &
    forall i, d 0 i \is Num.real].
Proof.
move=> hh ph hg; have [K [d [uK E1 E2]]] := simdiag hh ph hg.
have uJ : invmx K \in unitmx by rewrite unitmx_inv.
have back (A D : 'M[C]_n) : K *m A *m adjm K = D -> A = invmx K *m D *m adjm (invmx K).
  move=> <-; by rewrite !mulmxA mulVmx // mul1mx -mulmxA -adjm_mul mulVmx // adjm1 mulmx1.
exists (invmx K), d; split=> //; try exact: back.
  by apply: back; rewrite -one_diag.
move=> i; have hD : hermitian (diag_mx d) by rewrite -E2; apply: hermitian_congr.
by have := hD i i; rewrite !mxE eqxx mulr1n => e; apply/CrealP.
Qed.

Lemma diag_pos J d : J \in unitmx -> posdef (J *m diag_mx d *m adjm J) -> forall i, 0 < d 0 i.
Proof.
move=> uJ pg i; have uK : invmx J \in unitmx by rewrite unitmx_inv.
have := posdef_congr_unit uK pg; rewrite !mulmxA mulVmx // mul1mx -mulmxA -adjm_mul mulVmx // adjm1 mulmx1.
by move=> /(posdef_diag i); rewrite mxE eqxx mulr1n.
Qed.

Lemma tr_Jdelta J d i : J \in unitmx -> (forall j, d 0 j != 0) ->
  \tr (invmx (J *m diag_mx d *m adjm J) *m (J *m delta_mx i i *m adjm J)) = (d 0 i)^-1.
Proof.
move=> uJ d0; have uJ' := adjm_unit uJ.
pose e : 'rV[C]_n := \row_j (d 0 j)^-1.
have de : diag_mx d *m diag_mx e = 1%:M.
  by rewrite mulmx_diag -diag_const_mx; congr diag_mx; apply/rowP => j; rewrite !mxE divff.
have -> : invmx (J *m diag_mx d *m adjm J) = invmx (adjm J) *m diag_mx e *m invmx J.
  set X := _ *m adjm J; set Y := _ *m invmx J.
  have XY : X *m Y = 1%:M.
    by rewrite /X /Y -!mulmxA [adjm J *m _]mulmxA mulmxV // mul1mx [diag_mx d *m _]mulmxA de mul1mx mulmxV.
  by have /mulmx1_unit[uX _] := XY; rewrite -[RHS]mul1mx -(mulVmx uX) -mulmxA XY mulmx1.
rewrite -!mulmxA [invmx J *m _]mulmxA mulVmx // mul1mx mxtrace_mulC -!mulmxA mulmxV // mulmx1.
rewrite delta_diag mulmx_diag mxtrace_diag (bigD1 i) //= !mxE !eqxx mulr1 big1 ?addr0 // => j ji.
by rewrite !mxE (negPf ji) andbF mulr0.
Qed.

Lemma real_max (s : seq C) : s != [::] -> (forall x, x \in s -> x \is Num.real) ->
  exists2 m, m \in s & forall x, x \in s -> x <= m.
Proof.
elim: s => [//|a [|b s] IH] _ R.
  by exists a; rewrite ?mem_head // => x; rewrite inE => /eqP ->.
have [//|x xs|m ms M] := IH _; first by apply: R; rewrite inE xs orbT.
have ms' : m \in a :: b :: s by rewrite in_cons ms orbT.
case/orP: (real_leVge (R a (mem_head _ _)) (R m ms')) => le.
  by exists m => // x; rewrite in_cons => /orP[/eqP -> //|/M].
exists a; rewrite ?mem_head // => x; rewrite in_cons => /orP[/eqP -> //|/M xm].
exact: le_trans le.
Qed.

Lemma row_max d : (0 < n)%N -> (forall i, d 0 i \is Num.real) -> exists i, forall j, d 0 j <= d 0 i.
Proof.
move=> n0 R; have [||m /mapP[i _ ->] M] := @real_max [seq d 0 i | i : 'I_n].
- by rewrite -size_eq0 size_map -cardT card_ord -lt0n.
- by move=> x /mapP[i _ ->].
by exists i => j; apply/M/map_f; rewrite mem_enum.
Qed.
End Diag.

Lemma alg_en (C : numClosedFieldType) (c a b l s : C) : c * a - (l + s) - (c * b - l) = c * (a - b) - s.
Proof. by ring. Qed.

Section Fixed.
Variables (C : numClosedFieldType) (N : nat).
Notation sample := (sample C N).
Variables (vol : C) (bs : seq (seq sample)).
Hypotheses (eb : equal_batches bs) (v0 : 0 < vol) (sp : spanning (flatten bs)).
Hypothesis wp : forall p, p \in flatten bs -> 0 <= weight p /\ p.1 != 0.

(** c = N / (vol * number of points) *)
Let c : C := N%:R / vol / (size (flatten bs))%:R.

Lemma c_ge0 : 0 <= c. Proof. by rewrite /c !divr_ge0 ?ler0n // ltW. Qed.

Lemma step_test h H' M : hermitian h -> posdef h -> donaldson_step true h vol bs = Ok H' ->
  c * (\sum_(p <- flatten bs) weight p * (hform M p.1 / hform h p.1)) = \tr (invmx H' *m M).
Proof.
move=> hh ph [<-]; rewrite T_ofE // trmx_inv invmxK /c -[LHS]mulrA [(size _)%:R^-1 * _]mulrC.
have -> : \tr ((T_of h vol (flatten bs))^T *m M) = \sum_a \sum_b T_of h vol (flatten bs) a b * M a b.
  rewrite /mxtrace exchange_big /=; apply: eq_bigr => a _; rewrite mxE; apply: eq_bigr => b _.
  by rewrite [(_^T) _ _]mxE.
rewrite mulr_suml mulr_sumr.
under [RHS]eq_bigr => a _ do under eq_bigr => b _ do rewrite mxE mulr_suml mulr_sumr mulr_suml.
under [RHS]eq_bigr => a _ do rewrite exchange_big.
rewrite [RHS]exchange_big /=; apply: eq_bigr => p _.
rewrite [hform M _]/hform mulr_suml mulr_sumr mulr_suml mulr_sumr; apply: eq_bigr => a _.
rewrite mulr_suml mulr_sumr mulr_suml mulr_sumr; apply: eq_bigr => b _.
by ring.
Qed.

Lemma step_ok h : hermitian h -> posdef h -> exists H', donaldson_step true h vol bs = Ok H'.
Proof. by move=> hh ph; have [H' [E _ _]] := step_posdef hh ph eb v0 wp sp; exists H'. Qed.

Lemma step_order h1 h2 H1 H2 : hermitian h1 -> posdef h1 -> hermitian h2 -> posdef h2 -> loewner h1 h2 ->
  donaldson_step true h1 vol bs = Ok H1 -> donaldson_step true h2 vol bs = Ok H2 -> loewner H1 H2.
Proof.
move=> hh1 ph1 hh2 ph2 le E1 E2.
have [hH1 pH1] := step_pd eb v0 sp wp hh1 ph1 E1; have [hH2 pH2] := step_pd eb v0 sp wp hh2 ph2 E2.
have [J [d [uJ JE1 JE2 dr]]] := simdiag2 hH1 pH1 hH2.
have d0 : forall i, 0 < d 0 i by apply: (diag_pos uJ); rewrite -JE2.
have d1 i : 1 <= d 0 i.
  rewrite -invr_le1 ?unitfE ?lt0r_neq0 //.
  have -> : (d 0 i)^-1 = \tr (invmx H2 *m (J *m delta_mx i i *m adjm J)).
    by rewrite JE2 tr_Jdelta // => j; rewrite lt0r_neq0.
  have -> : 1 = \tr (invmx H1 *m (J *m delta_mx i i *m adjm J)).
    by rewrite JE1 tr_Jdelta // => [|j]; rewrite mxE ?invr1 // oner_neq0.
  rewrite -(step_test _ hh1 ph1 E1) -(step_test _ hh2 ph2 E2).
  apply: ler_wpmul2l; first exact: c_ge0.
  rewrite big_seq [X in _ <= X]big_seq; apply: ler_sum => p /wp[w0 s0]; apply: ler_wpmul2l => //.
  rewrite hform_Jdelta; apply: ler_wpmul2l; first exact: exprn_ge0.
  rewrite lef_pinv ?posrE ?ph1 ?ph2 //; have := le p.1.
  by rewrite !hformE mulmxBr mulmxBl mxE [(- _ : 'M_1) _ _]mxE subr_ge0.
move=> v; rewrite hformE mulmxBr mulmxBl mxE [(- _ : 'M_1) _ _]mxE subr_ge0 -!hformE JE1 JE2 !hform_Jd.
by apply: ler_sum => i _; rewrite mxE; apply: ler_wpmul2r; rewrite ?exprn_ge0.
Qed.

Lemma posdef_scale a (h : 'M[C]_N) : 0 < a -> posdef h -> posdef (a *: h).
Proof. by move=> a0 ph v /ph p0; rewrite hform_scale mulr_gt0. Qed.

Lemma hermitian_scale a (h : 'M[C]_N) : 0 < a -> hermitian h -> hermitian (a *: h).
Proof. by move=> a0 hh i j; rewrite !mxE hh cjM; congr (_ * _); apply/esym/conj_Creal/gtr0_real. Qed.

Lemma step_scale a h H' : 0 < a -> hermitian h -> posdef h ->
  donaldson_step true h vol bs = Ok H' -> donaldson_step true (a *: h) vol bs = Ok (a *: H').
Proof.
move=> a0 hh ph E; apply: step_scale_h => //; rewrite ?gtr0_real ?lt0r_neq0 ?sym_id //.
exact: (step_Tu eb v0 sp wp hh ph E).
Qed.

Lemma step_between a b h1 h2 H1 H2 : 0 < a -> 0 < b -> hermitian h1 -> posdef h1 -> hermitian h2 -> posdef h2 ->
  donaldson_step true h1 vol bs = Ok H1 -> donaldson_step true h2 vol bs = Ok H2 ->
  loewner (a *: h1) h2 -> loewner h2 (b *: h1) -> loewner (a *: H1) H2 /\ loewner H2 (b *: H1).
Proof.
move=> a0 b0 hh1 ph1 hh2 ph2 E1 E2 la lb; split.
  apply: (step_order _ _ _ _ la _ E2) => //; last exact: step_scale.
    exact: hermitian_scale. exact: posdef_scale.
apply: (step_order _ _ _ _ lb E2) => //; last exact: step_scale.
  exact: hermitian_scale. exact: posdef_scale.
Qed.

Lemma iterates_between a b g (hs : nat -> 'M[C]_N) : balanced vol bs g -> hermitian (hs 0%N) -> posdef (hs 0%N) -> iterates vol bs hs ->
  0 < a -> 0 < b -> loewner (a *: g) (hs 0%N) -> loewner (hs 0%N) (b *: g) ->
  forall k, loewner (a *: g) (hs k) /\ loewner (hs k) (b *: g).
Proof.
move=> [hg pg Eg] hh ph hsS a0 b0 la lb; elim=> [//|k [l1 l2]].
have [hk pk] := steps_pd eb v0 sp wp hh ph hsS k.
exact: (step_between a0 b0 hg pg hk pk Eg (hsS k)).
Qed.

Hypothesis vE : vol = (\sum_(p <- flatten bs) weight p) / (size (flatten bs))%:R.

Let W : C := \sum_(p <- flatten bs) weight p.

Lemma W_gt0 : 0 < W.
Proof.
have z : 0 < (size (flatten bs))%:R :> C by rewrite lt0r (size_flat_neq0 v0 vE) ler0n.
by move: v0; rewrite vE pmulr_lgt0 // invr_gt0.
Qed.

Lemma cE : c = N%:R / W.
Proof.
have z := size_flat_neq0 v0 vE; have w := lt0r_neq0 W_gt0; rewrite /c [in LHS]vE -/W.
by move: W (size _)%:R z w => x y z w; field; rewrite w.
Qed.

Section Log.
Variable lg : C -> C.
Hypothesis lgo : log_like lg.
Let lg_le := lgo.1.
Let lg_div := lgo.2.

Lemma lg1 : lg 1 = 0.
Proof. by rewrite -(divr1 1) lg_div ?ltr01 // subrr. Qed.

Lemma lgM x y : 0 < x -> 0 < y -> lg (x * y) = lg x + lg y.
Proof. by move=> x0 y0; rewrite -[in RHS](mulfK (lt0r_neq0 y0) x) lg_div ?mulr_gt0 // subrK. Qed.

Lemma lg_prod n (d : 'I_n -> C) : (forall i, 0 < d i) -> lg (\prod_i d i) = \sum_i lg (d i).
Proof.
move=> d0; have : 0 < \prod_i d i /\ lg (\prod_i d i) = \sum_i lg (d i); last by case.
apply: (big_ind2 (fun x y => 0 < x /\ lg x = y)) => [|x y z u [x0 <-] [z0 <-]|i _] //.
  by rewrite ltr01 lg1.
by rewrite mulr_gt0 // lgM.
Qed.

(** Jensen *)
Lemma jensen n (q d : 'I_n -> C) : (forall i, 0 <= q i) -> \sum_i q i = 1 -> (forall i, 0 < d i) ->
  \sum_i q i * lg (d i) <= lg (\sum_i q i * d i).
Proof.
move=> q0 q1 d0; pose m := \sum_i q i * d i.
have m0 : 0 < m.
  rewrite lt0r sumr_ge0 ?andbT => [|i _]; last by rewrite mulr_ge0 // ltW.
  apply/eqP => /(psumr_eq0P (fun i _ => mulr_ge0 (q0 i) (ltW (d0 i)))) e.
  have : \sum_i q i = 0.
    by apply: big1 => i _; have /eqP := e i isT; rewrite mulf_eq0 (gt_eqF (d0 i)) orbF => /eqP.
  by rewrite q1 => /eqP; rewrite oner_eq0.
rewrite -subr_le0 -[lg _]mul1r -{1}q1 mulr_suml -sumrB.
have e : \sum_i q i * (d i / m - 1) = 0.
  under eq_bigr => i _ do rewrite mulrBr mulr1 mulrA.
  by rewrite sumrB -mulr_suml q1 divff ?subrr // lt0r_neq0.
rewrite -[X in _ <= X]e; apply: ler_sum => i _; rewrite -mulrBr -lg_div //.
by apply: ler_wpmul2l => //; apply: lg_le; rewrite divr_gt0.
Qed.

Lemma balanced_min g h : balanced vol bs g -> hermitian h -> posdef h ->
  energy lg (flatten bs) g <= energy lg (flatten bs) h.
Proof.
move=> [hg pg Eg] hh ph; have [J [d [uJ JE1 JE2 dr]]] := simdiag2 hg pg hh.
have d0 : forall i, 0 < d 0 i by apply: (diag_pos uJ); rewrite -JE2.
have W0 := W_gt0; have dg := posdef_det pg; have dh := posdef_det ph.
pose t (p : sample) i := `|(p.1 *m J) 0 i| ^+ 2.
have g_t p : hform g p.1 = \sum_i t p i by rewrite JE1 hform_Jd; apply: eq_bigr => i _; rewrite mxE mul1r.
have h_t p : hform h p.1 = \sum_i d 0 i * t p i by rewrite JE2 hform_Jd.
have key i : c * (\sum_(p <- flatten bs) weight p * (t p i / hform g p.1)) = 1.
  have := step_test (J *m delta_mx i i *m adjm J) hg pg Eg.
  rewrite {2}JE1 tr_Jdelta // => [|j]; rewrite mxE ?invr1 ?oner_neq0 // => <-.
  by congr (_ * _); apply: eq_bigr => p _; rewrite hform_Jdelta.
have dE : \det h = \det g * \prod_i d 0 i.
  rewrite JE1 JE2 !det_mulmx !det_diag [\prod_(i < N) const_mx 1 0 i]big1 => [|i _]; last by rewrite mxE.
  by rewrite mulr1 mulrAC.
rewrite /energy -subr_ge0 dE lgM ?prodr_gt0 // lg_prod // -/W -cE.
pose A := \sum_(p <- flatten bs) weight p * lg (hform h p.1).
pose B := \sum_(p <- flatten bs) weight p * lg (hform g p.1).
rewrite -/A -/B.
suff le : \sum_i lg (d 0 i) <= c * (A - B).
  have -> : c * A - (lg (\det g) + \sum_i lg (d 0 i)) - (c * B - lg (\det g)) = c * (A - B) - \sum_i lg (d 0 i).
    exact: alg_en.
  by rewrite subr_ge0.
have -> : \sum_i lg (d 0 i) = c * (\sum_(p <- flatten bs) weight p * \sum_i (t p i / hform g p.1) * lg (d 0 i)).
  rewrite (eq_bigr (fun i => c * (\sum_(p <- flatten bs) weight p * (t p i / hform g p.1)) * lg (d 0 i))); last first.
    by move=> i _; rewrite key mul1r.
  rewrite [in RHS]mulr_sumr.
  under [RHS]eq_bigr => p _ do rewrite mulr_sumr mulr_sumr.
  rewrite exchange_big /=; apply: eq_bigr => i _; rewrite -mulrA mulr_suml mulr_sumr; apply: eq_bigr => p _.
  by rewrite !mulrA.
apply: ler_wpmul2l; first exact: c_ge0.
rewrite /A /B -sumrB big_seq [X in _ <= X]big_seq; apply: ler_sum => p /wp[w0 s0].
rewrite -mulrBr -lg_div ?ph ?pg //; apply: ler_wpmul2l => //.
have g0 := pg _ s0; apply: le_trans (jensen _ _ d0) _.
- by move=> i; rewrite divr_ge0 ?exprn_ge0 // ltW.
- by rewrite -mulr_suml -g_t divff // lt0r_neq0.
suff -> : hform h p.1 / hform g p.1 = \sum_i t p i / hform g p.1 * d 0 i by [].
by rewrite h_t mulr_suml; apply: eq_bigr => i _; rewrite [d 0 i * _]mulrC mulrAC.
Qed.
End Log.

Lemma balanced_unique g h : indecomposable (flatten bs) -> balanced vol bs g -> balanced vol bs h ->
  exists2 a, 0 < a & h = a *: g.
Proof.
move=> ind [hg pg Eg] [hh ph Eh]; have [N0|N0] := posnP N.
  by exists 1; [exact: ltr01|apply/matrixP => i; have := ltn_ord i; rewrite [X in (_ < X)%N]N0].
have [J [d [uJ JE1 JE2 dr]]] := simdiag2 hg pg hh.
have d0 : forall i, 0 < d 0 i by apply: (diag_pos uJ); rewrite -JE2.
pose t (p : sample) i := `|(p.1 *m J) 0 i| ^+ 2.
have t0 p i : 0 <= t p i by exact: exprn_ge0.
have g_t p : hform g p.1 = \sum_i t p i by rewrite JE1 hform_Jd; apply: eq_bigr => i _; rewrite mxE mul1r.
have h_t p : hform h p.1 = \sum_i d 0 i * t p i by rewrite JE2 hform_Jd.
have c0 : c != 0 by rewrite cE mulf_neq0 ?invr_eq0 ?lt0r_neq0 ?W_gt0 // ltr0n.
have key1 i : c * (\sum_(p <- flatten bs) weight p * (t p i / hform g p.1)) = 1.
  have := step_test (J *m delta_mx i i *m adjm J) hg pg Eg.
  rewrite {2}JE1 tr_Jdelta // => [|j]; rewrite mxE ?invr1 ?oner_neq0 // => <-.
  by congr (_ * _); apply: eq_bigr => p _; rewrite hform_Jdelta.
have key2 i : c * (\sum_(p <- flatten bs) weight p * (t p i / hform h p.1)) = (d 0 i)^-1.
  have := step_test (J *m delta_mx i i *m adjm J) hh ph Eh.
  rewrite {2}JE2 tr_Jdelta // => [<-|j]; last by rewrite lt0r_neq0.
  by congr (_ * _); apply: eq_bigr => p _; rewrite hform_Jdelta.
have [i M] := row_max N0 dr.
have dif p k : p \in flatten bs -> d 0 k = d 0 i ->
  t p k * (d 0 k / hform h p.1 - (hform g p.1)^-1) = (t p k / (hform h p.1 * hform g p.1)) * \sum_j (d 0 i - d 0 j) * t p j.
  move=> /wp[_ s0] ->; have e : \sum_j (d 0 i - d 0 j) * t p j = d 0 i * hform g p.1 - hform h p.1.
    by rewrite g_t h_t mulr_sumr -sumrB; apply: eq_bigr => j _; rewrite mulrBl.
  rewrite e; have := lt0r_neq0 (pg _ s0); have := lt0r_neq0 (ph _ s0).
  by move: (hform h _) (hform g _) (t p k) (d 0 i) => x y u v xn yn; field; apply/andP.
have S_ge0 p : 0 <= \sum_j (d 0 i - d 0 j) * t p j.
  by apply: sumr_ge0 => j _; rewrite mulr_ge0 // subr_ge0 M.
(* points of positive weight with a component along a maximal direction *)
have flat p k : p \in flatten bs -> 0 < weight p -> d 0 k = d 0 i -> t p k != 0 ->
  forall j, t p j != 0 -> d 0 j = d 0 i.
  move=> pin w0 dk tk.
  have Z : \sum_(p <- flatten bs) weight p * (t p k * (d 0 k / hform h p.1 - (hform g p.1)^-1)) = 0.
    apply: (mulfI c0); rewrite mulr0.
    have := key2 k; have := key1 k => k1 k2.
    have -> : \sum_(p <- flatten bs) weight p * (t p k * (d 0 k / hform h p.1 - (hform g p.1)^-1)) =
      d 0 k * (\sum_(p <- flatten bs) weight p * (t p k / hform h p.1)) - \sum_(p <- flatten bs) weight p * (t p k / hform g p.1).
      rewrite mulr_sumr -sumrB; apply: eq_bigr => q _.
      by move: (hform h _)^-1 (hform g _)^-1 => x y; ring.
    by rewrite mulrBr mulrCA k1 k2 divff ?subrr // lt0r_neq0.
  have : \sum_(p <- flatten bs | p \in flatten bs) weight p * (t p k * (d 0 k / hform h p.1 - (hform g p.1)^-1)) == 0.
    by rewrite -big_seq Z.
  rewrite psumr_eq0 => [/allP/(_ p pin)|q qin]; last first.
    have [wq sq] := wp qin; rewrite dif //; apply: mulr_ge0 => //; apply: mulr_ge0 => //.
    by apply: divr_ge0 => //; apply: mulr_ge0; apply: ltW; [exact: ph|exact: pg].
  rewrite pin /= dif // mulrA => /eqP e j tj; have [_ s0] := wp pin.
  have nz : weight p * (t p k / (hform h p.1 * hform g p.1)) != 0.
    apply: mulf_neq0; first exact: lt0r_neq0.
    apply: mulf_neq0 => //; rewrite invr_eq0; apply: mulf_neq0; apply: lt0r_neq0; [exact: ph|exact: pg].
  have {e}e : \sum_j (d 0 i - d 0 j) * t p j = 0 by apply: (mulfI nz); rewrite mulr0.
  have nn j' : true -> 0 <= (d 0 i - d 0 j') * t p j' by move=> _; apply: mulr_ge0 => //; rewrite subr_ge0.
  move/(psumr_eq0P nn)/(_ j isT)/eqP: e; move: (t p j) tj => x x0; rewrite mulf_eq0 (negPf x0) orbF subr_eq0.
  by move/eqP.
have [/forallP a|/forallPn[j0 dj0]] := boolP [forall j, d 0 j == d 0 i].
  exists (d 0 i); first exact: d0.
  rewrite JE1 [LHS]JE2; have -> : d = d 0 i *: const_mx 1 by apply/rowP => j; rewrite !mxE mulr1; apply/eqP.
  by rewrite linearZ /= -scalemxAr -scalemxAl !mxE mulr1.
pose S : 'M[C]_N := diag_mx (\row_j (d 0 j == d 0 i)%:R).
have SS : S *m S = S.
  by rewrite mulmx_diag; congr diag_mx; apply/rowP => j; rewrite !mxE; case: (_ == _); rewrite ?mulr1 ?mulr0.
pose P := J *m S *m invmx J.
have PJ : P *m J = J *m S by rewrite /P -mulmxA mulVmx // mulmx1.
have JS : S = invmx J *m P *m J by rewrite -mulmxA PJ mulmxA mulVmx // mul1mx.
have SE j : S j j = (d 0 j == d 0 i)%:R by rewrite !mxE eqxx mulr1n.
have [|||p pin [w0 [sP0 sP1]]] := ind P.
- by rewrite {2}/P !mulmxA PJ -[J *m S *m S]mulmxA SS.
- apply/eqP => P0; have := SE i; rewrite JS P0 mulmx0 mul0mx mxE eqxx => /eqP.
  by rewrite eq_sym oner_eq0.
- apply/eqP => P1; have := SE j0; rewrite JS P1 mulmx1 mulVmx // mxE eqxx (negPf dj0) => /eqP.
  by rewrite oner_eq0.
exfalso; have [k pk] : exists k, (p.1 *m J *m S) 0 k != 0.
  apply/rV0Pn; apply: contra_neq sP0 => e0.
  by rewrite /P !mulmxA e0 mul0mx.
have [dk tk] : d 0 k = d 0 i /\ t p k != 0.
  move: pk; rewrite mul_mx_diag mxE [(\row_j _) _ _]mxE; have [dk|_] := eqVneq (d 0 k) (d 0 i); rewrite ?mulr0 ?eqxx //.
  by rewrite mulr1 => nz; split=> //; rewrite /t expf_eq0 /= normr_eq0.
have fl := flat p k pin w0 dk tk; case/eqP: sP1; rewrite /P !mulmxA.
have -> : p.1 *m J *m S = p.1 *m J.
  apply/rowP => j; rewrite mul_mx_diag mxE [(\row_j _) _ _]mxE; have [_|ne] := eqVneq (d 0 j) (d 0 i); first by rewrite mulr1.
  rewrite mulr0; apply/esym/eqP; apply: contraNT ne => nz; apply/eqP/fl.
  by rewrite /t expf_eq0 /= normr_eq0.
by rewrite mulmxK.
Qed.
End Fixed.
