(** donaldson_step. *)
From Coq Require Import ZArith.
From mathcomp Require Import all_ssreflect all_algebra.
From mathcomp Require Import ring.
From Verif Require Import Base ModelUtil ModelGeom ModelDonaldson Deriv Bridge Herm Herm2 SpecGeom SpecDonaldson.
Delimit Scope Z_scope with Z.

Set Implicit Arguments.
Unset Strict Implicit.
Unset Printing Implicit Defensive.

Import GRing.Theory Num.Theory Order.POrderTheory.
Local Open Scope ring_scope.

#[local] Hint Extern 0 (is_true (0 < _)) => solve [apply: ltr01 | apply: ltr0Sn] : core.

Section Matrices.
Variables (C : numClosedFieldType) (N : nat).
Implicit Types A B : 'M[C]_N.

Lemma adjm_inv A : A \in unitmx -> adjm (invmx A) = invmx (adjm A).
Proof.
move=> Au; have E : adjm A *m adjm (invmx A) = 1%:M by rewrite -adjm_mul mulVmx // adjm1.
have [U _] := mulmx1_unit E.
by rewrite -[LHS]mul1mx -(mulVmx U) -mulmxA E mulmx1.
Qed.

Lemma hermitian_inv A : A \in unitmx -> hermitian A -> hermitian (invmx A).
Proof. by move=> Au /hermitianP H; apply/hermitianP; rewrite adjm_inv // H. Qed.

Lemma hermitian_tr A : hermitian A -> hermitian A^T.
Proof. by move=> H i j; rewrite !mxE H. Qed.

Lemma posdef_inv A : hermitian A -> posdef A -> posdef (invmx A).
Proof.
move=> hA pA; have Au := posdef_unit pA.
have hI : adjm (invmx A) = invmx A by apply/hermitianP/hermitian_inv.
have -> : invmx A = invmx A *m A *m adjm (invmx A) by rewrite mulVmx // mul1mx hI.
by apply: posdef_congr => // v vA; rewrite -[v]mulmx1 -(mulVmx Au) mulmxA vA mul0mx.
Qed.

Lemma hform_tr A v : hform A^T v = hform A (map_mx conjC v).
Proof.
rewrite /hform exchange_big; apply: eq_bigr => i _; apply: eq_bigr => j _.
by rewrite !mxE cjK mulrC mulrA mulrAC.
Qed.

Lemma posdef_tr A : posdef A -> posdef A^T.
Proof.
move=> pA v v0; rewrite hform_tr; apply: pA; apply: contra_neq v0 => v0.
by apply/rowP => i; have /rowP/(_ i) := v0; rewrite !mxE => /eqP; rewrite conjC_eq0 => /eqP.
Qed.

Lemma hform_scale c A v : hform (c *: A) v = c * hform A v.
Proof.
rewrite /hform mulr_sumr; apply: eq_bigr => i _; rewrite mulr_sumr.
by apply: eq_bigr => j _; rewrite mxE mulrCA !mulrA.
Qed.

Lemma hform_sum (I : Type) (r : seq I) (F : I -> 'M[C]_N) v :
  hform (\sum_(i <- r) F i) v = \sum_(i <- r) hform (F i) v.
Proof. by rewrite hformE mulmx_sumr mulmx_suml summxE; apply: eq_bigr => i _; rewrite hformE. Qed.

Lemma invmx_scale c A : c != 0 -> A \in unitmx -> invmx (c *: A) = c^-1 *: invmx A.
Proof.
move=> c0 Au; have E : (c *: A) *m (c^-1 *: invmx A) = 1%:M.
  by rewrite -scalemxAl -scalemxAr scalerA divff // scale1r mulmxV.
have [U _] := mulmx1_unit E.
by rewrite -[LHS]mulmx1 -E mulmxA mulVmx // mul1mx.
Qed.
End Matrices.

Section Step.
Variables (C : numClosedFieldType) (N : nat).
Notation sample := (sample C N).
Implicit Types (h A : 'M[C]_N) (pts : seq sample) (bs : seq (seq sample)) (s v : 'rV[C]_N).

Notation wt := (@weight C N).

Lemma sym_hermitian h : hermitian (sym_h h).
Proof.
move=> i j; rewrite !mxE cjE cjE cjE cjK; congr (_ * _); last by rewrite addrC.
by rewrite cjn.
Qed.

Lemma sym_id h : hermitian h -> sym_h h = h.
Proof.
move=> H; apply/matrixP => i j; rewrite !mxE -H -mulr2n -[X in _ * X]mulr_natl mulrA mulVf ?mul1r //.
by rewrite pnatr_eq0.
Qed.

Lemma den_hform h s : hermitian h -> den h s = hform h s.
Proof.
move=> H; rewrite /den; have := hform_real s H => /Creal_ReP.
have -> // : hform h s = \sum_a \sum_b s 0 a * (s 0 b)^* * h a b.
by apply: eq_bigr => a _; apply: eq_bigr => b _; rewrite mulrAC.
Qed.

Lemma den_sym h s : den (sym_h h) s = den h s.
Proof.
rewrite den_hform; last exact: sym_hermitian.
rewrite /den; set X := \sum_a _.
have X1 : X = hform h s.
  by apply: eq_bigr => a _; apply: eq_bigr => b _; rewrite mulrAC.
have X2 : X^* = hform (map_mx conjC h^T) s.
  rewrite /X cj_sum /hform [RHS]exchange_big; apply: eq_bigr => a _; rewrite cj_sum.
  by apply: eq_bigr => b _; rewrite !mxE !cjE; ring.
rewrite ReE X2 X1 hform_scale mulrC; congr (_ * _).
by rewrite !hformE mulmxDr mulmxDl mxE.
Qed.

Definition outer s : 'M[C]_N := s^T *m adjm s^T.

Lemma outerE s a b : outer s a b = s 0 a * (s 0 b)^*.
Proof. by rewrite /outer mxE big_ord1 !mxE. Qed.

Lemma outer_herm s : hermitian (outer s).
Proof. by move=> i j; rewrite !outerE !cjE mulrC. Qed.

Lemma hform_outer s v : hform (outer s) v = `|\sum_a v 0 a * s 0 a| ^+ 2.
Proof.
rewrite normCK cj_sum mulr_suml /hform; apply: eq_bigr => a _; rewrite mulr_sumr.
by apply: eq_bigr => b _; rewrite outerE !cjE -!mulrA; congr (_ * (_ * _)); rewrite mulrC.
Qed.

Lemma delta_outer h pts : delta_T h pts =
  (size pts)%:R^-1 *: \sum_(p <- pts) (wt p / den h p.1) *: outer p.1.
Proof.
apply/matrixP => a b; rewrite !mxE /mean size_map big_map mulrC summxE; congr (_ * _).
by apply: eq_bigr => p _; rewrite mxE outerE mulrC.
Qed.

Lemma T_loop_sum h bs : T_loop h bs = (size bs)%:R^-1 *: \sum_(b <- bs) delta_T h b.
Proof.
rewrite /T_loop; move: (size bs) => k.
suff E T : foldl (fun T pts => batch_step h k pts T) T bs = T + k%:R^-1 *: \sum_(b <- bs) delta_T h b.
  by rewrite E add0r.
elim: bs T => [|b bs IH] T /=; first by rewrite big_nil scaler0 addr0.
by rewrite IH big_cons /batch_step scalerDr addrA.
Qed.

Lemma size_flat B bs : all (fun b => size b == B) bs -> size (flatten bs) = (size bs * B)%N.
Proof. by elim: bs => [//|b bs IH] /= /andP[/eqP e /IH]; rewrite size_cat mulSn e => ->. Qed.

Lemma T_loop_flat h B bs : all (fun b => size b == B) bs -> T_loop h bs = delta_T h (flatten bs).
Proof.
move=> H; rewrite T_loop_sum delta_outer (size_flat H) natrM invfM -scalerA; congr (_ *: _).
rewrite big_flatten /= scaler_sumr big_seq [RHS]big_seq; apply: eq_bigr => b /(allP H)/eqP <-.
by rewrite delta_outer.
Qed.

Definition norms h pts := all (fun p : sample => den h p.1 != 0) pts.

Lemma T_operatorE h vol B bs : all (fun b => size b == B) bs ->
  T_operator h vol bs = (N%:R / vol / (size (flatten bs))%:R) *:
    \sum_(p <- flatten bs) (wt p / den h p.1) *: outer p.1.
Proof.
move=> H; rewrite /T_operator (T_loop_flat _ H) delta_outer scalerA; congr (_ *: _).
by apply: eq_bigr => p _; rewrite den_sym.
Qed.

Lemma T_operator_entry h vol B bs a b : all (fun b => size b == B) bs ->
  T_operator h vol bs a b = N%:R / vol *
   ((\sum_(p <- flatten bs) p.1 0 a * (p.1 0 b)^* * (wt p / den h p.1)) / (size (flatten bs))%:R).
Proof.
move=> H; rewrite (T_operatorE _ _ H) mxE [LHS]mulrAC -[LHS]mulrA; congr (_ * (_ / _)).
by rewrite summxE; apply: eq_bigr => p _; rewrite mxE outerE mulrC.
Qed.

Lemma den_real h s : (den h s)^* = den h s.
Proof. by apply/eqP; rewrite -CrealE Creal_Re. Qed.

Lemma T_herm h vol B bs : all (fun b => size b == B) bs -> vol \is Num.real ->
  {in flatten bs, forall p, wt p \is Num.real} -> hermitian (T_operator h vol bs).
Proof.
move=> H vr wr i j; rewrite !(T_operator_entry _ _ _ _ H) !cjE cj_sum (conj_Creal vr); congr (_ * (_ * _)).
rewrite big_seq [RHS]big_seq; apply: eq_bigr => p /wr/conj_Creal e.
by rewrite !cjE e den_real [X in X * _]mulrC.
Qed.

Section Pos.
Variables (h : 'M[C]_N) (vol : C) (B : nat) (bs : seq (seq sample)).
Hypothesis H : all (fun b => size b == B) bs.
Hypothesis vol0 : 0 < vol.
Hypothesis w0 : {in flatten bs, forall p, 0 <= wt p}.
Hypothesis d0 : {in flatten bs, forall p, 0 < den h p.1}.
Hypothesis sp : spanning (flatten bs).

Lemma T_posdef : posdef (T_operator h vol bs).
Proof.
move=> v v0; rewrite (T_operatorE _ _ H) hform_scale hform_sum.
have [q qin [wq vq]] := sp v0.
have N0 : (0 < N)%N.
  by case: (posnP N) v v0 {q qin wq vq} => // E v; rewrite E in v * => /negP[]; apply/eqP/rowP; case.
have fs : (0 < size (flatten bs))%N by case: (flatten bs) qin.
apply: mulr_gt0; first by rewrite !divr_gt0 ?ltr0n.
have qd := d0 qin.
have pq : 0 < (wt q / den h q.1) * hform (outer q.1) v.
  by rewrite mulr_gt0 ?divr_gt0 // hform_outer exprn_gt0 // normr_gt0.
rewrite (perm_big _ (perm_to_rem qin)) big_cons hform_scale; apply: ltr_paddr => //.
rewrite big_seq; apply: sumr_ge0 => p /mem_rem pin; rewrite hform_scale hform_outer.
by rewrite mulr_ge0 ?divr_ge0 ?exprn_ge0 ?w0 // ltW // d0.
Qed.
End Pos.

(** the trace identity *)
Lemma trace_T h vol B bs : hermitian h -> all (fun b => size b == B) bs -> norms h (flatten bs) ->
  \sum_a \sum_b h a b * T_operator h vol bs a b = N%:R / vol * mean [seq wt p | p <- flatten bs].
Proof.
move=> hh H d0.
under eq_bigr => a _ do under eq_bigr => b _ do rewrite (T_operator_entry _ _ _ _ H) mulrCA [X in _ * X]mulrA.
under eq_bigr => a _ do rewrite -mulr_sumr -mulr_suml.
rewrite -mulr_sumr -mulr_suml; congr (_ * _); rewrite /mean size_map big_map; congr (_ / _).
under eq_bigr => a _ do under eq_bigr => b _ do rewrite mulr_sumr.
under eq_bigr => a _ do rewrite exchange_big.
rewrite exchange_big big_seq [RHS]big_seq; apply: eq_bigr => p /(allP d0) dp.
rewrite -[RHS](divfK dp) [X in _ / _ * X]den_hform // mulr_sumr; apply: eq_bigr => a _.
rewrite mulr_sumr; apply: eq_bigr => b _ /=.
move: (wt p / den h p.1) => x; move: (h a b) (p.1 0 a) ((p.1 0 b)^*) => y z t; ring.
Qed.

Lemma weightE (p : sample) : nan_to_num p.2 = weight p.
Proof. by rewrite /weight; case: p.2. Qed.

Lemma equalP bs : equal_batches bs <-> exists B, all (fun b => size b == B) bs.
Proof.
by split=> -[B H]; exists B; [apply/allP => b /H -> | move=> b /(allP H)/eqP].
Qed.

Lemma T_ofE h vol bs : hermitian h -> equal_batches bs -> T_operator h vol bs = T_of h vol (flatten bs).
Proof.
move=> hh /equalP[B H]; apply/matrixP => a b; rewrite (T_operator_entry _ _ _ _ H) mxE; congr (_ * (_ / _)).
by apply: eq_bigr => p _; rewrite den_hform // mulrA [_ * weight p]mulrC.
Qed.

Lemma step_inverse h vol bs : hermitian h -> equal_batches bs ->
  T_of h vol (flatten bs) \in unitmx ->
  exists2 H', donaldson_step true h vol bs = Ok H' &
    forall a c, \sum_b T_of h vol (flatten bs) a b * H' c b = (a == c)%:R.
Proof.
move=> hh eb Tu; rewrite /donaldson_step /= T_ofE //; eexists; first by [].
move=> a c; have /matrixP/(_ a c) := mulmxV Tu; rewrite !mxE => <-.
by apply: eq_bigr => b _; rewrite [in RHS]/= [(_^T) _ _]mxE.
Qed.

Lemma step_hermitian h vol bs H' : hermitian h -> equal_batches bs ->
  T_of h vol (flatten bs) \in unitmx -> vol \is Num.real ->
  (forall p, p \in flatten bs -> weight p \is Num.real) ->
  donaldson_step true h vol bs = Ok H' -> hermitian H'.
Proof.
move=> hh eb Tu vr wr [<-]; have [B H] := (equalP bs).1 eb; apply: hermitian_tr; apply: hermitian_inv.
  by rewrite T_ofE.
exact: (T_herm _ H).
Qed.

Lemma posdef_ge0 h s : posdef h -> 0 <= hform h s.
Proof.
move=> ph; have [->|/ph/ltW //] := eqVneq s 0.
by rewrite hformE mul0mx mul0mx mxE.
Qed.

Lemma step_posdef h vol bs : hermitian h -> posdef h -> equal_batches bs -> 0 < vol ->
  (forall p, p \in flatten bs -> 0 <= weight p /\ p.1 != 0) -> spanning (flatten bs) ->
  exists H', [/\ donaldson_step true h vol bs = Ok H', hermitian H' & posdef H'].
Proof.
move=> hh ph eb v0 wp sp; have [B H] := (equalP bs).1 eb.
have pT : posdef (T_operator h vol bs).
  apply: (T_posdef H) => // p /wp[] // _ s0; by rewrite den_hform // ph.
have hT : hermitian (T_operator h vol bs).
  by apply: (T_herm _ H); [rewrite gtr0_real | move=> p /wp[w0 _]; rewrite ger0_real].
exists (invmx (T_operator h vol bs))^T; split=> //.
  by apply: hermitian_tr; apply: hermitian_inv; rewrite ?posdef_unit.
by apply: posdef_tr; apply: posdef_inv.
Qed.

Lemma step_batches h vol bs bs' : equal_batches bs -> equal_batches bs' ->
  perm_eq (flatten bs) (flatten bs') -> donaldson_step true h vol bs = donaldson_step true h vol bs'.
Proof.
move=> /equalP[B H] /equalP[B' H'] e; rewrite /donaldson_step /=; congr (Ok (invmx _)^T).
by rewrite (T_operatorE _ _ H) (T_operatorE _ _ H') (perm_size e) (perm_big _ e).
Qed.

Lemma step_trace h vol bs H' : hermitian h -> equal_batches bs ->
  T_of h vol (flatten bs) \in unitmx ->
  (forall p, p \in flatten bs -> hform h p.1 != 0) ->
  donaldson_step true h vol bs = Ok H' ->
  \tr (h *m invmx H') = N%:R / vol * ((\sum_(p <- flatten bs) weight p) / (size (flatten bs))%:R).
Proof.
move=> hh eb Tu d0 [<-]; have [B H] := (equalP bs).1 eb.
have dn : norms h (flatten bs) by apply/allP => p /d0; rewrite den_hform.
have := trace_T vol hh H dn; rewrite /mean size_map big_map => <-.
rewrite trmx_inv invmxK /mxtrace; apply: eq_bigr => a _.
by rewrite mxE; apply: eq_bigr => b _; rewrite [(_^T) _ _]mxE.
Qed.

Lemma den_scale c h s : c \is Num.real -> den (c *: h) s = c * den h s.
Proof.
move=> cr; rewrite /den -ReMl //; congr ('Re _); rewrite mulr_sumr; apply: eq_bigr => a _.
by rewrite mulr_sumr; apply: eq_bigr => b _; rewrite mxE mulrCA.
Qed.

Lemma step_scale_h c h vol bs H' : c \is Num.real -> c != 0 -> equal_batches bs ->
  T_of (sym_h h) vol (flatten bs) \in unitmx ->
  donaldson_step true h vol bs = Ok H' -> donaldson_step true (c *: h) vol bs = Ok (c *: H').
Proof.
move=> cr c0 eb; have [B H] := (equalP bs).1 eb.
rewrite -T_ofE //; last exact: sym_hermitian.
have -> : T_operator (sym_h h) vol bs = T_operator h vol bs.
  by rewrite !(T_operatorE _ _ H); congr (_ *: _); apply: eq_bigr => p _; rewrite den_sym.
move=> Tu [<-]; rewrite /donaldson_step /=; congr Ok.
have -> : T_operator (c *: h) vol bs = c^-1 *: T_operator h vol bs.
  rewrite !(T_operatorE _ _ H) [RHS]scalerA [c^-1 * _]mulrC -[RHS]scalerA; congr (_ *: _); rewrite scaler_sumr.
  by apply: eq_bigr => p _; rewrite den_scale // invfM mulrCA scalerA.
by rewrite invmx_scale ?invr_eq0 // invrK; apply/matrixP => i j; rewrite !mxE.
Qed.

Lemma step_scale_vol c h vol bs H' : c != 0 -> equal_batches bs ->
  T_of (sym_h h) vol (flatten bs) \in unitmx ->
  donaldson_step true h vol bs = Ok H' -> donaldson_step true h (c * vol) bs = Ok (c *: H').
Proof.
move=> c0 eb; have [B H] := (equalP bs).1 eb.
rewrite -T_ofE //; last exact: sym_hermitian.
have -> : T_operator (sym_h h) vol bs = T_operator h vol bs.
  by rewrite !(T_operatorE _ _ H); congr (_ *: _); apply: eq_bigr => p _; rewrite den_sym.
move=> Tu [<-]; rewrite /donaldson_step /=; congr Ok.
have -> : T_operator h (c * vol) bs = c^-1 *: T_operator h vol bs.
  by rewrite !(T_operatorE _ _ H) scalerA invfM !mulrA [N%:R / c]mulrC.
by rewrite invmx_scale ?invr_eq0 // invrK; apply/matrixP => i j; rewrite !mxE.
Qed.

Lemma step_hermitian_part h k vol bs : adjm k = - k ->
  donaldson_step true (h + k) vol bs = donaldson_step true h vol bs.
Proof.
move=> ak; suff E : sym_h (h + k) = sym_h h by rewrite /donaldson_step /= /T_operator E.
apply/matrixP => i j; have /matrixP/(_ i j) := ak; rewrite !mxE cjD => ->.
by congr (_ * _); rewrite -addrA; congr (_ + _); rewrite addrCA addrN addr0.
Qed.

Lemma flat_map (f : sample -> sample) bs :
  flatten [seq [seq f p | p : sample <- b] | b <- bs] = [seq f p | p <- flatten bs].
Proof. by rewrite map_flatten. Qed.

Lemma equal_map (f : sample -> sample) B bs : all (fun b => size b == B) bs ->
  all (fun b => size b == B) [seq [seq f p | p : sample <- b] | b <- bs].
Proof. by move=> H; rewrite all_map; apply: sub_all H => b /=; rewrite size_map. Qed.

Lemma den_hform_Re h s : den h s = 'Re (hform h s).
Proof.
by congr ('Re _); apply: eq_bigr => a _; apply: eq_bigr => b _; rewrite mulrAC.
Qed.

Lemma step_rescale (l : sample -> C) h vol bs : equal_batches bs ->
  (forall p, p \in flatten bs -> l p != 0) ->
  donaldson_step true h vol (rescale l bs) = donaldson_step true h vol bs.
Proof.
move=> /equalP[B H] l0; rewrite /donaldson_step /=; congr (Ok (invmx _)^T).
rewrite (T_operatorE _ _ H) (T_operatorE _ _ (equal_map (fun p => (l p *: p.1, p.2)) H)).
rewrite /rescale flat_map size_map big_map; congr (_ *: _).
rewrite big_seq [RHS]big_seq; apply: eq_bigr => p /l0 lp; rewrite /weight /=.
have l2 : `|l p| ^+ 2 != 0 by rewrite expf_eq0 normr_eq0.
have -> : den h (l p *: p.1) = `|l p| ^+ 2 * den h p.1.
  rewrite !den_hform_Re -ReMl ?rpredX ?normr_real //; congr ('Re _).
  rewrite !hformE -!scalemxAl adjm_scale -scalemxAr scalerA mxE; congr (_ * _).
  by rewrite normCK.
have -> : outer (l p *: p.1) = `|l p| ^+ 2 *: outer p.1.
  by apply/matrixP => a b; rewrite outerE [RHS]mxE outerE ![(_ *: p.1) _ _]mxE normCK !cjE mulrACA.
rewrite scalerA; congr (_ *: _); rewrite invfM; set d := (den _ _)^-1.
by rewrite [_^-1 * d]mulrC [_ * (d / _)]mulrA divfK.
Qed.

Lemma step_basis (A h h' : 'M[C]_N) vol bs H1 H2 : A \in unitmx -> A *m h' *m adjm A = h ->
  equal_batches bs -> T_of (sym_h h) vol (flatten bs) \in unitmx ->
  donaldson_step true h vol bs = Ok H1 ->
  donaldson_step true h' vol (change_basis A bs) = Ok H2 ->
  A *m H2 *m adjm A = H1.
Proof.
move=> Au hA eb; have [B H] := (equalP bs).1 eb.
rewrite -T_ofE //; last exact: sym_hermitian.
have -> : T_operator (sym_h h) vol bs = T_operator h vol bs.
  by rewrite !(T_operatorE _ _ H); congr (_ *: _); apply: eq_bigr => p _; rewrite den_sym.
move=> Tu [<-] [<-].
have E : T_operator h' vol (change_basis A bs) = A^T *m T_operator h vol bs *m adjm A^T.
  rewrite (T_operatorE _ _ H) (T_operatorE _ _ (equal_map (fun p => (p.1 *m A, p.2)) H)).
  rewrite /change_basis flat_map size_map big_map -scalemxAr -scalemxAl; congr (_ *: _).
  rewrite mulmx_sumr mulmx_suml; apply: eq_bigr => p _; rewrite -scalemxAr -scalemxAl.
  rewrite /weight /=; congr (_ / _ *: _).
    by rewrite !den_hform_Re -hA hform_congr.
  by rewrite /outer trmx_mul adjm_mul !mulmxA.
rewrite E; move: (T_operator h vol bs) Tu => T Tu.
have Eu : A^T \in unitmx by rewrite unitmx_tr.
have Du : adjm A^T \in unitmx by rewrite unitmxE det_adjm unitfE conjC_eq0 -unitfE -unitmxE.
set D := adjm _ in Du *; set X := _ *m D.
have Xu : X \in unitmx by rewrite !unitmx_mul Eu Tu.
apply: trmx_inj; rewrite !trmx_mul !trmxK.
have -> : (adjm A)^T = D by apply/matrixP => i j; rewrite !mxE.
have ET : T = invmx A^T *m X *m invmx D by rewrite /X !mulmxA mulVmx // mul1mx -mulmxA mulmxV // mulmx1.
have E2 : T *m (D *m (invmx X *m A^T)) = 1%:M.
  rewrite [X in X *m _ = _]ET; clearbody X => {ET E}.
  by rewrite -!mulmxA [invmx D *m _]mulmxA mulVmx // mul1mx [X *m _]mulmxA mulmxV // mul1mx mulVmx.
by rewrite -[LHS]mul1mx -(mulVmx Tu) -mulmxA E2 mulmx1.
Qed.

Lemma step_fixed_point h vol bs : (0 < N)%N -> hermitian h -> equal_batches bs ->
  T_of h vol (flatten bs) \in unitmx -> vol != 0 ->
  (forall p, p \in flatten bs -> hform h p.1 != 0) ->
  donaldson_step true h vol bs = Ok h ->
  vol = (\sum_(p <- flatten bs) weight p) / (size (flatten bs))%:R.
Proof.
move=> N0 hh eb Tu v0 d0 Hs; have := step_trace hh eb Tu d0 Hs.
have hu : h \in unitmx by case: Hs => <-; rewrite unitmx_tr unitmx_inv T_ofE.
rewrite mulmxV // mxtrace1 => E; apply: (mulfI (_ : N%:R / vol != 0)).
  by rewrite mulf_neq0 ?invr_eq0 ?pnatr_eq0 -?lt0n.
by rewrite -E divfK.
Qed.

Lemma step_nonfinite h vol bs :
  donaldson_step true h vol [seq [seq (p.1, Some (weight p)) | p : sample <- b] | b <- bs] =
  donaldson_step true h vol bs.
Proof.
rewrite /donaldson_step /=; congr (Ok (invmx (_ *: _))^T); rewrite !T_loop_sum size_map big_map.
congr (_ *: _); apply: eq_bigr => b _; by rewrite !delta_outer size_map big_map.
Qed.
End Step.
