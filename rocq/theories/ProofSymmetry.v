(** Donaldson steps on symmetric samples. *)
From Coq Require Import ZArith Lia.
From mathcomp Require Import all_ssreflect all_algebra all_fingroup.
From Verif Require Import Base ModelDonaldson SpecDonaldson SpecStep SpecSymmetry Herm ProofDonaldson2 ProofDonaldson4 ProofDonaldson5 ProofStep.
Delimit Scope Z_scope with Z.

Set Implicit Arguments.
Unset Strict Implicit.
Unset Printing Implicit Defensive.

Import GRing.Theory Num.Theory Order.POrderTheory.
Local Open Scope ring_scope.

Section Step.
Variables (C : numClosedFieldType) (N : nat).
Notation sample := (sample C N).
Variables (vol : C) (bs : seq (seq sample)).

Definition term (h : 'M[C]_N) (p : sample) : 'M[C]_N := weight p / den h p.1 *: outer p.1.

Lemma term_scale h c p : c != 0 -> term h (c *: p.1, p.2) = term h p.
Proof.
move=> c0; rewrite /term /weight /=; have c2 : `|c| ^+ 2 != 0 by rewrite expf_eq0 normr_eq0.
have -> : den h (c *: p.1) = `|c| ^+ 2 * den h p.1.
  rewrite !den_hform_Re -ReMl ?rpredX ?normr_real //; congr ('Re _).
  rewrite !hformE -!scalemxAl adjm_scale -scalemxAr scalerA mxE; congr (_ * _).
  by rewrite normCK.
have -> : outer (c *: p.1) = `|c| ^+ 2 *: outer p.1.
  by apply/matrixP => a b; rewrite outerE [RHS]mxE outerE ![(_ *: p.1) _ _]mxE normCK !cjE mulrACA.
rewrite scalerA; congr (_ *: _); rewrite invfM; set d := (den _ _)^-1.
by rewrite [_^-1 * d]mulrC [_ * (d / _)]mulrA divfK.
Qed.

(** The step on the moved sample is the step on the sample. *)
Lemma step_moved A h : equal_batches bs -> symmetric_under A (flatten bs) ->
  donaldson_step true h vol (change_basis A bs) = donaldson_step true h vol bs.
Proof.
move=> eb [c c0 /= pe]; rewrite /donaldson_step /=; congr (Ok (invmx _)^T).
have [B H] := (equalP bs).1 eb.
rewrite (T_operatorE _ _ H) (T_operatorE _ _ (equal_map (fun p => (p.1 *m A, p.2)) H)).
rewrite flat_map size_map big_map; congr (_ *: _).
rewrite -[RHS](perm_big _ pe) big_map (big_nth (0, None)) /index_iota subn0; apply: eq_bigr => i _.
by rewrite -[LHS]/(term h ((nth (0, None) (flatten bs) i).1 *m A, (nth (0, None) (flatten bs) i).2)) -(term_scale _ _ (c0 i)).
Qed.

Lemma step_symmetric A h H' : A \in unitmx -> equal_batches bs -> symmetric_under A (flatten bs) ->
  T_of (sym_h h) vol (flatten bs) \in unitmx -> invariant A h ->
  donaldson_step true h vol bs = Ok H' -> invariant A H'.
Proof.
move=> Au eb sy Tu ih E; apply: (step_basis Au ih eb Tu E).
by rewrite step_moved.
Qed.

Lemma step_conj h H' : donaldson_step true h vol bs = Ok H' ->
  donaldson_step true (map_mx conjC h) vol^* (conj_sample bs) = Ok (map_mx conjC H').
Proof.
rewrite /donaldson_step /= => -[<-]; congr Ok; rewrite -map_trmx map_invmx; congr (invmx _)^T.
rewrite /T_operator map_mxZ !cjE; congr (_ *: _).
have -> : sym_h (map_mx conjC h) = map_mx conjC (sym_h h).
  by apply/matrixP => i j; rewrite !mxE !cjE.
move: (sym_h h) => k.
have dE s : den (map_mx conjC k) (map_mx conjC s) = den k s.
  rewrite /den -[RHS]Re_conj; congr ('Re _).
  rewrite !cj_sum; apply: eq_bigr => a _; rewrite !cj_sum; apply: eq_bigr => b _.
  by rewrite !mxE !cjE.
have tE b : delta_T (map_mx conjC k) [seq (map_mx conjC p.1, omap conjC p.2) | p : sample <- b] =
    map_mx conjC (delta_T k b).
  apply/matrixP => i j; rewrite !mxE /mean !cjE cj_sum !size_map !big_map; congr (_ / _).
  apply: eq_bigr => -[p w] _ /=; rewrite dE !mxE !cjE den_real; congr (_ * (_ / _)).
  by case: w => [w|] //=; rewrite cj0.
rewrite /T_loop /conj_sample size_map; move: (size bs) => n.
have G s T : foldl (fun T pts => batch_step (map_mx conjC k) n pts T) (map_mx conjC T)
    [seq [seq (map_mx conjC p.1, omap conjC p.2) | p : sample <- b] | b <- s] =
  map_mx conjC (foldl (fun T pts => batch_step k n pts T) T s).
  by elim: s T => [//|b s IH] T /=; rewrite -IH /batch_step tE map_mxD map_mxZ !cjE.
by rewrite -G map_mx0.
Qed.
End Step.

Section Good.
Variables (C : numClosedFieldType) (N : nat).
Notation sample := (sample C N).
Variables (vol : C) (bs : seq (seq sample)).
Hypothesis gs : good_sample vol bs.

Lemma good_unit h : hermitian h -> posdef h -> T_of (sym_h h) vol (flatten bs) \in unitmx.
Proof.
move=> hh ph; have [eb v0 sp wp _] := gs; rewrite sym_id //.
have [H' [E _ pH']] := step_posdef hh ph eb v0 wp sp.
by move: E (posdef_unit pH'); rewrite /donaldson_step /= T_ofE // => -[<-]; rewrite unitmx_tr unitmx_inv.
Qed.

Lemma good_symmetric A h H' : A \in unitmx -> symmetric_under A (flatten bs) -> hermitian h -> posdef h ->
  invariant A h -> donaldson_step true h vol bs = Ok H' -> invariant A H'.
Proof. by move=> Au sy hh ph; apply: step_symmetric => //; [case: gs|exact: good_unit]. Qed.

Lemma iterates_symmetric A hs : A \in unitmx -> symmetric_under A (flatten bs) -> hermitian (hs 0%N) ->
  posdef (hs 0%N) -> iterates vol bs hs -> invariant A (hs 0%N) -> forall k, invariant A (hs k).
Proof.
move=> Au sy hh ph it i0; have [pd _] := good_cycle gs hh ph it; elim=> [//|k IH].
by have [h1 h2] := pd k; exact: (good_symmetric Au sy h1 h2 IH (it k)).
Qed.

Lemma balanced_moved A g : A \in unitmx -> symmetric_under A (flatten bs) -> balanced vol bs g ->
  balanced vol bs (A *m g *m adjm A).
Proof.
move=> Au sy [hg pg E]; have [eb _ _ _ _] := gs.
have hm : hermitian (A *m g *m adjm A).
  by apply/hermitianP; rewrite !adjm_mul adjmK ((hermitianP g).1 hg) mulmxA.
have pm : posdef (A *m g *m adjm A).
  move=> v v0; rewrite hform_congr; apply: pg; apply: contra_neq v0 => vA.
  by rewrite -[v]mulmx1 -(mulmxV Au) mulmxA vA mul0mx.
split=> //; have [H1 E1] : exists H1, donaldson_step true (A *m g *m adjm A) vol bs = Ok H1 by eexists.
rewrite E1; congr Ok; rewrite -(step_basis Au (erefl _) eb (good_unit hm pm) E1 (H2 := g)) //.
by rewrite step_moved.
Qed.

Lemma balanced_symmetric A g : A \in unitmx -> symmetric_under A (flatten bs) -> indecomposable (flatten bs) ->
  balanced vol bs g -> `|\det A| = 1 -> invariant A g.
Proof.
move=> Au sy ind bg dA; have [hg pg _] := bg.
have [a a0 E] := good_unique gs ind bg (balanced_moved Au sy bg).
have := congr1 determinant E; rewrite !det_mulmx det_adjm mulrAC -normCK dA expr1n mul1r detZ.
have g0 : \det g != 0 by rewrite -unitfE -unitmxE; exact: posdef_unit.
rewrite -{1}[\det g]mul1r => /(mulIf g0)/esym aN.
case: (posnP N) => [N0|N0].
  by rewrite /invariant; apply/matrixP => i; have := ltn_ord i; rewrite {2}N0.
have a1 : a = 1 by apply/eqP; rewrite -(pexpr_eq1 N0 (ltW a0)) aN.
by rewrite /invariant E a1 scale1r.
Qed.
End Good.
