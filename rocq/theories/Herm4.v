(** Two Hermitian forms, one of them positive, are diagonal in a common basis;
    the inverse reverses the order of positive Hermitian matrices. *)
From mathcomp Require Import all_ssreflect all_algebra.
From Verif Require Import Herm Herm2 Herm3.

Set Implicit Arguments.
Unset Strict Implicit.
Unset Printing Implicit Defensive.

Import GRing.Theory Num.Theory Order.POrderTheory.
Local Open Scope ring_scope.

Section Diag.
Variable C : numClosedFieldType.

Lemma adjm_unit n (A : 'M[C]_n) : A \in unitmx -> adjm A \in unitmx.
Proof. by rewrite !unitmxE det_adjm !unitfE conjC_eq0. Qed.

Lemma adjmB m n (X Y : 'M[C]_(m, n)) : adjm (X - Y) = adjm X - adjm Y.
Proof. by apply/matrixP => i j; rewrite !mxE cjB. Qed.

(** a common eigenvector *)
Lemma pencil_root n (h g : 'M[C]_n.+1) : h \in unitmx ->
  exists (v : 'rV[C]_n.+1) (l : C), v != 0 /\ v *m g = l *: (v *m h).
Proof.
move=> uh; pose A := g *m invmx h.
have [l rl] : exists l, root (char_poly A) l.
  by apply: closed_rootP; rewrite size_char_poly.
have /eigenvalueP[v E v0] : eigenvalue A l by rewrite eigenvalue_root_char.
exists v, l; split=> //; have := congr1 (mulmx^~ h) E.
by rewrite /A -!mulmxA mulVmx // mulmx1 -scalemxAl.
Qed.

Lemma row_completion n (v : 'rV[C]_n.+1) : v != 0 -> exists2 M : 'M[C]_n.+1, M \in unitmx & row 0 M = v.
Proof.
move=> v0; have rv : \rank v = 1%N by rewrite rank_rV v0.
have E := mulmx_ebase v; rewrite rv in E.
pose c := col_ebase v 0 0; have uc : c != 0.
  by have := col_ebase_unit v; rewrite unitmxE (mx11_scalar (col_ebase v)) det_scalar1 unitfE.
exists (c *: row_ebase v); first by rewrite unitmxZ ?unitfE // row_ebase_unit.
rewrite -[RHS]E (mx11_scalar (col_ebase v)) -/c -mulmxA mul_scalar_mx linearZ /=; congr (_ *: _).
apply/rowP => j; rewrite !mxE (bigD1 0) //= big1 ?addr0 => [|i i0].
  by rewrite mxE /= mul1r.
by rewrite mxE; case: i i0 => -[|i] //= il _; rewrite mul0r.
Qed.
(** elimination of the first row and column from both *)
Lemma elim1_pencil n (h g : 'M[C]_(1 + n)) (l : C) : hermitian h -> posdef h -> hermitian g ->
  row 0 g = l *: row 0 h ->
  [/\ l^* = l, hermitian (drsubmx (elim1 h *m g *m adjm (elim1 h))) &
    elim1 h *m g *m adjm (elim1 h) = block_mx (l * h 0 0)%:M 0 0 (drsubmx (elim1 h *m g *m adjm (elim1 h)))].
Proof.
move=> hh ph hg E; have a0 : h 0 0 != 0 by rewrite gt_eqF // posdef_00.
have [Eur _ ar] := hermitian_sub hh; have [Gur _ gr] := hermitian_sub hg.
have E0 j : g 0 j = l * h 0 j by have /rowP/(_ j) := E; rewrite !mxE.
have lr : l^* = l by apply: (mulIf a0); rewrite -E0 -{1}ar -cjM -E0.
have hX := hermitian_congr (elim1 h) hg; split=> //; first by have [] := hermitian_sub hX.
have Gul : ulsubmx g = (l * h 0 0)%:M.
  by apply/matrixP => i j; rewrite !ord1 !mxE eqxx mulr1n -E0; congr (g _ _); apply/val_inj.
have Gur2 : ursubmx g = l *: adjm (dlsubmx h).
  rewrite -Eur; apply/matrixP => i j; rewrite !ord1 !mxE.
  have -> : lshift n (0 : 'I_1) = 0 by apply/val_inj.
  exact: E0.
have Gdl : dlsubmx g = l *: dlsubmx h.
  by rewrite -[LHS]adjmK -Gur Gur2 adjm_scale adjmK lr.
rewrite -[LHS]submxK; set X := _ *m adjm _; congr block_mx.
all: rewrite /X {hX X} -[g]submxK Gul Gur2 Gdl /elim1 adjm_block !adjm1 adjm0 adjm_scale cjN cjV ar !mulmx_block.
all: rewrite ?(block_mxKul, block_mxKur, block_mxKdl, mulmx1, mul1mx, mul0mx, mulmx0, addr0) //.
all: rewrite ?mul_scalar_mx ?mul_mx_scalar ?scalerA ?mulrN ?mulNr.
all: by rewrite mulfK // scaleNr addNr.
Qed.

Lemma simdiag_step n (h g : 'M[C]_(1 + n)) l : hermitian h -> posdef h -> hermitian g -> row 0 g = l *: row 0 h ->
  (forall h g : 'M[C]_n, hermitian h -> posdef h -> hermitian g ->
     exists K (d : 'rV[C]_n), [/\ K \in unitmx, K *m h *m adjm K = 1%:M & K *m g *m adjm K = diag_mx d]) ->
  exists K (d : 'rV[C]_(1 + n)), [/\ K \in unitmx, K *m h *m adjm K = 1%:M & K *m g *m adjm K = diag_mx d].
Proof.
move=> hh ph hg E IH; have [lr] := elim1_pencil hh ph hg E; move: (drsubmx _) => X hX EX.
have [J [d [uJ EJ Ed]]] := IH _ _ (schur_herm hh) (schur_pd hh ph) hX.
have a0 := posdef_00 ph; pose s := (sqrtC (h 0 0))^-1.
have s0 : 0 < s by rewrite invr_gt0 sqrtC_gt0.
have sr : s^* = s by apply/conj_Creal/ger0_real/ltW.
have sE : s * h 0 0 * s = 1.
  by rewrite mulrAC /s -invfM -expr2 sqrtCK mulVf // gt_eqF.
pose K : 'M[C]_(1 + n) := block_mx s%:M 0 0 J; exists (K *m elim1 h), (row_mx (const_mx l) d); split.
- have dK : \det K = s * \det J by rewrite /K det_lblock det_scalar1.
  rewrite unitmxE det_mulmx elim1_unit dK mulr1 unitfE mulf_neq0 //; first by rewrite gt_eqF.
  by rewrite -unitfE -unitmxE uJ.
- rewrite adjm_mul !mulmxA -[K *m _ *m _]mulmxA -[K *m (_ *m _) *m _]mulmxA elim1E //.
  rewrite /K adjm_block !adjm0 adjm_scalar sr !mulmx_block !mulmx0 !mul0mx !addr0 !add0r EJ -!scalar_mxM.
  by rewrite sE !mul0mx -scalar_mx_block.
- rewrite adjm_mul !mulmxA -[K *m _ *m _]mulmxA -[K *m (_ *m _) *m _]mulmxA EX.
  rewrite /K adjm_block !adjm0 adjm_scalar sr !mulmx_block !mulmx0 !mul0mx !addr0 !add0r Ed -!scalar_mxM.
  by rewrite mulrCA -mulrA sE mulr1 !mul0mx diag_mx_row diag_const_mx.
Qed.

Lemma simdiag n (h g : 'M[C]_n) : hermitian h -> posdef h -> hermitian g ->
  exists K (d : 'rV[C]_n), [/\ K \in unitmx, K *m h *m adjm K = 1%:M & K *m g *m adjm K = diag_mx d].
Proof.
elim: n h g => [|n IH] h g hh ph hg.
  by exists 1%:M, 0; split; rewrite ?unitmx1 //; apply/matrixP => -[].
have [v [l [v0 E]]] := pencil_root g (posdef_unit ph); have [M uM rM] := row_completion v0.
have E' : row 0 (M *m g *m adjm M) = l *: row 0 (M *m h *m adjm M).
  by rewrite -!mulmxA !row_mul rM !mulmxA E -scalemxAl.
have [K [d [uK K1 K2]]] := @simdiag_step n _ _ l (hermitian_congr M hh) (posdef_congr_unit uM ph) (hermitian_congr M hg) E' IH.
exists (K *m M), d; rewrite adjm_mul !mulmxA; split; first by rewrite unitmx_mul uK.
  by rewrite -[RHS]K1 !mulmxA.
by rewrite -[RHS]K2 !mulmxA.
Qed.
End Diag.
