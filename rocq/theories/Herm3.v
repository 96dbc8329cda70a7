(** Positive Hermitian matrices: square root, determinant at most the product of the
    diagonal, determinant at most a power of the trace. *)
From mathcomp Require Import all_ssreflect all_algebra.
From Verif Require Import Herm Herm2.

Set Implicit Arguments.
Unset Strict Implicit.
Unset Printing Implicit Defensive.

Import GRing.Theory Num.Theory Order.POrderTheory.
Local Open Scope ring_scope.

Section Schur.
Variable C : numClosedFieldType.

Lemma adjm_block m n p q (A : 'M[C]_(m, p)) (B : 'M[C]_(m, q)) (D : 'M[C]_(n, p)) (E : 'M[C]_(n, q)) :
  adjm (block_mx A B D E) = block_mx (adjm A) (adjm D) (adjm B) (adjm E).
Proof. by rewrite !adjm_tr tr_block_mx map_block_mx. Qed.

Lemma adjm0 m n : adjm (0 : 'M[C]_(m, n)) = 0.
Proof. by apply/matrixP => i j; rewrite !mxE cj0. Qed.

Lemma adjm_scalar n (a : C) : adjm (a%:M : 'M[C]_n) = (a^*)%:M.
Proof. by apply/matrixP => i j; rewrite !mxE eq_sym; case: (_ == _); rewrite ?mulr1n ?mulr0n ?cj0. Qed.

Lemma hermitian_sub n (A : 'M[C]_(1 + n)) : hermitian A ->
  [/\ ursubmx A = adjm (dlsubmx A), hermitian (drsubmx A) & (A 0 0)^* = A 0 0].
Proof.
by move=> hA; split=> [|i j|]; [apply/matrixP => i j; rewrite !mxE|rewrite !mxE|rewrite -hA]; rewrite hA.
Qed.

(** The complement of the first row and column *)
Definition schur n (A : 'M[C]_(1 + n)) : 'M[C]_n :=
  drsubmx A - (A 0 0)^-1 *: (dlsubmx A *m adjm (dlsubmx A)).

Definition elim1 n (A : 'M[C]_(1 + n)) : 'M[C]_(1 + n) :=
  block_mx 1%:M 0 (- (A 0 0)^-1 *: dlsubmx A) 1%:M.

Lemma elim1_unit n (A : 'M[C]_(1 + n)) : \det (elim1 A) = 1.
Proof. by rewrite det_lblock !det1 mulr1. Qed.

Lemma elim1E n (A : 'M[C]_(1 + n)) : hermitian A -> posdef A ->
  elim1 A *m A *m adjm (elim1 A) = block_mx (A 0 0)%:M 0 0 (schur A).
Proof.
move=> hA pA; have [Eur hdr ar] := hermitian_sub hA; have a0 : A 0 0 != 0 by rewrite gt_eqF // posdef_00.
have Eul : ulsubmx A = (A 0 0)%:M.
  by apply/matrixP => i j; rewrite !ord1 !mxE eqxx mulr1n; congr (A _ _); apply/val_inj.
have EA : A = block_mx (A 0 0)%:M (adjm (dlsubmx A)) (dlsubmx A) (drsubmx A) by rewrite -Eul -Eur submxK.
rewrite [X in _ *m X *m _ = _]EA /elim1 adjm_block !adjm1 adjm0 adjm_scale cjN cjV ar /schur !mulmx_block.
move: (dlsubmx A) (drsubmx A) (A 0 0) a0 => c d a a0 {EA Eur Eul}.
rewrite !mulmx1 !mul1mx !mul0mx !mulmx0 !addr0. rewrite mul_scalar_mx scalerA mulrN divff // scaleN1r addNr.
rewrite mul_mx_scalar scalerA mulrN divff // scaleN1r addNr mul0mx add0r -scalemxAl.
by rewrite scaleNr addrC.
Qed.

Lemma schur_pd n (A : 'M[C]_(1 + n)) : hermitian A -> posdef A -> posdef (schur A).
Proof.
move=> hA pA; have uT : elim1 A \in unitmx by rewrite unitmxE elim1_unit unitr1.
by have := posdef_dr (posdef_congr_unit uT pA); rewrite elim1E // block_mxKdr.
Qed.

Lemma schur_herm n (A : 'M[C]_(1 + n)) : hermitian A -> hermitian (schur A).
Proof.
move=> hA; have [_ /hermitianP hdr ar] := hermitian_sub hA; apply/hermitianP.
have E : adjm (dlsubmx A *m adjm (dlsubmx A)) = dlsubmx A *m adjm (dlsubmx A) by rewrite adjm_mul adjmK.
have adjB (X Y : 'M[C]_n) : adjm (X - Y) = adjm X - adjm Y.
  by apply/matrixP => i j; rewrite !mxE cjB.
by rewrite /schur adjB adjm_scale E hdr cjV ar.
Qed.

Lemma schur_det n (A : 'M[C]_(1 + n)) : hermitian A -> posdef A -> \det A = A 0 0 * \det (schur A).
Proof.
move=> hA pA; have := congr1 (@determinant _ _) (elim1E hA pA).
rewrite !det_mulmx det_adjm elim1_unit conjC1 mulr1 mul1r => ->.
by rewrite det_lblock det_scalar1.
Qed.

Lemma posdef_diag n (A : 'M[C]_n) i : posdef A -> 0 < A i i.
Proof.
move=> pA; have := pA (delta_mx 0 i).
have -> : (delta_mx 0 i : 'rV[C]_n) != 0.
  by apply/eqP => /rowP/(_ i); rewrite !mxE !eqxx; apply/eqP; exact: oner_neq0.
move=> /(_ isT); rewrite hformE -rowE.
suff -> : (row i A *m adjm (delta_mx 0 i : 'rV[C]_n)) 0 0 = A i i by [].
rewrite mxE (bigD1 i) //= [X in _ + X]big1 ?addr0 => [|j ji]; last first.
  by rewrite !mxE eqxx /= (negbTE ji) cj0 mulr0.
by rewrite !mxE !eqxx cj1 mulr1.
Qed.

Lemma chol_step n (A : 'M[C]_(1 + n)) (J : 'M[C]_n) : hermitian A -> posdef A -> J \in unitmx ->
  J *m schur A *m adjm J = 1%:M -> exists2 K : 'M[C]_(1 + n), K \in unitmx & K *m A *m adjm K = 1%:M.
Proof.
move=> hA pA uJ EJ.
have a0 := posdef_00 pA; pose s := (sqrtC (A 0 0))^-1.
have s0 : 0 < s by rewrite invr_gt0 sqrtC_gt0.
have sr : s^* = s by apply/conj_Creal/ger0_real/ltW.
pose K : 'M[C]_(1 + n) := block_mx s%:M 0 0 J; exists (K *m elim1 A).
  have dK : \det K = s * \det J by rewrite /K det_lblock det_scalar1.
  rewrite unitmxE det_mulmx elim1_unit dK mulr1 unitfE mulf_neq0 //; first by rewrite gt_eqF.
  by rewrite -unitfE -unitmxE uJ.
rewrite adjm_mul !mulmxA -[K *m _ *m _]mulmxA -[K *m (_ *m _) *m _]mulmxA elim1E //.
rewrite /K adjm_block !adjm0 adjm_scalar sr !mulmx_block !mulmx0 !mul0mx !addr0 !add0r EJ -!scalar_mxM.
have -> : s * A 0 0 * s = 1.
  by rewrite mulrAC /s -invfM -expr2 sqrtCK mulVf // gt_eqF.
by rewrite !mul0mx -scalar_mx_block.
Qed.

(** Every positive Hermitian matrix is L L^* *)
Lemma cholesky n (A : 'M[C]_n) : hermitian A -> posdef A -> exists2 L, L \in unitmx & A = L *m adjm L.
Proof.
move=> hA pA; suff [J uJ EJ] : exists2 J, J \in unitmx & J *m A *m adjm J = 1%:M.
  exists (invmx J); first by rewrite unitmx_inv.
  have E2 : adjm J *m adjm (invmx J) = 1%:M by rewrite -adjm_mul mulVmx // adjm1.
  transitivity (invmx J *m (J *m A *m adjm J) *m adjm (invmx J)); last by rewrite EJ mulmx1.
  by rewrite !mulmxA mulVmx // mul1mx -mulmxA E2 mulmx1.
elim: n A hA pA => [|n IH] A hA pA; first by exists 1%:M; rewrite ?unitmx1 //; apply/matrixP => -[].
change 'M[C]_(1 + n) in A; have [J uJ EJ] := IH _ (schur_herm hA) (schur_pd hA pA).
exact: chol_step uJ EJ.
Qed.

(** Hadamard's inequality *)
Lemma schur_ii n (A : 'M[C]_(1 + n)) i : schur A i i = drsubmx A i i - (A 0 0)^-1 * `|dlsubmx A i 0| ^+ 2.
Proof. by rewrite !mxE big_ord1 !mxE normCK. Qed.

Lemma hadamard n (A : 'M[C]_n) : hermitian A -> posdef A ->
  \det A <= \prod_i A i i /\ (\det A = \prod_i A i i -> forall i j, i != j -> A i j = 0).
Proof.
elim: n A => [|n IH] A hA pA; first by rewrite det_mx00 big_ord0; split=> // _ [].
change 'M[C]_(1 + n) in A; have a0 := posdef_00 pA; rewrite (schur_det hA pA).
have [i1 i2] := IH _ (schur_herm hA) (schur_pd hA pA).
have pS := schur_pd hA pA; have pD := posdef_dr pA.
have le i : schur A i i <= drsubmx A i i.
  by rewrite schur_ii ler_subl_addr ler_addl; apply: mulr_ge0; [rewrite invr_ge0; exact: ltW|exact: exprn_ge0].
have leP : \prod_i schur A i i <= \prod_i drsubmx A i i.
  by apply: ler_prod => i _; rewrite le andbT ltW // posdef_diag.
have -> : \prod_i A i i = A 0 0 * \prod_i drsubmx A i i.
  rewrite big_ord_recl; congr (_ * _); apply: eq_bigr => i _; rewrite !mxE.
  by congr (A _ _); apply/val_inj.
split; first by rewrite ler_pmul2l //; apply: le_trans leP.
move/mulfI => /(_ (lt0r_neq0 a0)) E.
have E1 : \det (schur A) = \prod_i schur A i i by apply: le_anti; rewrite i1 E leP.
have E2 i : schur A i i = drsubmx A i i.
  apply/eqP; move: (le i); rewrite le_eqVlt => /orP[//|lt]; exfalso.
  have : \prod_i schur A i i < \prod_i drsubmx A i i.
    rewrite (bigD1 i) // [X in _ < X](bigD1 i) //=.
    apply: (@le_lt_trans _ _ (schur A i i * \prod_(j | j != i) drsubmx A j j)).
      rewrite ler_pmul2l ?posdef_diag //; apply: ler_prod => j _.
      by rewrite le andbT ltW // posdef_diag.
    by rewrite ltr_pmul2r //; apply: prodr_gt0 => j _; exact: posdef_diag.
  by rewrite -E1 E ltxx.
have c0 i : dlsubmx A i 0 = 0.
  have := E2 i; rewrite schur_ii => /eqP; rewrite subr_eq addrC -subr_eq subrr eq_sym mulf_eq0 invr_eq0 (gt_eqF a0) /=.
  by rewrite expf_eq0 /= normr_eq0 => /eqP.
have SD : schur A = drsubmx A.
  apply/matrixP => i j; rewrite ![in LHS]mxE big_ord1 [X in _ * (X * _)]c0 mul0r mulr0 subr0.
  by rewrite !mxE.
have off i : A (lift 0 i) 0 = 0.
  by rewrite -(c0 i) !mxE; congr (A _ _); apply/val_inj.
move=> i j; case: (unliftP 0 i) => [i'|] ->; case: (unliftP 0 j) => [j'|] -> ij.
- have := i2 E1 i' j'; rewrite SD !mxE; have -> : i' != j' by apply: contra_neq ij => ->.
  by move=> /(_ isT) <-; congr (A _ _); apply/val_inj.
- exact: off.
- by rewrite (hA (lift 0 j') 0) off cj0.
- by rewrite eqxx in ij.
Qed.

Lemma det_trace n (A : 'M[C]_n) : hermitian A -> posdef A -> \tr A = n%:R ->
  \det A <= 1 /\ (\det A = 1 -> A = 1%:M).
Proof.
move=> hA pA tA; have [h1 h2] := hadamard hA pA.
have [n0|n0] := posnP n.
  rewrite n0 in A hA pA tA h1 h2 *; rewrite det_mx00; by split=> // _; apply/matrixP => -[].
have [le eq] := @leif_AGM C _ [set: 'I_n] (fun i => A i i) (fun i _ => ltW (posdef_diag i pA)).
move: le eq; rewrite cardsT card_ord.
have -> : \sum_(i in [set: 'I_n]) A i i = n%:R by rewrite -tA; apply: eq_bigl => i; rewrite inE.
have -> : \prod_(i in [set: 'I_n]) A i i = \prod_i A i i by apply: eq_bigl => i; rewrite inE.
rewrite divff ?pnatr_eq0 -?lt0n // expr1n => le eq; split; first exact: le_trans le.
move=> d1; have p1 : \prod_i A i i = 1 by apply: le_anti; rewrite le /=; move: h1; rewrite d1.
have /forall_inP Eq : [forall i in [set: 'I_n], [forall j in [set: 'I_n], A i i == A j j]] by rewrite -eq p1.
have Eij i j : A i i = A j j.
  by have /forall_inP/(_ j) := Eq i (in_setT i); rewrite inE => /(_ isT)/eqP.
apply/matrixP => i j; rewrite mxE; case: eqP => [<-|/eqP ij]; last by rewrite (h2 _ i j ij) // d1.
have : \tr A = n%:R * A i i.
  by rewrite /mxtrace (eq_bigr (fun=> A i i)) // sumr_const card_ord mulr_natl.
by rewrite tA -[LHS]mulr1 => /mulfI ->; rewrite ?pnatr_eq0 -?lt0n.
Qed.

Lemma det_trace2 n (h G : 'M[C]_n) : hermitian h -> posdef h -> hermitian G -> posdef G -> \tr (h *m G) = n%:R ->
  \det h * \det G <= 1 /\ (\det h * \det G = 1 -> h *m G = 1%:M).
Proof.
move=> hh ph hG pG tr; have [L uL Eh] := cholesky hh ph.
have uL' : adjm L \in unitmx by rewrite unitmxE det_adjm unitfE conjC_eq0 -unitfE -unitmxE.
pose A := adjm L *m G *m L.
have EA : A = adjm L *m G *m adjm (adjm L) by rewrite adjmK.
have hA : hermitian A by rewrite EA; apply: hermitian_congr.
have pA : posdef A by rewrite EA; apply: posdef_congr_unit.
have tA : \tr A = n%:R by rewrite /A -mulmxA mxtrace_mulC -mulmxA -Eh mxtrace_mulC.
have dA : \det A = \det h * \det G.
  by rewrite /A Eh !det_mulmx mulrC mulrA.
rewrite -dA; have [le eq] := det_trace hA pA tA; split=> // /eq E.
rewrite Eh -[LHS]mulmx1 -(mulmxV uL) !mulmxA -[L *m adjm L *m G *m L]mulmxA -[L *m adjm L *m _]mulmxA.
have -> : adjm L *m (G *m L) = 1%:M by rewrite mulmxA.
by rewrite mulmx1 mulmxV.
Qed.
End Schur.
