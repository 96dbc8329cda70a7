(** Hermitian matrices: determinants and inverses of positive definite matrices. *)
From Coq Require Import ZArith.
From mathcomp Require Import all_ssreflect all_algebra.
From mathcomp Require Import ring.
From Verif Require Import Herm.

Set Implicit Arguments.
Unset Strict Implicit.
Unset Printing Implicit Defensive.

Import GRing.Theory Num.Theory Order.POrderTheory.
Local Open Scope ring_scope.

Section Det.
Variable C : numClosedFieldType.

Lemma posdef_congr_unit n (A T : 'M[C]_n) : T \in unitmx -> posdef A -> posdef (T *m A *m adjm T).
Proof.
move=> uT; apply: posdef_congr => v /(congr1 (mulmx^~ (invmx T))).
by rewrite mulmxK // mul0mx.
Qed.

Lemma hform_block n (A : 'M[C]_(1 + n)) (w : 'rV[C]_n) :
  hform A (row_mx 0 w) = hform (drsubmx A) w.
Proof.
rewrite /hform big_split_ord /= big1 ?add0r => [|i _]; last first.
  by apply: big1 => j _; rewrite row_mxEl mxE !mul0r.
apply: eq_bigr => i _; rewrite big_split_ord /= big1 ?add0r => [|j _]; last first.
  have -> : row_mx 0 w 0 (lshift n j) = 0 by rewrite row_mxEl mxE.
  by rewrite cj0 mulr0.
by apply: eq_bigr => j _; rewrite !row_mxEr /drsubmx !mxE.
Qed.

Lemma posdef_dr n (A : 'M[C]_(1 + n)) : posdef A -> posdef (drsubmx A).
Proof.
move=> pd w w0; rewrite -hform_block; apply: pd; apply: contra_neq w0 => E.
by apply/rowP => i; have := congr1 (fun v : 'rV[C]_(1 + n) => v 0 (rshift 1 i)) E; rewrite /= row_mxEr !mxE.
Qed.

Lemma posdef_00 n (A : 'M[C]_(1 + n)) : posdef A -> 0 < A 0 0.
Proof.
move=> pd; have := pd (delta_mx 0 0); rewrite /hform.
have -> : (delta_mx 0 0 : 'rV[C]_(1 + n)) != 0.
  by apply/eqP => /rowP/(_ 0); rewrite !mxE !eqxx; apply/eqP; exact: oner_neq0.
move=> /(_ isT); rewrite (bigD1 0) //= [X in _ + X]big1 ?addr0 => [|i i0]; last first.
  by apply: big1 => j _; rewrite mxE (negbTE i0) andbF !mul0r.
rewrite (bigD1 0) //= [X in _ + X]big1 ?addr0 => [|j j0]; last first.
  by rewrite [X in X^*]mxE (negbTE j0) andbF conjC0 mulr0.
by rewrite !mxE !eqxx /= conjC1 mulr1 mul1r.
Qed.

Lemma posdef_det n (A : 'M[C]_n) : posdef A -> 0 < \det A.
Proof.
elim: n A => [|n IH] A pd; first by rewrite det_mx00 ltr01.
change 'M[C]_(1 + n) in A; have a0 := posdef_00 pd.
pose c : 'cV[C]_n := - (A 0 0)^-1 *: dlsubmx A.
pose T : 'M[C]_(1 + n) := block_mx 1%:M 0 c 1%:M.
have dT : \det T = 1 by rewrite det_lblock !det1 mulr1.
have uT : T \in unitmx by rewrite unitmxE dT unitr1.
have pd' := posdef_congr_unit uT pd; set B := T *m A *m adjm T in pd'.
have dB : \det B = \det A by rewrite !det_mulmx det_adjm dT conjC1 mulr1 mul1r.
have EA : ulsubmx A = (A 0 0)%:M.
  by apply/matrixP => i j; rewrite !ord1 !mxE eqxx mulr1n; congr (A _ _); apply/val_inj.
have aT : adjm T = block_mx 1%:M (adjm c) 0 1%:M.
  apply/matrixP => i j; rewrite adjmE.
  rewrite -[i]splitK -[j]splitK; case: (split i) => i'; case: (split j) => j' /=.
  - by rewrite !block_mxEul !mxE rmorph_nat eq_sym.
  - by rewrite block_mxEdl block_mxEur adjmE.
  - by rewrite block_mxEdl block_mxEur !mxE conjC0.
  - by rewrite !block_mxEdr !mxE rmorph_nat eq_sym.
have EB : dlsubmx B = 0.
  rewrite /B aT -[A in T *m A]submxK /T !mulmx_block block_mxKdl.
  rewrite !mulmx1 !mul1mx !mulmx0 !addr0 EA /c mul_mx_scalar scalerA mulrN.
  by rewrite divff ?gt_eqF // scaleN1r addNr.
clearbody B; rewrite -dB -[B]submxK EB det_ublock; apply: mulr_gt0; last exact: IH (posdef_dr pd').
rewrite det_mx11 !mxE; have := posdef_00 pd'; congr (0 < B _ _); exact/val_inj.
Qed.

End Det.
