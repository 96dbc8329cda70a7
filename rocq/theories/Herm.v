(** Hermitian matrices: the notions used in the statements. *)
From Coq Require Import ZArith.
From mathcomp Require Import all_ssreflect all_algebra.
From mathcomp Require Import ring.

Set Implicit Arguments.
Unset Strict Implicit.
Unset Printing Implicit Defensive.

Import GRing.Theory Num.Theory Order.POrderTheory.
Local Open Scope ring_scope.

Section Herm.
Variable C : numClosedFieldType.

(** Conjugation rules, all in terms of the same notation. *)
Lemma cjM (x y : C) : (x * y)^* = x^* * y^*. Proof. exact: rmorphM. Qed.
Lemma cjD (x y : C) : (x + y)^* = x^* + y^*. Proof. exact: rmorphD. Qed.
Lemma cjB (x y : C) : (x - y)^* = x^* - y^*. Proof. exact: rmorphB. Qed.
Lemma cjN (x : C) : (- x)^* = - x^*. Proof. exact: rmorphN. Qed.
Lemma cjV (x : C) : (x^-1)^* = (x^*)^-1. Proof. exact: fmorphV. Qed.
Lemma cjX (x : C) k : (x ^+ k)^* = x^* ^+ k. Proof. exact: rmorphX. Qed.
Lemma cjn k : (k%:R : C)^* = k%:R. Proof. exact: rmorph_nat. Qed.
Lemma cj1 : (1 : C)^* = 1. Proof. exact: rmorph1. Qed.
Lemma cj0 : (0 : C)^* = 0. Proof. exact: rmorph0. Qed.
Lemma cjK (x : C) : (x^*)^* = x. Proof. exact: conjCK. Qed.
Lemma cj_sum (I : Type) (l : seq I) (P : pred I) (f : I -> C) :
  (\sum_(i <- l | P i) f i)^* = \sum_(i <- l | P i) (f i)^*.
Proof. exact: rmorph_sum. Qed.
Lemma cj_prod (I : Type) (l : seq I) (P : pred I) (f : I -> C) :
  (\prod_(i <- l | P i) f i)^* = \prod_(i <- l | P i) (f i)^*.
Proof. exact: rmorph_prod. Qed.
Definition cjE := (cjM, cjD, cjB, cjN, cjV, cjX, cjn, cj1, cj0, cjK).

(** Conjugate transpose. *)
Definition adjm m n (A : 'M[C]_(m, n)) : 'M[C]_(n, m) := \matrix_(i, j) (A j i)^*.

Definition hermitian n (A : 'M[C]_n) : Prop := forall i j, A j i = (A i j)^*.

(** The sesquilinear form of a metric: sum_ij v_i A_ij conj(v_j). *)
Definition hform n (A : 'M[C]_n) (v : 'rV[C]_n) : C :=
  \sum_i \sum_j v 0 i * A i j * (v 0 j)^*.

Definition posdef n (A : 'M[C]_n) : Prop := forall v, v != 0 -> 0 < hform A v.
Definition possemidef n (A : 'M[C]_n) : Prop := forall v, 0 <= hform A v.

Lemma adjmE m n (A : 'M[C]_(m, n)) i j : adjm A i j = (A j i)^*.
Proof. by rewrite mxE. Qed.

Lemma adjmK m n (A : 'M[C]_(m, n)) : adjm (adjm A) = A.
Proof. by apply/matrixP => i j; rewrite !mxE conjCK. Qed.

Lemma adjm_mul m n p (A : 'M[C]_(m, n)) (B : 'M[C]_(n, p)) :
  adjm (A *m B) = adjm B *m adjm A.
Proof.
apply/matrixP => i j; rewrite !mxE rmorph_sum; apply: eq_bigr => k _.
by rewrite !mxE rmorphM mulrC.
Qed.

Lemma adjm_add m n (A B : 'M[C]_(m, n)) : adjm (A + B) = adjm A + adjm B.
Proof. by apply/matrixP => i j; rewrite !mxE rmorphD. Qed.

Lemma adjm_scale m n c (A : 'M[C]_(m, n)) : adjm (c *: A) = c^* *: adjm A.
Proof. by apply/matrixP => i j; rewrite !mxE rmorphM. Qed.

Lemma adjm1 n : adjm (1%:M : 'M[C]_n) = 1%:M.
Proof. by apply/matrixP => i j; rewrite !mxE rmorph_nat eq_sym. Qed.

Lemma adjm_tr m n (A : 'M[C]_(m, n)) : adjm A = map_mx conjC A^T.
Proof. by apply/matrixP => i j; rewrite !mxE. Qed.

Lemma hermitianP n (A : 'M[C]_n) : hermitian A <-> adjm A = A.
Proof.
split=> [H|H i j]; first by apply/matrixP => i j; rewrite mxE H conjCK.
by rewrite -{1}H mxE.
Qed.

Lemma det_adjm n (A : 'M[C]_n) : \det (adjm A) = (\det A)^*.
Proof. by rewrite adjm_tr det_map_mx det_tr. Qed.

Lemma hformE n (A : 'M[C]_n) v : hform A v = (v *m A *m adjm v) 0 0.
Proof.
rewrite mxE /hform exchange_big; apply: eq_bigr => j _.
by rewrite !mxE mulr_suml.
Qed.

Lemma hform_congr m n (A : 'M[C]_n) (J : 'M[C]_(m, n)) v :
  hform (J *m A *m adjm J) v = hform A (v *m J).
Proof. by rewrite !hformE adjm_mul !mulmxA. Qed.

Lemma hform_real n (A : 'M[C]_n) v : hermitian A -> hform A v \is Num.real.
Proof.
move=> H; rewrite CrealE /hform rmorph_sum exchange_big /=; apply/eqP.
apply: eq_bigr => i _; rewrite rmorph_sum; apply: eq_bigr => j _.
by rewrite !rmorphM conjCK /= -H; ring.
Qed.

Lemma hermitian_congr m n (A : 'M[C]_n) (J : 'M[C]_(m, n)) :
  hermitian A -> hermitian (J *m A *m adjm J).
Proof. by move/hermitianP => H; apply/hermitianP; rewrite !adjm_mul adjmK H mulmxA. Qed.

(** Full row rank, written out: no non-zero combination of the rows vanishes. *)
Lemma posdef_congr m n (A : 'M[C]_n) (J : 'M[C]_(m, n)) :
  (forall v : 'rV_m, v *m J = 0 -> v = 0) -> posdef A -> posdef (J *m A *m adjm J).
Proof.
move=> inj pd v v0; rewrite hform_congr; apply: pd.
by apply: contra_neq v0 => /inj.
Qed.

Lemma posdef_unit n (A : 'M[C]_n) : posdef A -> A \in unitmx.
Proof.
move=> pd; rewrite -row_free_unit -kermx_eq0; apply/negPn/negP => nz.
case/rowV0Pn: nz => v /sub_kermxP vA v0.
by have := pd _ v0; rewrite hformE vA mul0mx mxE ltxx.
Qed.

(** Inner product of row vectors and Cauchy-Schwarz. *)
Definition ip n (v w : 'rV[C]_n) : C := \sum_i v 0 i * (w 0 i)^*.

Lemma ip_ge0 n (v : 'rV[C]_n) : 0 <= ip v v.
Proof. by apply: sumr_ge0 => i _; rewrite mul_conjC_ge0. Qed.

Lemma ip_gt0 n (v : 'rV[C]_n) : v != 0 -> 0 < ip v v.
Proof.
move=> v0; rewrite lt_def ip_ge0 andbT; apply: contra_neq v0 => /eqP.
rewrite psumr_eq0 => [/allP H|i _]; last by rewrite mul_conjC_ge0.
apply/rowP => i; rewrite mxE; apply/eqP; rewrite -mul_conjC_eq0.
by apply: (implyP (H i _)); rewrite ?mem_index_enum.
Qed.

Lemma ip_conj n (v w : 'rV[C]_n) : (ip v w)^* = ip w v.
Proof. by rewrite rmorph_sum; apply: eq_bigr => i _; rewrite rmorphM conjCK mulrC. Qed.

Lemma cauchy_schwarz n (v w : 'rV[C]_n) : `|ip v w| ^+ 2 <= ip v v * ip w w.
Proof.
have [->|w0] := eqVneq w 0.
  have -> : ip v 0 = 0 by rewrite /ip big1 // => i _; rewrite mxE conjC0 mulr0.
  have -> : ip (0 : 'rV[C]_n) 0 = 0 by rewrite /ip big1 // => i _; rewrite mxE mul0r.
  by rewrite normr0 expr0n mulr0.
have ww := ip_gt0 w0.
have := ip_ge0 (ip w w *: v - ip v w *: w).
have -> : ip (ip w w *: v - ip v w *: w) (ip w w *: v - ip v w *: w) =
   ip w w * (ip v v * ip w w - ip v w * (ip v w)^*).
  have wwr : (ip w w)^* = ip w w by rewrite ip_conj.
  have -> : ip (ip w w *: v - ip v w *: w) (ip w w *: v - ip v w *: w) =
    \sum_i (ip w w * ip w w * (v 0 i * (v 0 i)^*) - ip w w * (ip v w)^* * (v 0 i * (w 0 i)^*)
     - ip v w * ip w w * (w 0 i * (v 0 i)^*) + ip v w * (ip v w)^* * (w 0 i * (w 0 i)^*)).
    apply: eq_bigr => i _; rewrite !mxE rmorphB !rmorphM /= wwr; ring.
  rewrite !big_split /= !sumrN -!mulr_sumr -/(ip v v) -/(ip v w) -/(ip w v) -/(ip w w).
  by rewrite -(ip_conj v w); ring.
by rewrite pmulr_rge0 // subr_ge0 -normCK.
Qed.

End Herm.
