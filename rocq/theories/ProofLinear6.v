(** Instance: the quadric x0^2 + x1^2 and the change of coordinates which makes it 2i x0 x1. *)
From Coq Require Import ZArith Lia.
From mathcomp Require Import all_ssreflect all_algebra.
From mathcomp Require Import zify ssrZ ring.
From SsrMultinomials Require Import mpoly.
From Verif Require Import Base ModelUtil Bridge SpecPipe PolyGrad Herm SpecLinear ProofLinear5.
Delimit Scope Z_scope with Z.

Set Implicit Arguments.
Unset Strict Implicit.
Unset Printing Implicit Defensive.

Import GRing.Theory Num.Theory Order.POrderTheory.
Local Open Scope ring_scope.

Section Instance.
Variable C : numClosedFieldType.
Let r : C := (sqrtC 2%:R)^-1.
Definition tilt : 'M[C]_2 := \matrix_(a, b) (if a == b then r else r * 'i).
Definition quadric : {mpoly C[2]} := 'X_0 ^+ 2 + 'X_1 ^+ 2.
Definition product2 : {mpoly C[2]} := (2%:R * 'i) *: ('X_0 * 'X_1).
Definition e0 : 'rV[C]_2 := \row_b (b == 0)%:R.

Let r2 : r ^+ 2 = 2%:R^-1. Proof. by rewrite exprVn sqrtCK. Qed.
Let rc : r^* = r. Proof. by apply: conj_Creal; rewrite rpredV ger0_real // sqrtC_ge0 ler0n. Qed.
Let i2 : 'i ^+ 2 = -1 :> C. Proof. exact: sqrCi. Qed.
Let n2 : 2%:R != 0 :> C. Proof. by rewrite pnatr_eq0. Qed.

Let I2 (a : 'I_2) : a = 0 \/ a = 1.
Proof. by case: a => -[|[|//]] p; [left|right]; exact: val_inj. Qed.

Let sum2 (F : 'I_2 -> C) : \sum_a F a = F 0 + F 1.
Proof. by rewrite !big_ord_recl big_ord0 addr0; congr (_ + F _); exact: val_inj. Qed.

Lemma tilt_unitary : unitary tilt.
Proof.
have rr : r * r = 2%:R^-1 by rewrite -expr2 r2.
have ii : 'i * 'i = -1 :> C by rewrite -expr2 i2.
have cr : (r * 'i)^* = - (r * 'i) by rewrite rmorphM /= rc conjCi mulrN.
apply/matrixP => a b; rewrite mxE sum2 !adjmE.
case: (I2 a) => ->; case: (I2 b) => ->; rewrite !mxE /= ?rc ?cr.
- by rewrite mulrN mulrACA rr ii; field.
- by rewrite mulrN mulrC [r * 'i * r]mulrC addNr.
- by rewrite mulrN [r * 'i * r]mulrC subrr.
by rewrite mulrN mulrACA rr ii; field.
Qed.

Lemma tilt_quadric u : peval product2 u = peval quadric (u *m tilt).
Proof.
have E : (u *m tilt) 0 0 = r * (u 0 0 + 'i * u 0 1) /\ (u *m tilt) 0 1 = r * ('i * u 0 0 + u 0 1).
  by rewrite ![(u *m tilt) _ _]mxE !sum2 !mxE /=; split; ring.
rewrite /peval /quadric /product2 mevalZ mevalM mevalD !rmorphX /= !mevalXU; have [-> ->] := E.
rewrite !exprMn r2.
have -> : (u 0 0 + 'i * u 0 1) ^+ 2 = u 0 0 ^+ 2 + 2%:R * 'i * (u 0 0 * u 0 1) + 'i ^+ 2 * u 0 1 ^+ 2 by ring.
have -> : ('i * u 0 0 + u 0 1) ^+ 2 = 'i ^+ 2 * u 0 0 ^+ 2 + 2%:R * 'i * (u 0 0 * u 0 1) + u 0 1 ^+ 2 by ring.
by rewrite i2; field.
Qed.

(** The point (1 : 0) on the product is taken to (1 : i) on the quadric, with the same weight. *)
Lemma tilt_instance (pi : C) : [/\ unitary tilt, forall u, peval product2 u = peval quadric (u *m tilt),
  peval product2 e0 = 0, peval quadric (e0 *m tilt) = 0 &
  has_weight (m := 0) pi 2 product2 (row_seq e0) 4%:R^-1 /\ has_weight (m := 0) pi 2 quadric (row_seq (e0 *m tilt)) 4%:R^-1].
Proof.
have p0 : peval product2 e0 = 0.
  by rewrite /peval /product2 mevalZ mevalM !mevalXU !mxE /= !mulr0.
have w0 : has_weight (m := 0) pi 2 product2 (row_seq e0) 4%:R^-1.
  exists e0, 0; split=> //.
  - by move=> j; case: (I2 j) => ->; rewrite !mxE /= ?normr0 normr1 // ler01.
  - by rewrite mxE /= oner_neq0.
  have d0 : peval (product2^`M(0)) e0 = 0.
    by rewrite /product2 mderivZ mderivM !mderivX !mnmE /= /peval mevalZ mevalD !mevalM !mevalZ !mevalXU !mxE /= mulr0 mul0r mulr0 addr0 mulr0.
  have d1 : peval (product2^`M(1)) e0 = 2%:R * 'i.
    rewrite /product2 mderivZ mderivM !mderivX !mnmE /= /peval mevalZ mevalD !mevalM !mevalZ !mevalXU !mxE /= mul0r mul0r add0r mul1r mul1r.
    by rewrite (_ : (U_(1) - U_(1) = 0)%MM) ?mpolyX0 ?meval1 ?mulr1 //; apply/mnmP => c; rewrite mnmBE subnn mnm0E.
  rewrite /patch_weight /len2 /grad2 !sum2 d0 d1 !mxE /= normr0 normr1 normrM normCi mulr1 normr_nat fact0 !expr1n expr0.
  by rewrite !expr0n /= addr0 add0r expr1; field.
split=> //; [exact: tilt_unitary|exact: tilt_quadric|by rewrite -tilt_quadric|].
split=> //; exact: (weight_lin tilt_unitary tilt_quadric w0).
Qed.
End Instance.
