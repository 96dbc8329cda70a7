(** Examples for sigma_accuracy and donaldson_step. *)
From Coq Require Import ZArith.
From mathcomp Require Import all_ssreflect all_algebra.
From mathcomp Require Import ring.
From SsrMultinomials Require Import mpoly.
From Verif Require Import Base ModelUtil ModelGeom ModelDonaldson Deriv Bridge Herm Herm2 SpecGeom SpecDonaldson
  ProofGeom4 PolyGrad ProofDonaldson ProofDonaldson2.
Delimit Scope Z_scope with Z.

Set Implicit Arguments.
Unset Strict Implicit.
Unset Printing Implicit Defensive.

Import GRing.Theory Num.Theory Order.POrderTheory.
Local Open Scope ring_scope.

#[local] Hint Extern 0 (is_true (0 < _)) => solve [apply: ltr01 | apply: ltr0Sn] : core.

Section Examples.
Variable C : numClosedFieldType.

Lemma nat_neq0 k : (k.+1%:R : C) != 0. Proof. by rewrite pnatr_eq0. Qed.

Lemma sigma_ex : sigma_of [:: 1; 3%:R] [:: 1; 1] = 2%:R^-1 :> C.
Proof.
have n2 := nat_neq0 1.
have E1 : (1 : C) - 1 * 1 / 2%:R = 2%:R^-1 by field.
have E2 : (1 : C) - 3%:R * 1 / 2%:R = - 2%:R^-1 by field.
have M1 : mean [:: 1; 1] = 1 :> C by rewrite /mean !big_cons big_nil /=; field.
have M2 : mean [:: 1 * 1; 3%:R * 1] = 2%:R :> C by rewrite /mean !big_cons big_nil /=; field.
rewrite /sigma_of /= M1 M2 (Creal_ReP _ _) ?rpred1 // E1 E2 normrN ger0_norm ?invr_ge0 ?ler0n //.
by rewrite /mean !big_cons big_nil /=; field.
Qed.

Lemma step_ex1 : donaldson_step true (5%:R%:M : 'M[C]_1) 7%:R [:: [:: (2%:R%:M, Some 3%:R)]] =
  Ok (35%:R / 3%:R)%:M.
Proof.
have hh : hermitian (5%:R%:M : 'M[C]_1) by move=> i j; rewrite !mxE !ord1 /= conjC_nat.
have eb : equal_batches [:: [:: (2%:R%:M : 'rV[C]_1, Some (3%:R : C))]].
  by exists 1%N => b; rewrite inE => /eqP ->.
have E : T_of (5%:R%:M : 'M[C]_1) 7%:R [:: (2%:R%:M, Some 3%:R)] = (3%:R / 35%:R)%:M.
  apply/matrixP => a b; rewrite !ord1 !mxE /= big_cons big_nil /weight /= /hform !big_ord1 !mxE /= conjC_nat.
  by rewrite !mulr1n; have n5 := nat_neq0 4; have n7 := nat_neq0 6; have n2 := nat_neq0 1; field; rewrite ?n5 ?n7 ?n2.
rewrite /donaldson_step /= T_ofE // /= E invmx_scalar tr_scalar_mx invfM invrK mulrC.
by congr Ok; rewrite mulrC.
Qed.

Definition e_ (k : 'I_2) : 'rV[C]_2 := delta_mx 0 k.
Definition two_batches : seq (seq (sample C 2)) := [:: [:: (e_ 0, Some 1)]; [:: (e_ 1, Some 1)]].

Lemma hform1 (v : 'rV[C]_2) : hform 1%:M v = \sum_i v 0 i * (v 0 i)^*.
Proof.
apply: eq_bigr => i _; rewrite (bigD1 i) //= mxE eqxx mulr1 big1 ?addr0 // => j ji.
by rewrite mxE eq_sym (negPf ji) mulr0 mul0r.
Qed.

Lemma step_ex2 :
  [/\ equal_batches two_batches, spanning (flatten two_batches),
      forall p, p \in flatten two_batches -> 0 <= weight p /\ p.1 != 0 &
      donaldson_step true (1%:M : 'M[C]_2) 1 two_batches = Ok 1%:M].
Proof.
have eb : equal_batches two_batches by exists 1%N => b; rewrite !inE => /orP[] /eqP ->.
have en k : e_ k != 0.
  by apply/eqP => /rowP/(_ k); rewrite !mxE !eqxx => /eqP; rewrite oner_eq0.
split=> //.
- move=> v v0; have [k vk] : exists k, v 0 k != 0.
    by apply/rV0Pn.
  exists (e_ k, Some 1).
    rewrite /two_batches /= !inE.
    by case: (ord2E k) => ->; rewrite eqxx ?orbT.
  split; first by rewrite /weight /=.
  rewrite (bigD1 k) //= mxE !eqxx mulr1 big1 ?addr0 // => j jk.
  by rewrite mxE (negPf jk) andbF mulr0.
- by move=> p; rewrite /two_batches /= !inE => /orP[] /eqP ->; rewrite /weight /= ler01.
have hh := @herm1 C 2.
rewrite /donaldson_step /= T_ofE //.
suff -> : T_of 1%:M 1 (flatten two_batches) = 1%:M :> 'M[C]_2 by rewrite invmx1 trmx1.
have n2 := nat_neq0 1.
have h1 k : hform 1%:M (e_ k) = 1 :> C.
  rewrite hform1 (bigD1 k) //= mxE !eqxx mul1r conjC1 big1 ?addr0 // => j jk.
  by rewrite mxE (negPf jk) andbF mul0r.
apply/matrixP => a b; rewrite !mxE /= !big_cons big_nil /weight /= !h1 !mxE /=.
by case: (ord2E a) => ->; case: (ord2E b) => -> /=; rewrite ?conjC1 ?conjC0 /=; field.
Qed.

Lemma accuracy_ex (pi : C) (x : 'rV[C]_1) : 0 < pi ->
  o_grad (conic (conic_phi x)) != 0 /\
  posdef (\matrix_(i, j) ob_g_proj pi (conic (conic_phi x)) i j).
Proof.
move=> pi0; set z := conic_phi x; split.
  apply/eqP => /rowP/(_ 0); rewrite /= !mxE conic_dQ => /eqP; exact/negP/oner_neq0.
have Hs : exists a, o_s (conic z) a != 0.
  by exists 0; have [-> _ _] := conic_s z; exact: oner_neq0.
apply/(gpm_pos (erefl : o_h (conic z) = HMat 1%:M) (@herm1 C 3) pi0 (@pd1 C 3)) => //.
exact: conic_imm.
Qed.
End Examples.
