(** The Donaldson step near a balanced metric: the square of the distance shrinks by a fixed factor. *)
From Coq Require Import ZArith Lia.
From mathcomp Require Import all_ssreflect all_algebra zify ssrZ ring.
From Verif Require Import Base Herm Herm2 Herm3 Herm4 ModelDonaldson SpecDonaldson SpecStep ProofDonaldson2
  ProofDonaldson4 ProofDonaldson5 ProofStep3 ProofRate.
Delimit Scope Z_scope with Z.

Set Implicit Arguments.
Unset Strict Implicit.
Unset Printing Implicit Defensive.

Import GRing.Theory Num.Theory Order.POrderTheory.
Local Open Scope ring_scope.

Section Local.
Variables (C : numClosedFieldType) (N : nat) (T : eqType) (r : seq T) (q : T -> C) (u : T -> 'rV[C]_N).
Implicit Types (Y A : 'M[C]_N).
Hypothesis q0 : forall p, p \in r -> 0 <= q p.
Hypothesis u1 : forall p, p \in r -> u p *m adjm (u p) = 1%:M.
Let P p := adjm (u p) *m u p.
Hypothesis P1 : \sum_(p <- r) q p *: P p = 1%:M.
Notation comb := (comb r q u).

Lemma sum_P (f : T -> C) : \sum_(p <- r) (q p * f p) *: P p = comb f.
Proof. by []. Qed.

Lemma comb_ext f g : {in r, f =1 g} -> comb f = comb g.
Proof. by move=> e; rewrite /ProofRate.comb big_seq [RHS]big_seq; apply: eq_bigr => p pr; rewrite e. Qed.

Lemma combB f g : comb f - comb g = comb (fun p => f p - g p).
Proof. by rewrite /ProofRate.comb -sumrB; apply: eq_bigr => p _; rewrite -scalerBl mulrBr. Qed.

Lemma comb1 : comb (fun=> 1) = 1%:M.
Proof. by rewrite -P1; apply: eq_bigr => p _; rewrite mulr1. Qed.

Let k16 : 0 < (16%:R : C)^-1. Proof. by rewrite invr_gt0 ltr0n. Qed.

Variable Y : 'M[C]_N.
Hypothesis small : n2 Y <= 16%:R^-1.
Notation y := (fun p => hform Y (u p)).

Lemma y_small p : p \in r -> `|y p| <= 4%:R^-1.
Proof.
move=> pr; rewrite -ler_sqr ?nnegrE ?normr_ge0 ?invr_ge0 ?ler0n //.
apply: le_trans (point_le u1 _ pr) _; rewrite exprVn -natrX; exact: small.
Qed.

Lemma y1_big p : p \in r -> 2%:R^-1 <= `|1 + y p|.
Proof.
move=> /y_small le; have := ler_sub_dist 1 (- y p); rewrite normrN normr1 opprK => h.
apply: le_trans _ h; rewrite ler_subr_addr -ler_subr_addl; apply: le_trans le _.
have -> : 1 - 2%:R^-1 = 2%:R^-1 :> C by field.
by rewrite lef_pinv ?posrE ?ltr0n // ler_nat.
Qed.

Lemma y1_neq0 p : p \in r -> 1 + y p != 0.
Proof. by move=> /y1_big; apply: contraTneq => ->; rewrite normr0 lt_geF // invr_gt0 ltr0n. Qed.

Lemma div_small p x : p \in r -> `|x / (1 + y p)| ^+ 2 <= 4%:R * `|x| ^+ 2.
Proof.
move=> pr; rewrite normrM exprMn mulrC; apply: ler_wpmul2r; first exact: exprn_ge0.
have -> : (4%:R : C) = 2%:R ^+ 2 by rewrite -natrX.
have b := y1_big pr.
rewrite ler_sqr ?nnegrE ?normr_ge0 ?ler0n // normfV -[2%:R]invrK lef_pinv ?posrE ?invr_gt0 ?ltr0n //.
by rewrite normr_gt0 y1_neq0.
Qed.

Let S := \sum_(p <- r) (q p / (1 + y p)) *: P p.

Lemma S_comb : 1%:M - S = comb (fun p => y p / (1 + y p)).
Proof.
have -> : S = comb (fun p => (1 + y p)^-1) by [].
rewrite -comb1 combB; apply: comb_ext => p pr; have := y1_neq0 pr; move: (y p) => z z0.
by field.
Qed.

Lemma rem_comb : comb y - (1%:M - S) = comb (fun p => y p ^+ 2 / (1 + y p)).
Proof.
rewrite S_comb combB; apply: comb_ext => p pr; have := y1_neq0 pr; move: (y p) => z z0.
by field.
Qed.

Let n := n2 Y.

Lemma S_small : n2 (1%:M - S) <= 4%:R * n.
Proof.
rewrite S_comb; apply: le_trans (comb_n2 q0 u1 P1 _) _.
apply: (@le_trans _ _ (4%:R * \sum_(p <- r) q p * `|y p| ^+ 2)); last first.
  by rewrite ler_wpmul2l ?ler0n // (gap_le q0 u1 P1).
rewrite mulr_sumr big_seq [X in _ <= X]big_seq; apply: ler_sum => p pr.
rewrite [X in _ <= X]mulrCA; apply: ler_wpmul2l; [exact: q0|exact: div_small].
Qed.

Lemma rem_small : n2 (comb y - (1%:M - S)) <= 4%:R * n ^+ 2.
Proof.
rewrite rem_comb; apply: le_trans (comb_n2 q0 u1 P1 _) _.
apply: (@le_trans _ _ (4%:R * n * \sum_(p <- r) q p * `|y p| ^+ 2)); last first.
  by rewrite expr2 mulrA ler_wpmul2l ?(gap_le q0 u1 P1) // mulr_ge0 ?ler0n ?n2_ge0.
rewrite mulr_sumr big_seq [X in _ <= X]big_seq; apply: ler_sum => p pr.
rewrite [X in _ <= X]mulrCA; apply: ler_wpmul2l; first exact: q0.
apply: le_trans (div_small _ pr) _; rewrite -mulrA; apply: ler_wpmul2l; first exact: ler0n.
rewrite normrX expr2; apply: ler_wpmul2r; first exact: exprn_ge0.
exact: (point_le u1).
Qed.

Variable Y' : 'M[C]_N.
Hypothesis inv : (1%:M + Y') *m S = 1%:M.

Lemma Y'E : Y' = (1%:M - S) + Y' *m (1%:M - S).
Proof.
rewrite mulmxBr mulmx1; have : S + Y' *m S = 1%:M by rewrite -inv mulmxDl mul1mx.
by move=> <-; rewrite [S + _]addrC addrK addrCA subrr addr0.
Qed.

Lemma Y'_small : n2 Y' <= 16%:R * n.
Proof.
have le : n2 Y' <= 8%:R * n + n2 Y' / 2%:R.
  rewrite {1}Y'E; apply: le_trans (n2_add2 _ _) _; apply: ler_add.
    have -> : 8%:R * n = 2%:R * (4%:R * n) by rewrite mulrA -natrM.
    by rewrite ler_wpmul2l ?ler0n // S_small.
  have -> : n2 Y' / 2%:R = 2%:R * (n2 Y' * (4%:R / 16%:R)) by move: (n2 _) => a; field.
  rewrite ler_wpmul2l ?ler0n //; apply: le_trans (n2_mul _ _) _; apply: ler_wpmul2l; first exact: n2_ge0.
  by apply: le_trans S_small _; rewrite ler_wpmul2l ?ler0n.
have e : n2 Y' - n2 Y' / 2%:R = n2 Y' / 2%:R by move: (n2 _) => a; field.
move: le; rewrite -ler_subl_addr e ler_pdivr_mulr ?ltr0n //.
by rewrite mulrAC -natrM.
Qed.

Lemma step_error : n2 (Y' - comb y) <= 136%:R * n ^+ 2.
Proof.
have -> : Y' - comb y = Y' *m (1%:M - S) - (comb y - (1%:M - S)).
  by rewrite {1}Y'E opprB addrA; congr (_ - _); rewrite addrC.
apply: le_trans (n2_add2 _ _) _; rewrite n2N.
have -> : 136%:R * n ^+ 2 = 2%:R * (16%:R * n * (4%:R * n)) + 2%:R * (4%:R * n ^+ 2) by ring.
apply: ler_add; rewrite ler_wpmul2l ?ler0n //; last exact: rem_small.
apply: le_trans (n2_mul _ _) _; apply: ler_pmul; try exact: n2_ge0; [exact: Y'_small|exact: S_small].
Qed.

Variable d : C.
Hypothesis d01 : 0 < d <= 1.
Hypothesis gapd : \sum_(p <- r) q p * `|y p| ^+ 2 <= (1 - d) * n2 Y.
Hypothesis tiny : n2 Y <= d ^+ 3 / 1000%:R.

Lemma step_contracts : n2 Y' <= (1 - d ^+ 2 / 2%:R) * n2 Y.
Proof.
have /andP[d0 d1] := d01.
have -> : Y' = comb y + (Y' - comb y) by rewrite addrC subrK.
apply: le_trans (n2_add _ _ d0) _.
apply: (@le_trans _ _ ((1 + d) * ((1 - d) * n) + (1 + d^-1) * (136%:R * n ^+ 2))).
  apply: ler_add; apply: ler_wpmul2l; rewrite ?addr_ge0 ?ler01 ?invr_ge0 ?(ltW d0) //; last exact: step_error.
  by apply: le_trans (comb_n2 q0 u1 P1 _) _.
rewrite -/n -subr_ge0.
have -> : (1 - d ^+ 2 / 2%:R) * n - ((1 + d) * ((1 - d) * n) + (1 + d^-1) * (136%:R * n ^+ 2)) =
  n * (d ^+ 2 / 2%:R - (1 + d^-1) * 136%:R * n) by move: (d^-1) n => e k; field.
rewrite mulr_ge0 ?n2_ge0 // subr_ge0.
apply: (@le_trans _ _ ((1 + d^-1) * 136%:R * (d ^+ 3 / 1000%:R))).
  by rewrite ler_wpmul2l // mulr_ge0 ?ler0n // addr_ge0 ?ler01 ?invr_ge0 ?(ltW d0).
have dn := lt0r_neq0 d0.
have -> : (1 + d^-1) * 136%:R * (d ^+ 3 / 1000%:R) = d ^+ 2 * ((1 + d) * (136%:R / 1000%:R)) by field.
rewrite ler_wpmul2l ?exprn_ge0 ?(ltW d0) //.
apply: (@le_trans _ _ (2%:R * (136%:R / 1000%:R))).
  by rewrite ler_wpmul2r ?divr_ge0 ?ler0n // -[2%:R]/(1 + 1) ler_add2l.
by rewrite mulrA -natrM ler_pdivr_mulr ?ltr0n // mulrC ler_pdivl_mulr ?ltr0n // -natrM ler_nat.
Qed.
End Local.
