(** The Donaldson step in coordinates in which the balanced metric is the identity. *)
From Coq Require Import ZArith Lia.
From mathcomp Require Import all_ssreflect all_algebra zify ssrZ ring.
From Verif Require Import Base Herm Herm2 Herm3 Herm4 ModelDonaldson SpecDonaldson SpecStep ProofDonaldson2
  ProofDonaldson4 ProofDonaldson5 ProofStep ProofStep3 ProofStep5 ProofRate ProofRate2.
Delimit Scope Z_scope with Z.

Set Implicit Arguments.
Unset Strict Implicit.
Unset Printing Implicit Defensive.

Import GRing.Theory Num.Theory Order.POrderTheory.
Local Open Scope ring_scope.

Lemma tr_all0 (C : numClosedFieldType) n (B : 'M[C]_n) : (forall A, \tr (B *m A) = 0) -> B = 0.
Proof. by move=> H; apply: n2_eq0; rewrite n2E H. Qed.

Section Frame.
Variables (C : numClosedFieldType) (N : nat) (vol : C) (bs : seq (seq (sample C N))).
Hypothesis good : good_sample vol bs.
Variables (L J : 'M[C]_N).
Hypothesis bL : balanced vol bs L.
Hypotheses (uJ : J \in unitmx) (JL : L = J *m adjm J).
Let hL : hermitian L. Proof. by case: bL. Qed.
Let pL : posdef L. Proof. by case: bL. Qed.
Let EL : donaldson_step true L vol bs = Ok L. Proof. by case: bL. Qed.

Let r := flatten bs.
Let q (p : sample C N) : C := N%:R / vol / (size (flatten bs))%:R * weight p.
Let x (p : sample C N) : C := hform L p.1.
Let u (p : sample C N) : 'rV[C]_N := (sqrtC (x p))^-1 *: (p.1 *m J).

Lemma frame_q0 p : p \in r -> 0 <= q p.
Proof. case: good => eb v0 sp wp vE pr; apply: mulr_ge0; [exact: c_ge0|by case: (wp p pr)]. Qed.

Lemma frame_x p : p \in r -> 0 < x p.
Proof. by case: good => eb v0 sp wp vE /wp[_]; apply: pL. Qed.

Lemma frame_sq p : p \in r -> 0 < sqrtC (x p). Proof. by move/frame_x; rewrite sqrtC_gt0. Qed.

Lemma frame_form p A : p \in r -> hform A (u p) = hform (J *m A *m adjm J) p.1 / x p.
Proof.
move=> pr; have s0 := frame_sq pr.
rewrite hform_congr !hformE /u adjm_scale -!scalemxAl -scalemxAr scalerA mxE mulrC; congr (_ * _).
have -> : ((sqrtC (x p))^-1)^* = (sqrtC (x p))^-1 by apply/conj_Creal/gtr0_real; rewrite invr_gt0.
by rewrite -invfM -expr2 sqrtCK.
Qed.

Lemma frame_u1 p : p \in r -> u p *m adjm (u p) = 1%:M.
Proof.
move=> pr; have := frame_form 1%:M pr; rewrite mulmx1 -JL divff ?lt0r_neq0 ?frame_x // hformE mulmx1.
by move=> e; rewrite [LHS]mx11_scalar e.
Qed.

Lemma adjm_unit : adjm J \in unitmx.
Proof. by rewrite unitmxE det_adjm unitfE conjC_eq0 -unitfE -unitmxE. Qed.

(** the matrix in the frame *)
Definition xi (h : 'M[C]_N) : 'M[C]_N := invmx J *m h *m adjm (invmx J) - 1%:M.

Lemma xiK h : h = J *m (1%:M + xi h) *m adjm J.
Proof.
rewrite /xi addrC subrK !mulmxA mulmxV // mul1mx -mulmxA -adjm_mul mulmxV // adjm1 mulmx1 //.
Qed.

Lemma xi_L : xi L = 0.
Proof. by rewrite /xi JL !mulmxA mulVmx // mul1mx -adjm_mul mulVmx // adjm1 subrr. Qed.

Lemma xi_scale a h : xi (a *: h) = a *: (1%:M + xi h) - 1%:M.
Proof. by rewrite /xi [1%:M + _]addrC subrK -scalemxAr -scalemxAl. Qed.

Lemma xi_herm h : hermitian h -> hermitian (xi h).
Proof.
move=> hh; apply/hermitianP; rewrite /xi adjm_add; congr (_ + _).
  by apply/hermitianP/hermitian_congr.
by rewrite -scaleN1r adjm_scale adjm1 cjN cj1.
Qed.

Lemma frame_test h H' : hermitian h -> posdef h -> donaldson_step true h vol bs = Ok H' ->
  \sum_(p <- r) (q p / (1 + hform (xi h) (u p))) *: (adjm (u p) *m u p) = adjm J *m invmx H' *m J.
Proof.
case: good => eb v0 sp wp vE hh ph E.
apply/eqP; rewrite -subr_eq0; apply/eqP/tr_all0 => A.
rewrite mulmxBl linearB /= mulmx_suml raddf_sum /=.
have -> : \tr (adjm J *m invmx H' *m J *m A) = \tr (invmx H' *m (J *m A *m adjm J)).
  by rewrite -!mulmxA mxtrace_mulC !mulmxA.
rewrite -(step_test eb _ hh ph E) mulr_sumr; apply/eqP; rewrite subr_eq0; apply/eqP.
rewrite big_seq [RHS]big_seq; apply: eq_bigr => p pr.
rewrite -scalemxAl linearZ /= tr_P (frame_form A pr).
have hE : hform h p.1 = x p * (1 + hform (xi h) (u p)).
  have -> : 1 + hform (xi h) (u p) = hform (1%:M + xi h) (u p).
    by rewrite [hform (1%:M + _) _]hformD; congr (_ + _); rewrite hformE mulmx1 frame_u1 // mxE.
  by rewrite (frame_form (1%:M + xi h) pr) -xiK mulrC divfK // lt0r_neq0 // frame_x.
rewrite hE /q invfM; move: ((x p)^-1) ((1 + hform (xi h) (u p))^-1) (weight p) (hform (J *m A *m adjm J) p.1) (N%:R / vol / _) => a y w f c.
by ring.
Qed.

Lemma frame_P1 : \sum_(p <- r) q p *: (adjm (u p) *m u p) = 1%:M.
Proof.
have Lu := posdef_unit pL; have aJ := adjm_unit.
have e : adjm J *m invmx L *m J *m adjm J = adjm J by rewrite -!mulmxA -JL mulVmx // mulmx1.
have e1 : adjm J *m invmx L *m J = 1%:M by rewrite -[LHS]mulmx1 -(mulmxV aJ) mulmxA e mulmxV.
have := frame_test hL pL EL; rewrite xi_L e1 => <-; apply: eq_bigr => p _.
by rewrite hformE mulmx0 mul0mx mxE addr0 divr1.
Qed.

Lemma frame_inv h H' : hermitian h -> posdef h -> donaldson_step true h vol bs = Ok H' ->
  (1%:M + xi H') *m (\sum_(p <- r) (q p / (1 + hform (xi h) (u p))) *: (adjm (u p) *m u p)) = 1%:M.
Proof.
move=> hh ph E; rewrite (frame_test hh ph E) /xi addrC subrK.
case: good => eb v0 sp wp vE; have [_ /posdef_unit Hu] := step_pd eb v0 sp wp hh ph E.
have e : adjm (invmx J) *m adjm J = 1%:M by rewrite -adjm_mul mulmxV // adjm1.
rewrite !mulmxA -(mulmxA (invmx J *m H')) e mulmx1 -(mulmxA (invmx J)) mulmxV // mulmx1 mulVmx //.
Qed.

Hypothesis ind : indecomposable (flatten bs).

Lemma frame_ind (S : 'M[C]_N) : S *m S = S -> S != 0 -> S != 1%:M ->
  exists2 p, p \in r & 0 < q p /\ (u p *m S != 0 /\ u p *m S != u p).
Proof.
move=> SS S0 S1; have [|||p pr [w0 [a b]]] := ind (P := J *m S *m invmx J).
- by rewrite !mulmxA -(mulmxA (J *m S)) mulVmx // mulmx1 -(mulmxA J) SS.
- apply: contra_neq S0 => e; have := congr1 (fun M => invmx J *m M *m J) e.
  by rewrite !mulmxA mulVmx // mul1mx -mulmxA mulVmx // mulmx1 mulmx0 mul0mx.
- apply: contra_neq S1 => e; have := congr1 (fun M => invmx J *m M *m J) e.
  by rewrite !mulmxA mulVmx // mul1mx -mulmxA mulVmx // mulmx1 mulmx1 mulVmx.
have s0 := frame_sq pr; have si : (sqrtC (x p))^-1 != 0 by rewrite invr_eq0 lt0r_neq0.
exists p => //; split.
  case: good => eb v0 sp wp vE; apply: mulr_gt0 => //; rewrite (cE v0 vE) divr_gt0 ?(W_gt0 v0 vE) // ltr0n.
  exact: (good_N good).
split; [apply: contra_neq a|apply: contra_neq b].
  rewrite /u -scalemxAl => /eqP; rewrite scaler_eq0 (negPf si) /= => /eqP e.
  by rewrite !mulmxA e mul0mx.
rewrite /u -scalemxAl => /(scalerI si) e.
by rewrite !mulmxA e mulmxK.
Qed.

(** ** One step *)
Definition ta (X : 'M[C]_N) : C := \tr X / N%:R.
Definition tf (X : 'M[C]_N) : 'M[C]_N := X - (ta X)%:M.

Let N0 : (0 < N)%N. Proof. exact: (good_N good). Qed.
Let Nn : (N%:R : C) != 0. Proof. by rewrite pnatr_eq0 -lt0n. Qed.

Lemma tr_tf X : \tr (tf X) = 0.
Proof. by rewrite /tf linearB /= mxtrace_scalar -mulr_natr divfK // subrr. Qed.

Lemma n2_tf X : n2 X = n2 (tf X) + N%:R * `|ta X| ^+ 2.
Proof. by rewrite -n2_trace ?tr_tf // subrK. Qed.

Lemma tf_le X : n2 (tf X) <= n2 X.
Proof. by rewrite [n2 X]n2_tf ler_addl mulr_ge0 ?ler0n ?exprn_ge0. Qed.

Lemma ta_le X : `|ta X| ^+ 2 <= n2 X.
Proof.
apply: (@le_trans _ _ (N%:R * `|ta X| ^+ 2)); last by rewrite [n2 X]n2_tf ler_addr n2_ge0.
by rewrite ler_pemull ?exprn_ge0 // ler1n.
Qed.

Lemma ta_real h : hermitian h -> ta (xi h) \is Num.real.
Proof.
move=> /xi_herm hx; rewrite rpredM ?rpredV ?rpred_nat //; apply: rpred_sum => i _.
by apply/CrealP; rewrite -hx.
Qed.

Lemma taD a Z : ta (a%:M + Z) = a + ta Z.
Proof. by rewrite /ta linearD /= mxtrace_scalar -mulr_natr mulrDl mulfK. Qed.

Lemma taZ a Z : ta (a *: Z) = a * ta Z.
Proof. by rewrite /ta linearZ /= mulrA. Qed.

Lemma one_step : exists e rho, [/\ 0 < e, 0 < rho < 1 &
  forall h H', hermitian h -> posdef h -> donaldson_step true h vol bs = Ok H' -> n2 (xi h) <= e ->
    n2 (tf (xi H')) <= rho * n2 (tf (xi h)) /\ `|ta (xi H') - ta (xi h)| ^+ 2 <= n2 (tf (xi h))].
Proof.
have [d d01 gapd] := gap frame_q0 frame_u1 frame_P1 frame_ind.
have /andP[d0 d1] := d01.
have d31 : d ^+ 3 <= 1 by rewrite exprn_ile1 // ltW.
have r0 : 0 < 1 - d ^+ 2 / 2%:R.
  rewrite subr_gt0 ltr_pdivr_mulr ?ltr0n // mul1r; apply: (@le_lt_trans _ _ 1); first by rewrite exprn_ile1 // ltW.
  by rewrite ltr1n.
have r1 : 1 - d ^+ 2 / 2%:R < 1 by rewrite ltr_subl_addr ltr_addl divr_gt0 ?ltr0n // exprn_gt0.
exists (d ^+ 3 / 4000%:R), (1 - d ^+ 2 / 2%:R); split; first by rewrite divr_gt0 ?ltr0n // exprn_gt0.
  by rewrite r0 r1.
move=> h H' hh ph E le; set X := xi h in le *.
set t := ta X; have tr : t \is Num.real by exact: ta_real.
have t_small : `|t| <= 2%:R^-1.
  rewrite -ler_sqr ?nnegrE ?normr_ge0 ?invr_ge0 ?ler0n //; apply: le_trans (ta_le _) _; apply: le_trans le _.
  rewrite ler_pdivr_mulr ?ltr0n // exprVn -natrX mulrC ler_pdivl_mulr ?ltr0n //.
  by apply: (@le_trans _ _ (1 * 4%:R)); [rewrite ler_wpmul2r ?ler0n|rewrite mul1r ler_nat].
have t1 : 2%:R^-1 <= 1 + t.
  have : - t <= 2%:R^-1 by apply: le_trans (real_ler_norm _) _; rewrite ?rpredN // normrN.
  rewrite ler_oppl => h1; rewrite -[X in X <= _](_ : 1 - 2%:R^-1 = _); last by field.
  by rewrite ler_add2l.
have t10 : 0 < 1 + t by apply: lt_le_trans t1; rewrite invr_gt0 ltr0n.
have tn := lt0r_neq0 t10; have ti0 : 0 < (1 + t)^-1 by rewrite invr_gt0.
case: (good) => eb v0 sp wp vE.
have h2 := hermitian_scale ti0 hh; have p2 := posdef_scale ti0 ph.
have E2 := step_scale eb v0 sp wp ti0 hh ph E.
have XE : 1%:M + X = (1 + t)%:M + tf X by rewrite raddfD /= -addrA [t%:M + _]addrC subrK.
have ZE : xi ((1 + t)^-1 *: h) = (1 + t)^-1 *: tf X.
  by rewrite xi_scale XE scalerDr scale_scalar_mx mulVf // addrAC subrr add0r.
set Z' := xi ((1 + t)^-1 *: H').
have XE' : xi H' = t%:M + (1 + t) *: Z'.
  rewrite /Z' xi_scale scalerBr scalerA mulfV // scale1r scalemx1 raddfD /= opprD !addrA.
  by rewrite [t%:M + _]addrC -!addrA [t%:M + _]addrC !addrA addrNK [1%:M + _]addrC addrK.
have nt : `|1 + t| ^+ 2 = (1 + t) ^+ 2 by rewrite ger0_norm // ltW.
have nti : `|(1 + t)^-1| ^+ 2 = ((1 + t) ^+ 2)^-1 by rewrite ger0_norm ?(ltW ti0) // exprVn.
have n2Z : n2 ((1 + t)^-1 *: tf X) = ((1 + t) ^+ 2)^-1 * n2 (tf X) by rewrite n2_scale nti.
have tiny : n2 (xi ((1 + t)^-1 *: h)) <= d ^+ 3 / 1000%:R.
  rewrite ZE n2Z ler_pdivr_mull ?exprn_gt0 //.
  apply: le_trans (tf_le _) _; apply: le_trans le _.
  have -> : d ^+ 3 / 4000%:R = (2%:R^-1) ^+ 2 * (d ^+ 3 / 1000%:R) by field.
  rewrite ler_wpmul2r ?divr_ge0 ?ler0n ?exprn_ge0 ?(ltW d0) //.
  by rewrite ler_sqr ?nnegrE ?invr_ge0 ?ler0n // ltW.
have small : n2 (xi ((1 + t)^-1 *: h)) <= 16%:R^-1.
  apply: le_trans tiny _; rewrite ler_pdivr_mulr ?ltr0n // mulrC ler_pdivl_mulr ?ltr0n //.
  by apply: (@le_trans _ _ (1 * 16%:R)); [rewrite ler_wpmul2r ?ler0n|rewrite mul1r ler_nat].
have trZ : \tr (xi ((1 + t)^-1 *: h)) = 0 by rewrite ZE linearZ /= tr_tf mulr0.
have con := step_contracts frame_q0 frame_u1 frame_P1 small (frame_inv h2 p2 E2) d01 (gapd _ trZ) tiny.
rewrite -/Z' ZE n2Z in con.
have con2 : (1 + t) ^+ 2 * n2 Z' <= (1 - d ^+ 2 / 2%:R) * n2 (tf X).
  rewrite -ler_pdivl_mull ?exprn_gt0 //; apply: le_trans con _.
  by rewrite mulrCA.
split.
  apply: le_trans con2; have -> : tf (xi H') = (1 + t) *: tf Z'.
    rewrite /tf XE' taD taZ [(t + (1 + t) * ta Z')%:M]raddfD /= opprD addrACA subrr add0r.
    by rewrite [RHS]scalerBr scale_scalar_mx.
  by rewrite n2_scale nt ler_wpmul2l ?exprn_ge0 ?(ltW t10) // tf_le.
rewrite XE' taD taZ -/t addrAC subrr add0r normrM exprMn nt.
apply: (@le_trans _ _ ((1 + t) ^+ 2 * n2 Z')); first by rewrite ler_wpmul2l ?exprn_ge0 ?(ltW t10) // ta_le.
apply: le_trans con2 _; rewrite -[X in _ <= X]mul1r; apply: ler_wpmul2r; [exact: n2_ge0|exact: ltW].
Qed.
End Frame.
