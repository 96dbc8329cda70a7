(** Two potentials with the same metric are proportional. *)
From Coq Require Import ZArith Lia.
From mathcomp Require Import all_ssreflect all_algebra.
From mathcomp Require Import zify ssrZ ring.
From SsrMultinomials Require Import mpoly.
From Verif Require Import Base Deriv Bridge Herm PolyGrad ProofPolyExpr Implicit2 ProofIdent ProofIdent5.
Delimit Scope Z_scope with Z.

Set Implicit Arguments.
Unset Strict Implicit.
Unset Printing Implicit Defensive.

Import GRing.Theory Num.Theory Order.POrderTheory.
Local Open Scope ring_scope.

Section Core.
Variables (C : numClosedFieldType) (n N k : nat) (sg : 'I_N -> {mpoly C[n]}).
Definition SS (z : 'rV[C]_n) : 'rV[C]_N := \row_b peval (sg b) z.
Definition SD (v z : 'rV[C]_n) : 'rV[C]_N := \row_b \sum_a v 0 a * peval ((sg b)^`M(a)) z.
Definition bf (M : 'M[C]_N) (x y : 'rV[C]_N) : C := \sum_a \sum_b x 0 a * M a b * y 0 b.

Lemma bf_tr M x y : bf M x y = bf M^T y x.
Proof.
rewrite /bf exchange_big; apply: eq_bigr => b _; apply: eq_bigr => a _ /=.
by rewrite mxE [LHS]mulrC [x 0 a * _]mulrC mulrA.
Qed.

Lemma bf_line M (u v : 'rV[C]_n) (y : 'rV[C]_N) : exists p : {poly C},
  (forall t, p.[t] = bf M (SS (u + t *: v)) y) /\ (forall t, p^`().[t] = bf M (SD v (u + t *: v)) y).
Proof.
have [q Hq] := fin_all_exists (fun b : 'I_N => line_deriv (sg b) u v).
exists (\sum_a \sum_b (M a b * y 0 b) *: q a); split=> t.
  rewrite horner_sum; apply: eq_bigr => a _; rewrite horner_sum; apply: eq_bigr => b _.
  by rewrite hornerZ (proj1 (Hq a)) mxE mulrC mulrA.
rewrite raddf_sum horner_sum; apply: eq_bigr => a _; rewrite raddf_sum horner_sum; apply: eq_bigr => b _.
by rewrite /= derivZ hornerZ (proj2 (Hq a)) mxE mulrC mulrA.
Qed.

Lemma bf_liner M (u v : 'rV[C]_n) (x : 'rV[C]_N) : exists p : {poly C},
  (forall t, p.[t] = bf M x (SS (u + t *: v))) /\ (forall t, p^`().[t] = bf M x (SD v (u + t *: v))).
Proof. by have [p [A B]] := bf_line M^T u v x; exists p; split=> t; rewrite ?A ?B [RHS]bf_tr. Qed.

Variables F G : 'M[C]_N.
Definition curv (M : 'M[C]_N) (v v' z w : 'rV[C]_n) : C :=
  bf M (SS z) (SS w) * bf M (SD v z) (SD v' w) - bf M (SD v z) (SS w) * bf M (SS z) (SD v' w).
Hypothesis diag : forall v v' z, let w := conj_rv z in
  curv F v v' z w * bf G (SS z) (SS w) ^+ 2 = curv G v v' z w * bf F (SS z) (SS w) ^+ 2.

Lemma bp_bf M (f g : 'rV[C]_n -> 'rV[C]_N) :
  (forall b, bipoly (fun z (_ : 'rV[C]_n) => f z 0 b)) -> (forall b, bipoly (fun (_ : 'rV[C]_n) w => g w 0 b)) -> bipoly (fun z w => bf M (f z) (g w)).
Proof.
move=> Hf Hg; apply: bipoly_sum => a; apply: bipoly_sum => b; apply: bipolyM => //.
by apply: bipolyM => //; exact: bipoly_const.
Qed.
Lemma bp_S b : bipoly (fun z (_ : 'rV[C]_n) => SS z 0 b) /\ bipoly (fun (_ : 'rV[C]_n) w => SS w 0 b).
Proof.
split; [apply: bipoly_ext (bipoly_l (sg b))|apply: bipoly_ext (bipoly_r (sg b))] => z w; by rewrite mxE.
Qed.
Lemma bp_D v b : bipoly (fun z (_ : 'rV[C]_n) => SD v z 0 b) /\ bipoly (fun (_ : 'rV[C]_n) w => SD v w 0 b).
Proof.
split.
  apply: (@bipoly_ext _ _ (fun z _ => \sum_a v 0 a * peval ((sg b)^`M(a)) z)) => [z w|]; first by rewrite mxE.
  by apply: bipoly_sum => a; apply: bipolyM; [exact: bipoly_const|exact: bipoly_l].
apply: (@bipoly_ext _ _ (fun _ w => \sum_a v 0 a * peval ((sg b)^`M(a)) w)) => [z w|]; first by rewrite mxE.
by apply: bipoly_sum => a; apply: bipolyM; [exact: bipoly_const|exact: bipoly_r].
Qed.

Lemma polarised v v' z w : curv F v v' z w * bf G (SS z) (SS w) ^+ 2 = curv G v v' z w * bf F (SS z) (SS w) ^+ 2.
Proof.
have b0 M : bipoly (fun z w => bf M (SS z) (SS w)) by apply: bp_bf => b; case: (bp_S b).
have b1 M : bipoly (fun z w => bf M (SD v z) (SS w)) by apply: bp_bf => b; [case: (bp_D v b)|case: (bp_S b)].
have b2 M : bipoly (fun z w => bf M (SS z) (SD v' w)) by apply: bp_bf => b; [case: (bp_S b)|case: (bp_D v' b)].
have b3 M : bipoly (fun z w => bf M (SD v z) (SD v' w)) by apply: bp_bf => b; [case: (bp_D v b)|case: (bp_D v' b)].
have bc M : bipoly (fun z w => curv M v v' z w) by apply: bipolyB; apply: bipolyM.
have bq M : bipoly (fun z w => bf M (SS z) (SS w) ^+ 2) by apply: bipoly_ext (bipolyM (b0 M) (b0 M)) => a b; rewrite expr2.
apply/eqP; rewrite -subr_eq0; apply/eqP; move: z w.
apply: bipoly_polar => [|z]; first by apply: bipolyB; apply: bipolyM.
by apply/eqP; rewrite subr_eq0; apply/eqP; exact: diag.
Qed.

Let dN v w z := bf G (SS z) (SD v w) * bf F (SS z) (SS w) - bf G (SS z) (SS w) * bf F (SS z) (SD v w).
Let dD (w z : 'rV[C]_n) := bf G (SS z) (SS w) * bf F (SS z) (SS w).

Lemma log_t v w z z' : dD w z != 0 -> dN v w z * dD w z' = dN v w z' * dD w z.
Proof.
move=> D0; pose dz := z' - z.
have [f [Hf Df]] := bf_line F z dz (SS w); have [f1 [Hf1 Df1]] := bf_line F z dz (SD v w).
have [g [Hg Dg]] := bf_line G z dz (SS w); have [g1 [Hg1 Dg1]] := bf_line G z dz (SD v w).
pose Np := g1 * f - g * f1; pose Dp := g * f.
have EN t : Np.[t] = dN v w (z + t *: dz) by rewrite /Np !hornerE Hf Hf1 Hg Hg1.
have ED t : Dp.[t] = dD w (z + t *: dz) by rewrite /Dp !hornerE Hf Hg.
have z0 : z + 0 *: dz = z by rewrite scale0r addr0.
have z1 : z + 1 *: dz = z' by rewrite scale1r addrC subrK.
have Dp0 : Dp != 0 by apply: contraNneq D0 => E; rewrite -z0 -ED E horner0.
have W : Np^`() * Dp = Np * Dp^`().
  apply/eqP; rewrite -subr_eq0; apply/eqP/poly_fun0 => t.
  have := polarised dz v (z + t *: dz) w; rewrite /curv -Hf -Hg -Hf1 -Hg1 -Df -Dg -Df1 -Dg1 => E.
  have -> : (Np^`() * Dp - Np * Dp^`()).[t] = (g.[t] * g1^`().[t] - g^`().[t] * g1.[t]) * f.[t] ^+ 2 - (f.[t] * f1^`().[t] - f^`().[t] * f1.[t]) * g.[t] ^+ 2.
    rewrite /Np /Dp !derivB !derivM !(hornerD, hornerN, hornerM).
    by move: (f.[t]) (f1.[t]) (g.[t]) (g1.[t]) (f^`().[t]) (f1^`().[t]) (g^`().[t]) (g1^`().[t]) => x1 x2 x3 x4 x5 x6 x7 x8; ring.
  by rewrite E subrr.
have [c Ec] := wronsk W Dp0.
have Et t : dN v w (z + t *: dz) = c * dD w (z + t *: dz) by rewrite -EN -ED Ec hornerZ.
by rewrite -z1 -{1 4}z0 !Et z0 mulrAC.
Qed.

Lemma cross z z' w' w : dD w' z != 0 -> bf F (SS z) (SS w') * bf G (SS z') (SS w') != 0 ->
  (bf G (SS z) (SS w) * bf F (SS z') (SS w)) * (bf F (SS z) (SS w') * bf G (SS z') (SS w')) =
  (bf G (SS z) (SS w') * bf F (SS z') (SS w')) * (bf F (SS z) (SS w) * bf G (SS z') (SS w)).
Proof.
move=> D0 G0; pose dw := w - w'.
have [a [Ha Da]] := bf_liner F w' dw (SS z); have [a' [Ha' Da']] := bf_liner F w' dw (SS z').
have [b [Hb Db]] := bf_liner G w' dw (SS z); have [b' [Hb' Db']] := bf_liner G w' dw (SS z').
have w0 : w' + 0 *: dw = w' by rewrite scale0r addr0.
have w1 : w' + 1 *: dw = w by rewrite scale1r addrC subrK.
pose f := b * a'; pose g := a * b'.
have g0 : g != 0 by apply: contraNneq G0 => E; rewrite -w0 -Ha -Hb' -hornerM -/g E horner0.
have ab0 : b * a != 0 by apply: contraNneq D0 => E; rewrite /dD -w0 -Ha -Hb -hornerM E horner0.
have W : f^`() * g = f * g^`().
  apply/eqP; rewrite -subr_eq0.
  have : (f^`() * g - f * g^`()) * (b * a) == 0; last by rewrite mulf_eq0 (negbTE ab0) orbF.
  apply/eqP/poly_fun0 => t; have [D1|D1] := eqVneq (dD (w' + t *: dw) z) 0.
    by rewrite hornerM [(b * a).[t]]hornerM Hb Ha -/(dD _ _) D1 mulr0.
  have := log_t dw z' D1; rewrite /dN /dD -Ha -Ha' -Hb -Hb' -Da -Da' -Db -Db' => E.
  have -> : ((f^`() * g - f * g^`()) * (b * a)).[t] =
     ((b^`().[t] * a.[t] - b.[t] * a^`().[t]) * (b'.[t] * a'.[t]) - (b'^`().[t] * a'.[t] - b'.[t] * a'^`().[t]) * (b.[t] * a.[t])) * (b.[t] * a.[t]).
    rewrite /f /g !derivM !(hornerD, hornerN, hornerM).
    by move: (a.[t]) (a'.[t]) (b.[t]) (b'.[t]) (a^`().[t]) (a'^`().[t]) (b^`().[t]) (b'^`().[t]) => x1 x2 x3 x4 x5 x6 x7 x8; ring.
  by rewrite E subrr mul0r.
have [c Ec] := wronsk W g0.
have Et t : bf G (SS z) (SS (w' + t *: dw)) * bf F (SS z') (SS (w' + t *: dw)) =
    c * (bf F (SS z) (SS (w' + t *: dw)) * bf G (SS z') (SS (w' + t *: dw))).
  by rewrite -Ha -Ha' -Hb -Hb' -!hornerM -/f -/g Ec hornerZ.
have := Et 0; have := Et 1; rewrite w0 w1 => E1 E0; by rewrite E1 E0 mulrAC.
Qed.
End Core.
