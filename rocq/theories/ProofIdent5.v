(** Tools for the metric determines H: logarithmic derivatives of polynomials. *)
From Coq Require Import ZArith Lia.
From mathcomp Require Import all_ssreflect all_algebra.
From mathcomp Require Import zify ssrZ ring.
From SsrMultinomials Require Import mpoly.
From Verif Require Import Base Deriv Bridge Herm PolyGrad ProofPolyExpr Implicit2 ProofIdent.
Delimit Scope Z_scope with Z.

Set Implicit Arguments.
Unset Strict Implicit.
Unset Printing Implicit Defensive.

Import GRing.Theory Num.Theory Order.POrderTheory.
Local Open Scope ring_scope.

Section Uni.
Variable C : numClosedFieldType.
Implicit Types (f g p q : {poly C}).

Lemma coef_top p q a b : (size p <= a.+1)%N -> (size q <= b.+1)%N -> (p * q)`_(a + b) = p`_a * q`_b.
Proof.
move=> sp sq; rewrite coefM (bigD1 (inord a : 'I_(a + b).+1)) //= inordK ?ltnS ?leq_addr // addKn big1 ?addr0 // => i ni.
case: (ltngtP i a) => [lt|gt|E].
- rewrite [q`__]nth_default ?mulr0 //; apply: leq_trans sq _; lia.
- rewrite [p`__]nth_default ?mul0r //; exact: leq_trans sp gt.
by case/eqP: ni; apply/val_inj; rewrite /= inordK ?E // ltnS leq_addr.
Qed.

Lemma theta_coef f i : ('X * f^`())`_i = f`_i *+ i.
Proof. by rewrite coefXM coef_deriv; case: i => [|i] //=; rewrite mulr0n. Qed.

Lemma wronsk_size f g : f^`() * g = f * g^`() -> f != 0 -> g != 0 -> size f = size g.
Proof.
move=> E f0 g0; set a := (size f).-1; set b := (size g).-1.
have sf : size f = a.+1 by rewrite prednK // size_poly_gt0.
have sg : size g = b.+1 by rewrite prednK // size_poly_gt0.
have th (h : {poly C}) (c : nat) : (size h <= c)%N -> (size ('X * h^`() : {poly C})%R <= c)%N.
  by move=> /leq_sizeP sh; apply/leq_sizeP => j cj; rewrite theta_coef sh // mul0rn.
have : (('X * f^`()) * g)`_(a + b) = (f * ('X * g^`()))`_(a + b) by rewrite -mulrA E mulrCA.
rewrite !coef_top ?th ?sf ?sg // !theta_coef.
have fa : f`_a != 0 by rewrite -lead_coefE lead_coef_eq0.
have gb : g`_b != 0 by rewrite -lead_coefE lead_coef_eq0.
rewrite mulrnAr mulrnAl -[_ *+ a]mulr_natl -[_ *+ b]mulr_natl => /(mulIf (mulf_neq0 fa gb))/eqP.
by rewrite eqr_nat => /eqP ->.
Qed.

Lemma wronsk f g : f^`() * g = f * g^`() -> g != 0 -> exists c, f = c *: g.
Proof.
move=> E g0; pose c := f`_(size g).-1 / lead_coef g; exists c.
apply/eqP; rewrite -subr_eq0; apply: contraT => h0.
have E' : (f - c *: g)^`() * g = (f - c *: g) * g^`().
  by rewrite derivB derivZ !mulrBl E -!scalerAl [g * _]mulrC.
have s := wronsk_size E' h0 g0.
have : (f - c *: g)`_(size g).-1 = 0 by rewrite coefB coefZ -lead_coefE divfK ?subrr // lead_coef_eq0.
by rewrite -s -lead_coefE => /eqP; rewrite lead_coef_eq0 (negbTE h0).
Qed.

Lemma nz_point p : p != 0 -> exists t, p.[t] != 0.
Proof.
move=> p0; pose s := [seq (i.+1%:R : C) | i <- iota 0 (size p)].
have us : uniq s by rewrite map_inj_uniq ?iota_uniq // => a b /eqP; rewrite eqr_nat eqSS => /eqP.
have /allPn[t _ Ht] : ~~ all (root p) s.
  by apply/negP => a; have := max_poly_roots p0 a us; rewrite size_map size_iota ltnn.
by exists t.
Qed.

Lemma poly_fun0 p : (forall t, p.[t] = 0) -> p = 0.
Proof. by move=> H; apply: real_roots => n; exact: H. Qed.
End Uni.

(** Polynomials and their derivatives along a line *)
Lemma line_deriv (C : numClosedFieldType) n (P : {mpoly C[n]}) (u v : 'rV[C]_n) :
  exists p : {poly C}, (forall t, p.[t] = peval P (u + t *: v)) /\
    (forall t, p^`().[t] = \sum_a v 0 a * peval (P^`M(a)) (u + t *: v)).
Proof.
elim/mpoly_ring_ind: P => [c|i|P Q [p [Hp Dp]] [q [Hq Dq]]|P Q [p [Hp Dp]] [q [Hq Dq]]].
- exists c%:P; split=> t; first by rewrite hornerC /peval mevalC.
  by rewrite derivC horner0 big1 // => a _; rewrite mderivC /peval meval0 mulr0.
- exists ((u 0 i)%:P + (v 0 i) *: 'X); split=> t; first by rewrite !hornerE /peval mevalXU !mxE mulrC.
  rewrite derivD derivC derivZ derivX add0r alg_polyC hornerC (bigD1 i) //= mderivX mnm1E eqxx.
  rewrite (_ : (U_(i) - U_(i))%MM = 0%MM); last by apply/mnmP => j; rewrite mnmBE subnn mnm0E.
  rewrite mpolyX0 /peval mevalZ meval1 !mulr1 big1 ?addr0 // => a ai.
  by rewrite mderivX mnm1E eq_sym (negbTE ai) mevalZ mul0r mulr0.
- exists (p + q); split=> t; first by rewrite hornerD Hp Hq /peval mevalD.
  by rewrite derivD hornerD Dp Dq -big_split; apply: eq_bigr => a _; rewrite mderivD /peval mevalD mulrDr.
exists (p * q); split=> t; first by rewrite hornerM Hp Hq /peval mevalM.
rewrite derivM hornerD !hornerM Dp Dq Hp Hq mulr_suml mulr_sumr -big_split; apply: eq_bigr => a _.
by rewrite mderivM /peval mevalD !mevalM /= [in LHS]mulrCA mulrDr !mulrA.
Qed.

(** Polynomials in z and w which vanish for w = conj z *)
Section Bi.
Variables (C : numClosedFieldType) (n : nat).
Definition bipoly (f : 'rV[C]_n -> 'rV[C]_n -> C) := exists Q : {mpoly C[n + n]}, forall z w, f z w = peval Q (row_mx z w).

Lemma bipoly_ext f g : (forall z w, f z w = g z w) -> bipoly f -> bipoly g.
Proof. by move=> E [Q H]; exists Q => z w; rewrite -E. Qed.
Lemma bipoly_const c : bipoly (fun _ _ => c).
Proof. by exists c%:MP => z w; rewrite /peval mevalC. Qed.
Lemma bipolyD f g : bipoly f -> bipoly g -> bipoly (fun z w => f z w + g z w).
Proof. by move=> [Q H] [Q' H']; exists (Q + Q') => z w; rewrite H H' /peval mevalD. Qed.
Lemma bipolyM f g : bipoly f -> bipoly g -> bipoly (fun z w => f z w * g z w).
Proof. by move=> [Q H] [Q' H']; exists (Q * Q') => z w; rewrite H H' /peval mevalM. Qed.
Lemma bipolyB f g : bipoly f -> bipoly g -> bipoly (fun z w => f z w - g z w).
Proof. by move=> [Q H] [Q' H']; exists (Q - Q') => z w; rewrite H H' /peval mevalB. Qed.
Lemma bipoly_sum (I : finType) (f : I -> 'rV[C]_n -> 'rV[C]_n -> C) : (forall i, bipoly (f i)) -> bipoly (fun z w => \sum_i f i z w).
Proof.
move=> H; suff G (r : seq I) : bipoly (fun z w => \sum_(i <- r) f i z w) by exact: G.
elim: r => [|i r IH]; first by apply: bipoly_ext (bipoly_const 0) => z w; rewrite big_nil.
by apply: bipoly_ext (bipolyD (H i) IH) => z w; rewrite big_cons.
Qed.
Lemma bipoly_l (P : {mpoly C[n]}) : bipoly (fun z _ => peval P z).
Proof.
elim/mpoly_ring_ind: P => [c|i|P Q HP HQ|P Q HP HQ].
- by apply: bipoly_ext (bipoly_const c) => z w; rewrite /peval mevalC.
- by exists ('X_(lshift n i)) => z w; rewrite /peval !mevalXU row_mxEl.
- by apply: bipoly_ext (bipolyD HP HQ) => z w; rewrite /peval mevalD.
by apply: bipoly_ext (bipolyM HP HQ) => z w; rewrite /peval mevalM.
Qed.
Lemma bipoly_r (P : {mpoly C[n]}) : bipoly (fun _ w => peval P w).
Proof.
elim/mpoly_ring_ind: P => [c|i|P Q HP HQ|P Q HP HQ].
- by apply: bipoly_ext (bipoly_const c) => z w; rewrite /peval mevalC.
- by exists ('X_(rshift n i)) => z w; rewrite /peval !mevalXU row_mxEr.
- by apply: bipoly_ext (bipolyD HP HQ) => z w; rewrite /peval mevalD.
by apply: bipoly_ext (bipolyM HP HQ) => z w; rewrite /peval mevalM.
Qed.

Lemma bipoly_polar f : bipoly f -> (forall z, f z (conj_rv z) = 0) -> forall z w, f z w = 0.
Proof.
move=> [Q HQ] H x y'; pose y := conj_rv y'.
pose u0 : 'rV[C]_n := 2%:R^-1 *: (x + y); pose u1 : 'rV[C]_n := (2%:R * 'i)^-1 *: (x - y).
have [p Hp] := line_eval Q (row_mx u0 (conj_rv u0)) (row_mx u1 (conj_rv u1)).
have Ep t : p.[t] = f (u0 + t *: u1) (conj_rv u0 + t *: conj_rv u1) by rewrite Hp HQ scale_row_mx add_row_mx.
have p0 : p = 0.
  apply: real_roots => k; rewrite Ep.
  have -> : conj_rv u0 + k.+1%:R *: conj_rv u1 = conj_rv (u0 + k.+1%:R *: u1).
    by apply/rowP => j; rewrite !mxE rmorphD rmorphM /= conjC_nat.
  exact: H.
have := congr1 (fun g : {poly C} => g.['i]) p0; rewrite Ep horner0 => E.
have i0 : ('i : C) != 0 by rewrite neq0Ci.
have n2 : (2%:R : C) != 0 by rewrite pnatr_eq0.
have Ex : u0 + 'i *: u1 = x by apply/rowP => j; rewrite !mxE; field; rewrite i0.
have Ey : conj_rv u0 + 'i *: conj_rv u1 = y'.
  have c2 : (2%:R^-1 : C)^* = 2%:R^-1 by rewrite fmorphV conjC_nat.
  have ci : ((2%:R * 'i)^-1 : C)^* = (2%:R * - 'i)^-1 by rewrite fmorphV rmorphM /= conjC_nat conjCi.
  apply/rowP => j; rewrite !mxE !(rmorphM conjC) (rmorphB conjC) (rmorphD conjC) /= conjCK c2 ci.
  by move: ((x 0 j)^*) (y' 0 j) => a b; field; rewrite i0.
by rewrite -Ex -Ey.
Qed.
End Bi.
