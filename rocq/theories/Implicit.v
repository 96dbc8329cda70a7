(** Roots of polynomials near a point, and the implicit function of a polynomial
    equation. *)
From Coq Require Import ZArith.
From mathcomp Require Import all_ssreflect all_algebra.
From mathcomp Require Import ring.
From SsrMultinomials Require Import mpoly.
From Verif Require Import Base Deriv Wirtinger PolyGrad SpecGeom ModelGeom.
Delimit Scope Z_scope with Z.

Set Implicit Arguments.
Unset Strict Implicit.
Unset Printing Implicit Defensive.

Import GRing.Theory Num.Theory Order.POrderTheory.
Local Open Scope ring_scope.

#[local] Hint Extern 0 (is_true (0 < _)) => solve [apply: ltr01 | apply: ltr0Sn] : core.

(** a root close to a point where the value is small *)
Section Root.
Variable C : numClosedFieldType.

Lemma deriv_prod_root (s : seq C) (t : C) : all (fun r => t - r != 0) s ->
  ((\prod_(r <- s) ('X - r%:P))^`()).[t] = (\prod_(r <- s) ('X - r%:P)).[t] * \sum_(r <- s) (t - r)^-1.
Proof.
elim: s => [_|r s IH] /=; first by rewrite !big_nil derivC horner0 mulr0.
case/andP=> tr ts; rewrite !big_cons derivM hornerD !hornerM derivXsubC hornerC mul1r IH // hornerXsubC.
by rewrite mulrDr mulrA [_ * _ / _]mulrAC divff // mul1r.
Qed.

Lemma near_root (p : {poly C}) (t : C) n : (size p <= n.+1)%N -> p^`().[t] != 0 ->
  exists2 r, root p r & `|t - r| * `|p^`().[t]| <= n%:R * `|p.[t]|.
Proof.
move=> sp pd; case: (eqVneq p.[t] 0) => [pt|pt].
  by exists t; [apply/rootP | rewrite subrr normr0 mul0r mulr_ge0].
have p0 : p != 0 by apply: contra_neq pt => ->; rewrite horner0.
have [s Es] := closed_field_poly_normal p.
have lc : lead_coef p != 0 by rewrite lead_coef_eq0.
have ts : all (fun r => t - r != 0) s.
  apply/allP => r rs; apply: contra_neq pt => /eqP; rewrite subr_eq0 => /eqP ->.
  apply/eqP; rewrite -/(root p r) Es rootZ // root_prod_XsubC //.
have Ed : p^`().[t] = p.[t] * \sum_(r <- s) (t - r)^-1.
  by rewrite {1 2}Es derivZ !hornerZ deriv_prod_root // mulrA.
have ss : (size s <= n)%N.
  by move: sp; rewrite Es size_scale // size_prod_XsubC.
pose bad r := n%:R * `|p.[t]| < `|t - r| * `|p^`().[t]|.
case: (boolP (all bad s)) => [/allP H|/allPn[r rs Hr]]; last first.
  exists r; first by rewrite Es rootZ // root_prod_XsubC.
  by rewrite real_leNgt // ger0_real // mulr_ge0.
have dp : 0 < `|p^`().[t]| by rewrite normr_gt0.
have pp : 0 < `|p.[t]| by rewrite normr_gt0.
have s0 : s != [::] by apply: contra_neq pd => E; rewrite Ed E big_nil mulr0.
have n0 : (0 < n)%N by apply: leq_trans ss; case: (s) s0.
suff : `|p^`().[t]| < `|p^`().[t]| by rewrite ltxx.
rewrite {1}Ed normrM.
have B r : r \in s -> `|(t - r)^-1| < `|p^`().[t]| / (n%:R * `|p.[t]|).
  move=> rs; have := H r rs; rewrite /bad => h.
  have nz : 0 < `|t - r| by rewrite normr_gt0 (allP ts).
  by rewrite normfV ltr_pdivl_mulr ?mulr_gt0 ?ltr0n // mulrC ltr_pdivr_mulr // [_ * `|t - r|]mulrC.
apply: (@lt_le_trans _ _ (`|p.[t]| * \sum_(r <- s) `|p^`().[t]| / (n%:R * `|p.[t]|))).
  rewrite ltr_pmul2l //; apply: (le_lt_trans (ler_norm_sum _ _ _)).
  case: (s) s0 B => // r0 s' _ B; rewrite !big_cons; apply: ltr_le_add; first by apply: B; rewrite inE eqxx.
  by rewrite big_seq [X in _ <= X]big_seq; apply: ler_sum => r rs; apply/ltW/B; rewrite inE rs orbT.
rewrite big_const_seq count_predT iter_addr_0 -mulr_natl.
have -> : `|p.[t]| * ((size s)%:R * (`|p^`().[t]| / (n%:R * `|p.[t]|))) = (size s)%:R / n%:R * `|p^`().[t]|.
  by field; rewrite pnatr_eq0 -lt0n n0 gt_eqF.
apply: ler_pimull; first exact: ltW.
by rewrite ler_pdivr_mulr ?ltr0n // mul1r ler_nat.
Qed.
End Root.

(** strict differentiability of polynomial functions *)
Section Strict.
Variables (C : numClosedFieldType) (n : nat).
Implicit Types (f : 'rV[C]_n -> C) (z g u v : 'rV[C]_n).

Definition strict f z g : Prop := exists2 K : C, 0 <= K &
  forall u v, norm1 (u - z) <= 1 -> norm1 (v - z) <= 1 ->
  `|f u - f v - dotv g (u - v)| <= K * (norm1 (u - z) + norm1 (v - z)) * norm1 (u - v).

Lemma norm10 : norm1 (0 : 'rV[C]_n) = 0.
Proof. by rewrite /norm1 big1 // => i _; rewrite mxE normr0. Qed.

Lemma norm1N v : norm1 (- v) = norm1 v.
Proof. by apply: eq_bigr => i _; rewrite mxE normrN. Qed.

Lemma norm1D u v : norm1 (u + v) <= norm1 u + norm1 v.
Proof. by rewrite /norm1 -big_split; apply: ler_sum => i _; rewrite mxE ler_norm_add. Qed.

Lemma strict_lip f z g : strict f z g -> exists2 L : C, 0 <= L &
  forall u, norm1 (u - z) <= 1 -> `|f u - f z| <= L * norm1 (u - z).
Proof.
case=> K K0 H; exists (K + norm1 g) => [|u hu]; first by rewrite addr_ge0 ?norm1_ge0.
have := H u z hu; rewrite subrr norm10 addr0 ler01 => /(_ isT) h.
rewrite -[f u - f z](subrK (dotv g (u - z))); apply: (le_trans (ler_norm_add _ _)).
rewrite mulrDl; apply: ler_add (dotv_bound _ _); apply: (le_trans h).
by rewrite -[X in _ <= X]mulr1 ler_pmul ?mulr_ge0 ?norm1_ge0.
Qed.

Lemma strict_bound f z g : strict f z g -> exists2 B : C, 0 <= B &
  forall u, norm1 (u - z) <= 1 -> `|f u| <= B.
Proof.
move=> /strict_lip[L L0 H]; exists (L + `|f z|) => [|u hu]; first by rewrite addr_ge0.
rewrite -[f u](subrK (f z)); apply: (le_trans (ler_norm_add _ _)); rewrite ler_add //.
by apply: (le_trans (H u hu)); rewrite ler_pimulr.
Qed.

Lemma strict_const c z : strict (fun _ => c) z 0.
Proof. by exists 0 => // u v _ _; rewrite dotv0l subrr subr0 normr0 !mul0r. Qed.

Lemma strict_coord i z : strict (fun y => y 0 i) z (delta_mx 0 i).
Proof. by exists 0 => // u v _ _; rewrite dotv_delta !mxE subrr normr0 !mul0r. Qed.

Lemma strict_add f1 f2 z g1 g2 : strict f1 z g1 -> strict f2 z g2 ->
  strict (fun y => f1 y + f2 y) z (g1 + g2).
Proof.
move=> [K1 K10 H1] [K2 K20 H2]; exists (K1 + K2) => [|u v hu hv]; first by rewrite addr_ge0.
have -> : f1 u + f2 u - (f1 v + f2 v) - dotv (g1 + g2) (u - v) =
  (f1 u - f1 v - dotv g1 (u - v)) + (f2 u - f2 v - dotv g2 (u - v)) by rewrite dotvDl; ring.
apply: (le_trans (ler_norm_add _ _)); rewrite !mulrDl -!mulrDl.
by rewrite !mulrDl -!mulrDl [X in _ <= X * _]mulrDl [X in _ <= X]mulrDl ler_add ?H1 ?H2.
Qed.

Lemma strict_mul f1 f2 z g1 g2 : strict f1 z g1 -> strict f2 z g2 ->
  strict (fun y => f1 y * f2 y) z (f1 z *: g2 + f2 z *: g1).
Proof.
move=> S1 S2; have [B1 B10 b1] := strict_bound S1; have [L1 L10 l1] := strict_lip S1.
have [B2 B20 b2] := strict_bound S2; have [L2 L20 l2] := strict_lip S2.
case: S1 => K1 K10 H1; case: S2 => K2 K20 H2.
exists (B1 * K2 + L1 * norm1 g2 + B2 * K1 + L2 * norm1 g1) => [|u v hu hv].
  by rewrite !addr_ge0 ?mulr_ge0 ?norm1_ge0.
set D := dotv _ (u - v).
have -> : f1 u * f2 u - f1 v * f2 v - D =
  f1 u * (f2 u - f2 v - dotv g2 (u - v)) + (f1 u - f1 z) * dotv g2 (u - v)
  + f2 v * (f1 u - f1 v - dotv g1 (u - v)) + (f2 v - f2 z) * dotv g1 (u - v).
  by rewrite /D dotvDl !dotvZl; ring.
set s := norm1 (u - z) + norm1 (v - z); set w := norm1 (u - v).
have su : norm1 (u - z) <= s by rewrite ler_addl norm1_ge0.
have sv : norm1 (v - z) <= s by rewrite ler_addr norm1_ge0.
have s0 : 0 <= s by rewrite addr_ge0 ?norm1_ge0.
have w0 : 0 <= w by exact: norm1_ge0.
have -> : (B1 * K2 + L1 * norm1 g2 + B2 * K1 + L2 * norm1 g1) * s * w =
  B1 * (K2 * s * w) + (L1 * s) * (norm1 g2 * w) + B2 * (K1 * s * w) + (L2 * s) * (norm1 g1 * w).
  by ring.
apply: (le_trans (ler_norm_add _ _)); apply: ler_add;
  [apply: (le_trans (ler_norm_add _ _)); apply: ler_add;
    [apply: (le_trans (ler_norm_add _ _)); apply: ler_add|]|]; rewrite normrM; apply: ler_pmul => //.
- exact: b1.
- exact: H2.
- by apply: (le_trans (l1 u hu)); rewrite ler_wpmul2l.
- exact: dotv_bound.
- exact: b2.
- exact: H1.
- by apply: (le_trans (l2 v hv)); rewrite ler_wpmul2l.
- exact: dotv_bound.
Qed.

Lemma strict_ext f f' z g : f =1 f' -> strict f z g -> strict f' z g.
Proof. by move=> E [K K0 H]; exists K => // u v hu hv; rewrite -!E; exact: H. Qed.

Let G (p : {mpoly C[n]}) := forall z, strict (peval p) z (pgrad p z).

Lemma S_const c : G c%:MP.
Proof.
move=> z; have -> : pgrad c%:MP z = 0.
  by apply/rowP => i; rewrite !mxE mderivC /peval meval0.
by apply: strict_ext (strict_const c z) => y; rewrite /peval mevalC.
Qed.

Lemma S_X i : G 'X_i.
Proof.
move=> z; have -> : pgrad 'X_i z = delta_mx 0 i.
  apply/rowP => j; rewrite !mxE eqxx /= mderivX mnm1E eq_sym /peval.
  case: (eqVneq j i) => [->|_]; last by rewrite scale0r meval0.
  by rewrite UsubU scale1r mpolyX0 mevalC.
by apply: strict_ext (strict_coord i z) => y; rewrite /peval mevalXU.
Qed.

Lemma S_add p q : G p -> G q -> G (p + q).
Proof.
move=> Hp Hq z; have -> : pgrad (p + q) z = pgrad p z + pgrad q z.
  by apply/rowP => i; rewrite !mxE mderivD /peval mevalD.
by apply: strict_ext (strict_add (Hp z) (Hq z)) => y; rewrite /peval mevalD.
Qed.

Lemma S_mul p q : G p -> G q -> G (p * q).
Proof.
move=> Hp Hq z; have -> : pgrad (p * q) z = peval p z *: pgrad q z + peval q z *: pgrad p z.
  by apply/rowP => i; rewrite !mxE mderivM /peval mevalD !mevalM addrC [X in _ + X]mulrC.
by apply: strict_ext (strict_mul (Hp z) (Hq z)) => y; rewrite /peval mevalM.
Qed.

Lemma S_exp p k : G p -> G (p ^+ k).
Proof.
move=> Hp; elim: k => [|k IH]; last by rewrite exprS; exact: S_mul.
by rewrite expr0 -mpolyC1; exact: S_const.
Qed.

Lemma S_mon m : G 'X_[m].
Proof.
rewrite mpolyXE_id; apply: big_ind => [|p q|i _]; last exact/S_exp/S_X.
  by rewrite -mpolyC1; exact: S_const.
exact: S_mul.
Qed.

Lemma poly_strict p z : strict (peval p) z (pgrad p z).
Proof.
move: z; rewrite -/(G p); elim/mpolyind: p => [|c m p _ _ IH].
  by rewrite -mpolyC0; exact: S_const.
apply: S_add IH; rewrite -mul_mpolyC; apply: S_mul; [exact: S_const|exact: S_mon].
Qed.
End Strict.
