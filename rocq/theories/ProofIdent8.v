(** The metric of the ambient space determines H up to a factor. *)
From Coq Require Import ZArith Lia.
From mathcomp Require Import all_ssreflect all_algebra.
From mathcomp Require Import zify ssrZ ring.
From SsrMultinomials Require Import mpoly.
From Verif Require Import Base ModelUtil ModelProjective SpecMon ModelBasis ModelGeom ProofUtil Bridge Deriv Herm SpecGeom SpecBasis SpecSections
  SpecPatch SpecPipe PolyGrad ProofBasis ProofBasis2 ProofBasis3 ProofSections ProofPatch ProofGeom4 ProofFubini ProofSymmetry2 SpecLinear ProofLinear3 Herm3
  Implicit2 ProofAlg2 ProofIdent ProofIdent5 ProofIdent6 ProofIdent7 ProofIdent2.
Delimit Scope Z_scope with Z.

Set Implicit Arguments.
Unset Strict Implicit.
Unset Printing Implicit Defensive.

Import GRing.Theory Num.Theory Order.POrderTheory.
Local Open Scope ring_scope.

(** Derivatives of polynomials with real coefficients *)
Lemma deriv_conj (C : numClosedFieldType) n (P : {mpoly C[n]}) (v z : 'rV[C]_n) :
  (forall y, (peval P y)^* = peval P (conj_rv y)) ->
  (\sum_a v 0 a * peval (P^`M(a)) z)^* = \sum_a (conj_rv v) 0 a * peval (P^`M(a)) (conj_rv z).
Proof.
move=> H; have [f [Hf Df]] := line_deriv P z v; have [g [Hg Dg]] := line_deriv P (conj_rv z) (conj_rv v).
have E : map_poly conjC f = g.
  apply/eqP; rewrite -subr_eq0; apply/eqP/real_roots => i; rewrite hornerD hornerN.
  have -> : (map_poly conjC f).[i.+1%:R] = (f.[i.+1%:R])^* by rewrite -{1}[i.+1%:R]conjC_nat horner_map.
  rewrite Hf Hg H (_ : conj_rv _ = conj_rv z + i.+1%:R *: conj_rv v) ?subrr //.
  by apply/rowP => j; rewrite !mxE (rmorphD conjC) (rmorphM conjC) /= conjC_nat.
have := Dg 0; have := Df 0; rewrite !scale0r !addr0 => <- <-.
by rewrite -E deriv_map -{2}[0]conjC0 horner_map.
Qed.

Section Inst.
Variables (C : numClosedFieldType) (m k : nat) (B : basis).
Hypotheses (hB : basis_full m.+1 k = Ok B) (k0 : (0 < k)%N).
Notation N := (size (power_matrix B)).
Variable p : 'I_m.+2.
Let sg : 'I_N -> {mpoly C[m.+1]} := section_polys C p (B := power_matrix B).
Let ee (a : 'I_N) (j : 'I_m.+2) : nat := nth 0%N (nth [::] (power_matrix B) a) j.
Let S (z : 'rV[C]_m.+1) : 'rV[C]_N := hom_sections B (row_seq (homr p z)).

Lemma sgE a z : peval (sg a) z = \prod_(j < m.+2) homr p z 0 j ^+ ee a j.
Proof. exact: sec_value. Qed.

Lemma SSE z : SS sg z = S z.
Proof. by apply/rowP => a; rewrite mxE [RHS]hsE dehom_eval. Qed.

Lemma sgL a z : peval (sg a) z = \prod_(j < m.+1) z 0 j ^+ ee a (lift p j).
Proof.
rewrite sgE (bigD1 p) //= homr_patch expr1n mul1r (reindex_onto (lift p) (fun j => odflt 0 (unlift p j))) /=; last first.
  by move=> j jp; case: unliftP => [i ->//|E]; rewrite E eqxx in jp.
by apply: eq_big => [j|j _]; [rewrite liftK eqxx eq_sym neq_lift|rewrite homr_lift].
Qed.

Lemma ee_sum a : (\sum_(j < m.+1) ee a (lift p j) <= k)%N.
Proof.
have [E _] := full_mons hB.
have /is_monomialP[_ <-] : nth [::] (power_matrix B) a \in mons m.+2 k by rewrite -E mem_nth.
rewrite [X in (_ <= X)%N](bigD1 p) //= (reindex_onto (lift p) (fun j => odflt 0 (unlift p j))) /=; last first.
  by move=> j jp; case: unliftP => [i ->//|F]; rewrite F eqxx in jp.
apply: leq_trans (leq_addl _ _); rewrite leq_eqVlt; apply/orP; left; apply/eqP.
by apply: eq_bigl => j; rewrite liftK eqxx eq_sym neq_lift.
Qed.

Lemma sg_pow (i : 'I_m.+2) : exists a : 'I_N, forall j, ee a j = if j == i then k else 0%N.
Proof.
have [E _] := full_mons hB.
have M : [seq (if j == i then k else 0%N) | j : 'I_m.+2] \in mons m.+2 k.
  apply/is_monomialP; split; first by rewrite size_map size_enum_ord.
  rewrite (bigD1 i) //= (nth_map i) ?size_enum_ord // nth_ord_enum eqxx big1 ?addn0 // => j jp.
  by rewrite (nth_map i) ?size_enum_ord // nth_ord_enum (negbTE jp).
have lt : (index [seq (if j == i then k else 0%N) | j : 'I_m.+2] (power_matrix B) < N)%N by rewrite index_mem E.
exists (Ordinal lt) => j; rewrite /ee /= nth_index ?E //.
by rewrite (nth_map i) ?size_enum_ord // nth_ord_enum.
Qed.

Lemma free_patch (u : 'cV[C]_N) : (forall z, SS sg z *m u = 0) -> u = 0.
Proof.
move=> H.
have : u *m (const_mx 1 : 'rV[C]_N) = 0.
  by apply: (patch_unique hB (p := p)) => z; rewrite !mulmxA -/(S z) -SSE H mulmx0 !mul0mx.
move=> /matrixP E; apply/colP => a; have := E a a.
by rewrite mxE big_ord1 !mxE mulr1.
Qed.

Lemma bf_herm (M : 'M[C]_N) z w : hermitian M -> (bf M (SS sg z) (SS sg w))^* = bf M (SS sg (conj_rv w)) (SS sg (conj_rv z)).
Proof.
move=> hM; rewrite /bf exchange_big rmorph_sum; apply: eq_bigr => b _; rewrite rmorph_sum; apply: eq_bigr => a _ /=.
have cj y c : (SS sg y 0 c)^* = SS sg (conj_rv y) 0 c.
  rewrite !SSE /S s_conj; congr (hom_sections B (row_seq _) 0 c); apply/rowP => j; rewrite mxE.
  case: (unliftP p j) => [i ->|->]; last by rewrite !homr_patch conjC1.
  by rewrite !homr_lift mxE.
by rewrite !(rmorphM conjC) /= !cj -hM mulrC [_ * M _ _]mulrC mulrA.
Qed.

Lemma bf_diag (M : 'M[C]_N) z : bf M (SS sg z) (SS sg (conj_rv z)) = hform M (S z).
Proof.
rewrite -SSE /bf /hform; apply: eq_bigr => a _; apply: eq_bigr => b _; congr (_ * _).
rewrite !SSE /S s_conj; congr (hom_sections B (row_seq _) 0 b); apply/rowP => j; rewrite mxE.
case: (unliftP p j) => [i ->|->]; last by rewrite !homr_patch conjC1.
by rewrite !homr_lift mxE.
Qed.

Lemma sg_conj a y : (peval (sg a) y)^* = peval (sg a) (conj_rv y).
Proof. by rewrite !sgL rmorph_prod; apply: eq_bigr => j _; rewrite rmorphX mxE. Qed.

Lemma SS_conj y b : (SS sg y 0 b)^* = SS sg (conj_rv y) 0 b.
Proof. by rewrite !mxE sg_conj. Qed.

Lemma SD_conj v y b : (SD sg v y 0 b)^* = SD sg (conj_rv v) (conj_rv y) 0 b.
Proof. by rewrite [SD _ _ _ _ _]mxE [RHS]mxE deriv_conj // => x; exact: sg_conj. Qed.

Lemma bf_adj (M : 'M[C]_N) (x y y' : 'rV[C]_N) : (forall b, (y 0 b)^* = y' 0 b) -> bf M x y' = (x *m M *m adjm y) 0 0.
Proof.
move=> H; rewrite mxE /bf exchange_big; apply: eq_bigr => b _ /=; rewrite adjmE H mxE mulr_suml.
by apply: eq_bigr.
Qed.

Lemma psi_bf (M : 'M[C]_N) P d z : ob_psi (on_patch k M P p d z) = bf M (SS sg z) (SS sg (conj_rv z)).
Proof.
rewrite (@psiE _ _ _ (on_patch k M P p d z) M) // hformE (bf_adj M (SS sg z) (y := SS sg z)); last exact: SS_conj.
by have -> : SS sg z = \row_a o_s (on_patch k M P p d z) a by apply/rowP => a; rewrite !mxE.
Qed.

Lemma curv_gpm pi (M : 'M[C]_N) P d z v v' : pi != 0 -> hermitian M -> bf M (SS sg z) (SS sg (conj_rv z)) != 0 ->
  curv sg M v v' z (conj_rv z) = k%:R * pi * bf M (SS sg z) (SS sg (conj_rv z)) ^+ 2 *
    (v *m gpm pi (on_patch k M P p d z) *m adjm (conj_rv v')) 0 0.
Proof.
move=> pi0 hM nz; have kk : (k%:R : C) != 0 by rewrite pnatr_eq0 -lt0n.
have vv : conj_rv (conj_rv v') = v' by apply/rowP => i; rewrite !mxE conjCK.
pose o := on_patch k M P p d z; pose S1 : 'M[C]_(m.+1, N) := \matrix_(i, a) o_s1 o a i.
have eS : SS sg z = \row_a o_s o a by apply/rowP => a; rewrite !mxE.
have eD u : SD sg u z = u *m S1 by apply/rowP => a; rewrite !mxE; apply: eq_bigr => i _; rewrite mxE.
have Ep : ob_psi o = bf M (SS sg z) (SS sg (conj_rv z)) := psi_bf M P d z.
have D2 b : (SD sg (conj_rv v') z 0 b)^* = SD sg v' (conj_rv z) 0 b by rewrite SD_conj vv.
rewrite (@gpmE _ _ _ pi o M) // Ep -/S1 -eS /curv.
rewrite !(bf_adj M _ D2) [bf M (SD sg v z) _](bf_adj M _ (SS_conj z)).
rewrite !eD !adjm_mul.
set ps := bf _ _ _ in nz *; set X := S1 *m M *m adjm S1; set Y := S1 *m M *m adjm _; set Z := SS sg z *m M *m adjm S1.
have -> : v *m S1 *m M *m (adjm S1 *m adjm (conj_rv v')) = v *m X *m adjm (conj_rv v') by rewrite /X !mulmxA.
have -> : v *m S1 *m M *m adjm (SS sg z) = v *m Y by rewrite /Y !mulmxA.
have -> : SS sg z *m M *m (adjm S1 *m adjm (conj_rv v')) = Z *m adjm (conj_rv v') by rewrite /Z !mulmxA.
pose l (A : 'M[C]_m.+1) : C := (v *m A *m adjm (conj_rv v')) 0 0.
have L1 c A : l (c *: A) = c * l A by rewrite /l -scalemxAr -scalemxAl [LHS]mxE.
have L2 A1 A2 : l (A1 - A2) = l A1 - l A2 by rewrite /l mulmxBr mulmxBl [LHS]mxE [X in _ + X = _]mxE.
rewrite -![(v *m _ *m adjm (conj_rv v')) 0 0]/(l _) L1 L2 !L1.
have -> : l (Y *m Z) = (v *m Y) 0 0 * (Z *m adjm (conj_rv v')) 0 0.
  by rewrite /l (mulmxA v Y Z) -(mulmxA (v *m Y) Z) [LHS]mxE big_ord1.
have -> : o_degree o = k by [].
move: kk nz (l X) ((v *m Y) 0 0) ((Z *m _) 0 0) => kk nz x y t.
clear L1 L2 l X Y Z D2 Ep; move: (k%:R : C) ps kk nz => q ps kk nz.
by field; rewrite nz pi0 kk.
Qed.
End Inst.

Lemma metric_h : forall (C : numClosedFieldType) (m k : nat) (B : basis), basis_full m.+1 k = Ok B -> (0 < k)%N ->
  forall (pi : C) (P : {mpoly C[m.+2]}) (p : 'I_m.+2) (d : 'I_m.+1) (H H' : 'M[C]_(size (power_matrix B))),
  pi != 0 -> hermitian H -> posdef H -> hermitian H' -> posdef H' ->
  (forall z i j, ob_g_proj pi (on_patch k H P p d z) i j = ob_g_proj pi (on_patch k H' P p d z) i j) <->
  exists2 r, 0 < r & H' = r *: H.
Proof.
move=> C m k B hB k0 pi P p d H H' pi0 h1 p1 h2 p2; pose sg := section_polys C p (B := power_matrix B).
have q1 z : 0 < bf H (SS sg z) (SS sg (conj_rv z)) by rewrite (bf_diag p); apply: p1; exact: S_neq0 hB p z.
have q2 z : 0 < bf H' (SS sg z) (SS sg (conj_rv z)) by rewrite (bf_diag p); apply: p2; exact: S_neq0 hB p z.
split=> [E|[r r0 ->] z i j]; last first.
  have n0 : ob_psi (on_patch k H P p d z) != 0 by rewrite psi_bf lt0r_neq0.
  have rr : r^* = r by apply/CrealP/ger0_real/ltW.
  by rewrite -(@g_proj_scale _ _ _ pi r (lt0r_neq0 r0) (on_patch k H P p d z) n0 rr i j).
have c0 : conj_rv (0 : 'rV[C]_m.+1) = 0 by apply/rowP => i; rewrite !mxE conjC0.
exists (bf H' (SS sg 0) (SS sg 0) / bf H (SS sg 0) (SS sg 0)).
  by have := q1 0; have := q2 0; rewrite c0 => *; rewrite divr_gt0.
have [b0 H0] := sg_pow hB p; have [b1 H1] := sg_pow hB (lift p ord0).
apply: (@metric_prop _ _ _ k sg (fun a => \sum_(j < m.+1) nth 0%N (nth [::] (power_matrix B) a) (lift p j))%N b0 b1 ord0).
- by move=> b; exact: (ee_sum hB p b).
- move=> b t v; rewrite !sgL expr_sum -big_split; apply: eq_bigr => j _ /=; by rewrite mxE exprMn.
- by move=> z; rewrite sgL big1 // => j _; rewrite H0 eq_sym (negbTE (neq_lift _ _)) expr0.
- move=> z; rewrite sgL (bigD1 ord0) // H1 eqxx big1 => [|j j0]; first by rewrite /= mulr1.
  by rewrite H1 (inj_eq lift_inj) (negbTE j0) expr0.
- by move=> u; exact: (free_patch hB).
- move=> v v' z w; rewrite /w !(@curv_gpm _ _ _ _ k0 p pi _ P d) // ?lt0r_neq0 //.
  have -> : gpm pi (on_patch k H P p d z) = gpm pi (on_patch k H' P p d z) by apply/matrixP => i j; rewrite !mxE E.
  by move: (bf H _ _) (bf H' _ _) ((_ *m _) 0 0) (k%:R : C) => f g l q; ring.
- by move=> z; rewrite lt0r_neq0.
- by move=> z; rewrite lt0r_neq0.
- by move=> z w; exact: bf_herm.
- by move=> z w; exact: bf_herm.
exact: posdef_unit.
Qed.
