(** Two potentials with the same metric are proportional: conclusion. *)
From Coq Require Import ZArith Lia.
From mathcomp Require Import all_ssreflect all_algebra.
From mathcomp Require Import zify ssrZ ring.
From SsrMultinomials Require Import mpoly.
From Verif Require Import Base Deriv Bridge Herm PolyGrad ProofPolyExpr Implicit2 ProofIdent ProofIdent5 ProofIdent6.
Delimit Scope Z_scope with Z.

Set Implicit Arguments.
Unset Strict Implicit.
Unset Printing Implicit Defensive.

Import GRing.Theory Num.Theory Order.POrderTheory.
Local Open Scope ring_scope.

Section Final.
Variables (C : numClosedFieldType) (n N k : nat) (sg : 'I_N -> {mpoly C[n]}).
Notation SS := (SS sg).
Variables (e : 'I_N -> nat) (b0 b1 : 'I_N) (j : 'I_n).
Hypothesis ek : forall b, (e b <= k)%N.
Hypothesis sgs : forall b t v, peval (sg b) (t *: v) = t ^+ e b * peval (sg b) v.
Hypothesis sg0 : forall z, peval (sg b0) z = 1.
Hypothesis sg1 : forall z, peval (sg b1) z = z 0 j ^+ k.
Hypothesis free : forall u : 'cV[C]_N, (forall z, SS z *m u = 0) -> u = 0.
Variables F G : 'M[C]_N.
Hypothesis diag : forall v v' z, let w := conj_rv z in
  curv sg F v v' z w * bf G (SS z) (SS w) ^+ 2 = curv sg G v v' z w * bf F (SS z) (SS w) ^+ 2.
Hypothesis pF : forall z, bf F (SS z) (SS (conj_rv z)) != 0.
Hypothesis pG : forall z, bf G (SS z) (SS (conj_rv z)) != 0.
Hypothesis hF : forall z w, (bf F (SS z) (SS w))^* = bf F (SS (conj_rv w)) (SS (conj_rv z)).
Hypothesis hG : forall z w, (bf G (SS z) (SS w))^* = bf G (SS (conj_rv w)) (SS (conj_rv z)).
Hypothesis uF : F \in unitmx.

Definition dt (u : 'rV[C]_N) (w : 'rV[C]_n) : C := \sum_b u 0 b * SS w 0 b.
Definition mp (u : 'rV[C]_N) : {mpoly C[n]} := \sum_b u 0 b *: sg b.

Lemma mpE u w : peval (mp u) w = dt u w.
Proof. by rewrite /mp /peval raddf_sum; apply: eq_bigr => b _; rewrite /= mevalZ mxE. Qed.

Lemma bfE M x w : bf M x (SS w) = dt (x *m M) w.
Proof.
rewrite /bf exchange_big; apply: eq_bigr => b _ /=; rewrite [(x *m M) _ _]mxE mulr_suml.
by apply: eq_bigr => a _.
Qed.

Lemma dtZ c u w : dt (c *: u) w = c * dt u w.
Proof. by rewrite /dt mulr_sumr; apply: eq_bigr => b _; rewrite mxE mulrA. Qed.
Lemma dtB u v w : dt (u - v) w = dt u w - dt v w.
Proof. by rewrite /dt -sumrB; apply: eq_bigr => b _; rewrite !mxE mulrBl. Qed.
Lemma dt_sum (I : finType) (u : I -> 'rV[C]_N) w : dt (\sum_i u i) w = \sum_i dt (u i) w.
Proof. by rewrite /dt exchange_big; apply: eq_bigr => b _; rewrite summxE mulr_suml. Qed.

Lemma mp0 u : mp u = 0 -> u = 0.
Proof.
move=> E; apply: trmx_inj; rewrite trmx0; apply: free => z.
apply/matrixP => a b; rewrite !ord1 [RHS]mxE mxE.
have := mpE u z; rewrite E /peval meval0 => /esym; apply: etrans.
by apply: eq_bigr => c _; rewrite [u^T _ _]mxE mulrC.
Qed.

Lemma common z z' : exists w', [/\ bf F (SS z) (SS w') != 0, bf G (SS z) (SS w') != 0,
  bf F (SS z') (SS w') != 0 & bf G (SS z') (SS w') != 0].
Proof.
pose u := conj_rv z; pose v := conj_rv z' - conj_rv z.
have [a [Ha _]] := bf_liner sg F u v (SS z); have [a' [Ha' _]] := bf_liner sg F u v (SS z').
have [b [Hb _]] := bf_liner sg G u v (SS z); have [b' [Hb' _]] := bf_liner sg G u v (SS z').
have u0 : u + 0 *: v = conj_rv z by rewrite scale0r addr0.
have u1 : u + 1 *: v = conj_rv z' by rewrite scale1r addrC subrK.
have nz : (a * b) * (a' * b') != 0.
  rewrite !mulf_neq0 //.
  - by apply: contraNneq (pF z) => E; rewrite -u0 -Ha E horner0.
  - by apply: contraNneq (pG z) => E; rewrite -u0 -Hb E horner0.
  - by apply: contraNneq (pF z') => E; rewrite -u1 -Ha' E horner0.
  by apply: contraNneq (pG z') => E; rewrite -u1 -Hb' E horner0.
have [t] := nz_point nz; rewrite !hornerM Ha Ha' Hb Hb' !mulf_eq0 !negb_or => /andP[/andP[x1 x2] /andP[x3 x4]].
by exists (u + t *: v).
Qed.

Let al w := bf F (SS 0) (SS w).
Let be w := bf G (SS 0) (SS w).

Lemma ratio z : exists2 c, c != 0 & forall w, bf G (SS z) (SS w) * al w = c * (bf F (SS z) (SS w) * be w).
Proof.
have [w' [f1 g1 f0 g0]] := common z 0.
exists ((bf G (SS z) (SS w') * al w') / (bf F (SS z) (SS w') * be w')).
  by rewrite mulf_neq0 ?invr_eq0 ?mulf_neq0.
move=> w; have d0 : bf F (SS z) (SS w') * be w' != 0 by rewrite mulf_neq0.
have := @cross _ _ _ sg F G diag z 0 w' w (mulf_neq0 g1 f1) d0; rewrite -/(al _) -/(be _) => E.
by apply: (mulIf d0); rewrite E [RHS]mulrAC divfK.
Qed.

Lemma span_dec (b : bool) : (forall zs : 'I_N -> 'rV[C]_n, (\matrix_i SS (zs i)) \in unitmx -> b) -> b.
Proof.
move=> K.
have step r : (r <= N)%N -> (forall zs : 'I_r -> 'rV[C]_n, row_free (\matrix_i SS (zs i)) -> b) -> b.
  elim: r => [_ H|r IH rN H].
    by apply: (H (fun _ => 0)); rewrite /row_free -leqn0 rank_leq_row.
  apply: IH (ltnW rN) _ => zs fr; apply: contraT => nb.
  set A := (\matrix_i SS (zs i)) in fr.
  have [u u0 Au] : exists2 u : 'cV[C]_N, u != 0 & A *m u = 0.
    have : (0 < \rank (kermx A^T))%N by rewrite mxrank_ker mxrank_tr (eqP fr) subn_gt0.
    rewrite lt0n mxrank_eq0 => /rowV0Pn[v /sub_kermxP vA v0]; exists v^T; first by rewrite trmx_eq0.
    by rewrite -[A]trmxK -trmx_mul vA trmx0.
  case/eqP: u0; apply: free => z; apply/eqP; apply: contraT => zu; case/negP: nb.
  pose zs' (i : 'I_r.+1) := if unlift ord_max i is Some i' then zs i' else z.
  apply: (H zs'); rewrite -kermx_eq0; apply/rowV0P => v /sub_kermxP vE.
  have E : \sum_i v 0 i *: SS (zs' i) = 0.
    apply/rowP => c; have := congr1 (fun w : 'rV_N => w 0 c) vE; rewrite /= [LHS]mxE => <-.
    by rewrite summxE; apply: eq_bigr => i _; rewrite !mxE.
  move: E; rewrite big_ord_recr /= {2}/zs' unlift_none => E.
  have E2 : \sum_(i < r) v 0 (widen_ord (leqnSn r) i) *: SS (zs i) = (\row_i v 0 (widen_ord (leqnSn r) i)) *m A.
    by apply/rowP => c; rewrite summxE mxE; apply: eq_bigr => i _; rewrite !mxE.
  have E3 : \sum_(i < r) v 0 (widen_ord (leqnSn r) i) *: SS (zs' (widen_ord (leqnSn r) i)) =
     \sum_(i < r) v 0 (widen_ord (leqnSn r) i) *: SS (zs i).
    apply: eq_bigr => i _; congr (_ *: SS _); rewrite /zs'.
    have -> : widen_ord (leqnSn r) i = lift ord_max i by apply/val_inj; rewrite /= /bump leqNgt ltn_ord add0n.
    by rewrite liftK.
  rewrite E3 E2 in E.
  have vm : v 0 ord_max = 0.
    have := congr1 (fun w : 'rV_N => w *m u) E; rewrite mul0mx mulmxDl -mulmxA Au mulmx0 add0r -scalemxAl => /eqP.
    by rewrite scaler_eq0 (negbTE zu) orbF => /eqP.
  rewrite vm scale0r addr0 in E.
  have E4 : (\row_i v 0 (widen_ord (leqnSn r) i)) = 0 by apply: (row_free_inj fr); rewrite mul0mx.
  apply/rowP => i; rewrite [RHS]mxE; case: (unliftP ord_max i) => [i' ->|-> //].
  have := congr1 (fun w : 'rV_r => w 0 i') E4; rewrite !mxE => <-; congr (v 0 _).
  by apply/val_inj; rewrite /= /bump leqNgt ltn_ord add0n.
by apply: (step N) => // zs; rewrite row_free_unit; exact: K.
Qed.

Section Span.
Variable zs : 'I_N -> 'rV[C]_n.
Hypothesis uz : (\matrix_i SS (zs i)) \in unitmx.

Lemma divides u : exists u', forall w, be w * dt u w = al w * dt u' w.
Proof.
have [c c0 Hc] := fin_all_exists2 (fun i : 'I_N => ratio (zs i)).
pose l : 'rV[C]_N := u *m invmx F *m invmx (\matrix_i SS (zs i)).
exists (\sum_i (l 0 i / c i) *: (SS (zs i) *m G)) => w.
have -> : u = \sum_i l 0 i *: (SS (zs i) *m F).
  rewrite -[LHS](mulmxKV uF) -[u *m invmx F](mulmxKV uz) -/l.
  have -> : l *m (\matrix_i SS (zs i)) = \sum_i l 0 i *: SS (zs i).
    by apply/rowP => a; rewrite mxE summxE; apply: eq_bigr => i _; rewrite !mxE.
  by rewrite mulmx_suml; apply: eq_bigr => i _; rewrite scalemxAl.
rewrite !dt_sum !mulr_sumr; apply: eq_bigr => i _; rewrite !dtZ -!bfE.
have := Hc i w; move: (c0 i); move: (c i) (l 0 i) (al w) (be w) (bf _ _ _) (bf _ _ _) => x y s t f g x0 E.
by rewrite mulrCA [RHS]mulrCA [s * _]mulrC E [t * _]mulrC -!mulrA mulKf.
Qed.

Lemma prop0 : exists r, forall v : 'rV[C]_n, v 0 j != 0 -> be v = r * al v.
Proof.
have [q0 H0] := divides (delta_mx 0 b0); have [q1 H1] := divides (delta_mx 0 b1).
have dd b w : dt (delta_mx 0 b) w = peval (sg b) w.
  by rewrite /dt (bigD1 b) //= big1 => [|i ib]; rewrite !mxE ?eqxx ?mul1r ?addr0 // (negbTE ib) mul0r.
have a0 : mp (SS 0 *m F) != 0.
  by apply: contraNneq (pF 0) => E; rewrite bfE -mpE E /peval meval0.
have Q w : dt q1 w = w 0 j ^+ k * dt q0 w.
  have : mp (SS 0 *m F) * (mp q1 - 'X_j ^+ k * mp q0) = 0.
    apply: peval_zero => y; rewrite /peval mevalM mevalB mevalM rmorphX /= mevalXU -!/(peval _ _) !mpE -bfE -/(al y).
    have := H0 y; have := H1 y; rewrite !dd sg0 sg1 mulr1 => E1 E0.
    by rewrite mulrBr -E1 mulrCA -E0 mulrC subrr.
  move/eqP; rewrite mulf_eq0 (negbTE a0) /= subr_eq0 => /eqP/(congr1 (fun P => peval P w)).
  by rewrite /peval mevalM rmorphX /= mevalXU -!/(peval _ _) !mpE.
exists (dt q0 0) => v vj.
pose T (q : 'rV[C]_N) : {poly C} := \sum_b (q 0 b * peval (sg b) v) *: 'X^(e b).
have ET q t : (T q).[t] = dt q (t *: v).
  rewrite /T horner_sum; apply: eq_bigr => b _.
  by rewrite hornerZ hornerXn [in RHS]mxE sgs -mulrA [peval _ _ * _]mulrC.
have sT q : (size (T q) <= k.+1)%N.
  apply: leq_trans (size_sum _ _ _) _; apply/bigmax_leqP => b _.
  by apply: leq_trans (size_scale_leq _ _) _; rewrite size_polyXn ltnS.
have E : T q1 = T q0 * ((v 0 j ^+ k) *: 'X^k).
  apply/eqP; rewrite -subr_eq0; apply/eqP/poly_fun0 => t; rewrite hornerD hornerN hornerM hornerZ hornerXn !ET Q mxE exprMn.
  by apply/eqP; rewrite subr_eq0; apply/eqP; rewrite [LHS]mulrC [t ^+ k * _]mulrC.
have Tc : (T q0).[1] = (T q0).[0].
  have [->|n0] := eqVneq (T q0) 0; first by rewrite !horner0.
  have := sT q1; rewrite E -scalerAr size_scale ?expf_neq0 // size_mul ?expf_neq0 ?polyX_eq0 // size_polyXn addnS /= addnC -[k.+1]addn1 leq_add2l => /size1_polyC ->.
  by rewrite !hornerC.
move: Tc; rewrite !ET scale1r scale0r => <-.
have := H0 v; rewrite dd sg0 mulr1 => ->; by rewrite mulrC.
Qed.

Lemma eigen z : exists r, SS z *m G = r *: (SS z *m F).
Proof.
have [c c0 Hc] := ratio z; have [r Hr] := prop0; exists (c * r).
apply/eqP; rewrite -subr_eq0; apply/eqP; apply: mp0.
have a0 : mp (SS 0 *m F) != 0.
  by apply: contraNneq (pF 0) => E; rewrite bfE -mpE E /peval meval0.
have : mp (SS 0 *m F) * 'X_j * mp (SS z *m G - (c * r) *: (SS z *m F)) = 0.
  apply: peval_zero => y; rewrite /peval !mevalM mevalXU -!/(peval _ _) !mpE dtB dtZ -!bfE -/(al y).
  have [->|yj] := eqVneq (y 0 j) 0; first by rewrite mulr0 mul0r.
  have := Hc y; rewrite (Hr _ yj); move: (al y) (bf _ _ _) (bf _ _ _) (y 0 j) => s f g x E.
  by rewrite mulrBr mulrAC [s * _]mulrC E; ring.
have xj : 'X_j != 0 :> {mpoly C[n]}.
  apply/negP => /eqP/(congr1 (fun P : {mpoly C[n]} => peval P (const_mx 1))).
  by rewrite /peval mevalXU meval0 mxE => /eqP; rewrite oner_eq0.
by move/eqP; rewrite !mulf_eq0 (negbTE a0) (negbTE xj) /= => /eqP.
Qed.
End Span.

Theorem metric_prop : G = (bf G (SS 0) (SS 0) / bf F (SS 0) (SS 0)) *: F.
Proof.
have c0 : conj_rv (0 : 'rV[C]_n) = 0 by apply/rowP => i; rewrite !mxE conjC0.
apply/eqP/span_dec => zs uz.
have ev z w r : SS z *m G = r *: (SS z *m F) -> bf G (SS z) (SS w) = r * bf F (SS z) (SS w).
  by move=> E; rewrite !bfE E dtZ.
have [r0 H0] := eigen uz 0.
have f0 := pF 0; rewrite c0 in f0.
have -> : bf G (SS 0) (SS 0) / bf F (SS 0) (SS 0) = r0 by rewrite (ev _ _ _ H0) mulfK.
have K z : SS z *m G = r0 *: (SS z *m F).
  have [r Hr] := eigen uz z; have [w [x1 _ x3 _]] := common z 0.
  have [s Hs] := eigen uz (conj_rv w).
  have back y : conj_rv (conj_rv y) = y by apply/rowP => i; rewrite !mxE conjCK.
  have S y : bf G (SS y) (SS w) = s^* * bf F (SS y) (SS w).
    have := congr1 (fun a => a^*) (ev _ (conj_rv y) _ Hs); rewrite /= (rmorphM conjC) /= hF hG !back; exact.
  have e1 : r = s^* by apply: (mulIf x1); rewrite -S; apply/esym/ev.
  have e0 : r0 = s^* by apply: (mulIf x3); rewrite -S; apply/esym/ev.
  by rewrite Hr e1 e0.
rewrite -subr_eq0; apply/eqP/matrixP => a i; rewrite [RHS]mxE.
have : col i (G - r0 *: F) = 0.
  by apply: free => z; rewrite colE mulmxA mulmxBr K -scalemxAr subrr mul0mx.
by move=> /colP/(_ a); rewrite mxE [RHS]mxE.
Qed.
End Final.
