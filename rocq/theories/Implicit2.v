(** The implicit function theorem for a polynomial equation. *)
From Coq Require Import ZArith.
From mathcomp Require Import all_ssreflect all_algebra.
From mathcomp Require Import ring.
From SsrMultinomials Require Import mpoly.
From Verif Require Import Base Deriv Wirtinger PolyGrad SpecGeom ModelGeom Implicit.
Delimit Scope Z_scope with Z.

Set Implicit Arguments.
Unset Strict Implicit.
Unset Printing Implicit Defensive.

Import GRing.Theory Num.Theory Order.POrderTheory.
Local Open Scope ring_scope.

#[local] Hint Extern 0 (is_true (0 < _)) => solve [apply: ltr01 | apply: ltr0Sn] : core.

Lemma mpoly_ring_ind (R : comRingType) n (P : {mpoly R[n]} -> Prop) :
  (forall c, P c%:MP) -> (forall i, P 'X_i) -> (forall p q, P p -> P q -> P (p + q)) ->
  (forall p q, P p -> P q -> P (p * q)) -> forall p, P p.
Proof.
move=> Pc Px Pa Pm; elim/mpolyind => [|c m p _ _ IH]; first by rewrite -mpolyC0; apply: (Pc).
apply: Pa IH; rewrite -mul_mpolyC; apply: (Pm); first exact: Pc.
have P1 : P 1 by rewrite -mpolyC1; apply: (Pc).
rewrite mpolyXE_id; apply: big_ind => [|p1 q1|i _]; [exact: P1|exact: (Pm)|].
by elim: (m i) => [|k IH]; rewrite ?expr0 // exprS; apply: (Pm).
Qed.

Section Fibre.
Variables (C : numClosedFieldType) (m : nat) (d : 'I_m.+1).

(** the point with coordinate d equal to t and the others given by y *)
Definition pt (y : 'rV[C]_m) (t : C) : 'rV[C]_m.+1 :=
  \row_i (if unlift d i is Some a then y 0 a else t).
Definition others (z : 'rV[C]_m.+1) : 'rV[C]_m := \row_a z 0 (lift d a).

Lemma pt_d y t : pt y t 0 d = t. Proof. by rewrite mxE unlift_none. Qed.
Lemma pt_lift y t a : pt y t 0 (lift d a) = y 0 a. Proof. by rewrite mxE liftK. Qed.
Lemma pt_others z : pt (others z) (z 0 d) = z.
Proof. by apply/rowP => i; rewrite mxE; case: unliftP => [a ->|->]; rewrite ?mxE. Qed.
Lemma others_pt y t : others (pt y t) = y.
Proof. by apply/rowP => i; rewrite mxE pt_lift. Qed.

Lemma sum_others (F : 'I_m.+1 -> C) : \sum_i F i = F d + \sum_a F (lift d a).
Proof. by rewrite (bigD1_ord d). Qed.

Lemma norm1_pt (z : 'rV[C]_m.+1) : norm1 z = `|z 0 d| + norm1 (others z).
Proof. by rewrite /norm1 sum_others; congr (_ + _); apply: eq_bigr => a _; rewrite mxE. Qed.
Lemma dotv_pt (g z : 'rV[C]_m.+1) : dotv g z = g 0 d * z 0 d + dotv (others g) (others z).
Proof. by rewrite /dotv sum_others; congr (_ + _); apply: eq_bigr => a _; rewrite !mxE. Qed.
Lemma othersB u v : others (u - v) = others u - others v.
Proof. by apply/rowP => a; rewrite !mxE. Qed.

Definition fib_gen (y : 'rV[C]_m) (i : 'I_m.+1) : {poly C} :=
  if unlift d i is Some a then (y 0 a)%:P else 'X.
Definition fib (p : {mpoly C[m.+1]}) (y : 'rV[C]_m) : {poly C} := mmap (@polyC C) (fib_gen y) p.

Lemma fibP p : forall y t, (fib p y).[t] = peval p (pt y t) /\ ((fib p y)^`()).[t] = peval (p^`M(d)) (pt y t).
Proof.
elim/mpoly_ring_ind: p => [c|i|p q IHp IHq|p q IHp IHq] y t.
- by rewrite /fib mmapC derivC hornerC horner0 /peval mevalC mderivC meval0.
- rewrite /fib mmapX mmap1U /peval mevalXU mderivX mnm1E /fib_gen mxE.
  case: unliftP => [a ->|->].
    by rewrite hornerC derivC horner0 eq_sym (negbTE (neq_lift _ _)) scale0r meval0.
  by rewrite hornerX derivX hornerC eqxx UsubU scale1r mpolyX0 mevalC.
- have [h1 h2] := IHp y t; have [h3 h4] := IHq y t.
  by rewrite /fib rmorphD /= derivD !hornerD h1 h2 h3 h4 /peval mderivD !mevalD.
have [h1 h2] := IHp y t; have [h3 h4] := IHq y t.
by rewrite /fib rmorphM /= derivM !(hornerD, hornerM) h1 h2 h3 h4 /peval mderivM !(mevalD, mevalM).
Qed.

Lemma fib_size p : exists n, forall y, (size (fib p y) <= n.+1)%N.
Proof.
elim/mpoly_ring_ind: p => [c|i|p q [n1 H1] [n2 H2]|p q [n1 H1] [n2 H2]].
- by exists 0%N => y; rewrite /fib mmapC size_polyC leq_b1.
- exists 1%N => y; rewrite /fib mmapX mmap1U /fib_gen; case: unlift => [a|]; last by rewrite size_polyX.
  by rewrite size_polyC; apply: leq_trans (leq_b1 _) _.
- exists (maxn n1 n2) => y; rewrite /fib rmorphD; apply: leq_trans (size_add _ _) _.
  by rewrite geq_max -maxnSS !leq_max H1 H2 orbT.
exists (n1 + n2)%N => y; rewrite /fib rmorphM; apply: leq_trans (size_mul_leq _ _) _.
rewrite -subn1 leq_subLR add1n -addSn -addnS; apply: leq_add; [exact: H1|exact: H2].
Qed.
End Fibre.

Section Implicit.
Variables (C : numClosedFieldType) (m : nat) (d : 'I_m.+1) (Q : {mpoly C[m.+1]}) (z0 : 'rV[C]_m.+1).
Hypotheses (Qz : peval Q z0 = 0) (Qd : peval (Q^`M(d)) z0 != 0).
Local Notation c := (peval (Q^`M(d)) z0).
Local Notation x := (others d z0).
Local Notation t0 := (z0 0 d).
Local Notation pt := (pt d).
Local Notation others := (others d).

Lemma c_gt0 : 0 < `|c|. Proof. by rewrite normr_gt0. Qed.

(** a ball on which the gradient varies little *)
Lemma ball : exists2 rho : C, 0 < rho /\ rho <= 1 &
  (forall u v, norm1 (u - z0) <= rho -> norm1 (v - z0) <= rho ->
     `|peval Q u - peval Q v - dotv (pgrad Q z0) (u - v)| <= `|c| / 2%:R * norm1 (u - v)) /\
  (forall u, norm1 (u - z0) <= rho -> `|c| / 2%:R <= `|peval (Q^`M(d)) u|).
Proof.
have [K K0 HK] := poly_strict Q z0; have [L L0 HL] := strict_lip (poly_strict (Q^`M(d)) z0).
have c0 := c_gt0.
have K1 : 0 < K + 1 by exact: ltr_spaddr.
have L1 : 0 < L + 1 by exact: ltr_spaddr.
have [a [a0 a1 a2]] := @pos_min C 1 (`|c| / 2%:R / 2%:R / (K + 1)) ltr01 ltac:(by rewrite !divr_gt0).
have [b [b0 b1 b2]] := @pos_min C a (`|c| / 2%:R / (L + 1)) a0 ltac:(by rewrite !divr_gt0).
exists b; first by split=> //; apply: le_trans a1.
split=> [u v hu hv|u hu].
  have hu1 : norm1 (u - z0) <= 1 by apply: le_trans hu _; apply: le_trans a1.
  have hv1 : norm1 (v - z0) <= 1 by apply: le_trans hv _; apply: le_trans a1.
  apply: (le_trans (HK u v hu1 hv1)); apply: ler_wpmul2r; first exact: norm1_ge0.
  have h : norm1 (u - z0) + norm1 (v - z0) <= `|c| / 2%:R / (K + 1).
    rewrite [X in _ <= X](_ : _ = `|c| / 2%:R / 2%:R / (K + 1) + `|c| / 2%:R / 2%:R / (K + 1)).
      by rewrite ler_add //; [apply: le_trans hu _|apply: le_trans hv _]; apply: le_trans a2.
    by field; rewrite gt_eqF.
  apply: (@le_trans _ _ ((K + 1) * (`|c| / 2%:R / (K + 1)))).
    by apply: ler_pmul => //; rewrite ?addr_ge0 ?norm1_ge0 // ler_addl ler01.
  by rewrite mulrC divfK // gt_eqF.
have hu1 : norm1 (u - z0) <= 1 by apply: le_trans hu _; apply: le_trans a1.
have h : `|peval (Q^`M(d)) u - c| <= `|c| / 2%:R.
  apply: (le_trans (HL u hu1)); apply: (@le_trans _ _ ((L + 1) * (`|c| / 2%:R / (L + 1)))).
    by apply: ler_pmul => //; rewrite ?norm1_ge0 ?ler_addl ?ler01 //; apply: le_trans hu _.
  by rewrite mulrC divfK // gt_eqF.
rewrite -(ler_add2r (`|c| / 2%:R)) -splitr.
apply: (@le_trans _ _ (`|peval (Q^`M(d)) u| + `|c - peval (Q^`M(d)) u|)).
  by rewrite -{1}[c](subrK (peval (Q^`M(d)) u)) addrC ler_norm_add.
by rewrite ler_add2l distrC.
Qed.

Section Ball.
Variable rho : C.
Hypotheses (rho0 : 0 < rho) (rho1 : rho <= 1).
Hypothesis B1 : forall u v, norm1 (u - z0) <= rho -> norm1 (v - z0) <= rho ->
     `|peval Q u - peval Q v - dotv (pgrad Q z0) (u - v)| <= `|c| / 2%:R * norm1 (u - v).
Hypothesis B2 : forall u, norm1 (u - z0) <= rho -> `|c| / 2%:R <= `|peval (Q^`M(d)) u|.

Definition lam : C := (norm1 (others (pgrad Q z0)) + `|c| / 2%:R) / (`|c| / 2%:R).
Lemma lam_ge0 : 0 <= lam.
Proof. by have c0 := c_gt0; rewrite divr_ge0 ?addr_ge0 ?norm1_ge0 // ltW ?divr_gt0. Qed.

Lemma zeros_lip u v : norm1 (u - z0) <= rho -> norm1 (v - z0) <= rho -> peval Q u = 0 -> peval Q v = 0 ->
  `|u 0 d - v 0 d| <= lam * norm1 (others u - others v).
Proof.
move=> hu hv Qu Qv; have := B1 hu hv; rewrite Qu Qv subrr sub0r normrN => h.
have c0 := c_gt0; have c2 : 0 < `|c| / 2%:R by rewrite divr_gt0.
move: h; rewrite (norm1_pt d) (dotv_pt d) othersB !mxE.
set T := u 0 d - v 0 d; set Y := others u - others v; set G := others _ => h.
rewrite /lam mulrAC ler_pdivl_mulr //.
have h2 : `|c * T| <= `|c| / 2%:R * (`|T| + norm1 Y) + norm1 G * norm1 Y.
  rewrite -[c * T](addrK (dotv G Y)); apply: (le_trans (ler_norm_add _ _)).
  by rewrite normrN; apply: ler_add h _; apply: dotv_bound.
rewrite -(ler_add2r (`|c| / 2%:R * `|T|)).
have -> : `|T| * (`|c| / 2%:R) + `|c| / 2%:R * `|T| = `|c * T| by rewrite [X in X + _]mulrC -mulrDl -splitr normrM.
apply: (le_trans h2); rewrite le_eqVlt; apply/orP; left; apply/eqP.
by move: (`|c| / _) (norm1 G) (norm1 Y) `|T| => A0 A1 A2 A3; ring.
Qed.

Lemma zeros_unique u v : norm1 (u - z0) <= rho -> norm1 (v - z0) <= rho -> peval Q u = 0 -> peval Q v = 0 ->
  others u = others v -> u = v.
Proof.
move=> hu hv Qu Qv E; have := zeros_lip hu hv Qu Qv; rewrite E subrr norm10 mulr0 normr_le0 subr_eq0 => /eqP e.
by rewrite -(pt_others d u) -(pt_others d v) E e.
Qed.

(** the root *)
Definition close t := `|t0 - t| < rho / 2%:R.
Definition sol (y : 'rV[C]_m) : C :=
  head 0 (filter close (sval (closed_field_poly_normal (fib d Q y)))).

Lemma sol_ok : exists2 del : C, 0 < del &
  forall y, norm1 (y - x) < del -> peval Q (pt y (sol y)) = 0 /\ norm1 (pt y (sol y) - z0) < rho.
Proof.
have [n Hn] := fib_size d Q; have [L L0 HL] := strict_lip (poly_strict Q z0).
have c0 := c_gt0; have c2 : 0 < `|c| / 2%:R by rewrite divr_gt0.
pose M := n%:R * L / (`|c| / 2%:R); have M0 : 0 <= M by apply: divr_ge0; [apply: mulr_ge0; rewrite ?ler0n | exact: ltW].
have M1 : 0 < M + 1 by exact: ltr_spaddr.
have r2 : 0 < rho / 2%:R by rewrite divr_gt0.
have [del [del0 del1 del2]] := pos_min r2 (divr_gt0 r2 M1).
exists del => // y hy.
have np t : norm1 (pt y t - z0) = `|t - t0| + norm1 (y - x).
  by rewrite (norm1_pt d) !mxE unlift_none othersB others_pt.
have yr : norm1 (y - x) < rho / 2%:R by exact: lt_le_trans del1.
have hb : norm1 (pt y t0 - z0) <= rho.
  rewrite np subrr normr0 add0r; apply: ltW; apply: (lt_trans yr).
  by rewrite ltr_pdivr_mulr // ltr_pmulr // ltr1n.
have [e1 e2] := fibP d Q y t0.
have pd : ((fib d Q y)^`()).[t0] != 0.
  by rewrite e2 -normr_gt0; apply: (lt_le_trans c2); apply: B2.
have [s rs hs] := near_root (Hn y) pd.
have f0 : fib d Q y != 0 by apply: contra_neq pd => ->; rewrite derivC horner0.
have cs : close s.
  rewrite /close.
  have h1 : `|t0 - s| * (`|c| / 2%:R) <= n%:R * (L * norm1 (y - x)).
    apply: (@le_trans _ _ (`|t0 - s| * `|((fib d Q y)^`()).[t0]|)).
      by apply: ler_wpmul2l => //; rewrite e2; apply: B2.
    apply: (le_trans hs); apply: ler_wpmul2l => //; rewrite e1.
    have := HL (pt y t0) (le_trans hb rho1); rewrite Qz subr0 np subrr normr0 add0r //.
  have h2 : `|t0 - s| <= M * norm1 (y - x).
    by rewrite /M mulrAC ler_pdivl_mulr // -mulrA.
  apply: (le_lt_trans h2); apply: (@le_lt_trans _ _ (M * (rho / 2%:R / (M + 1)))).
    by apply: ler_wpmul2l => //; apply: ltW; apply: lt_le_trans del2.
  by rewrite mulrA ltr_pdivr_mulr // mulrC ltr_pmul2l // ltr_addl.
have key : (root (fib d Q y) (sol y)) && close (sol y).
  rewrite /sol; case: (closed_field_poly_normal _) => l /= El.
  have lc : lead_coef (fib d Q y) != 0 by rewrite lead_coef_eq0.
  have rl t : root (fib d Q y) t = (t \in l) by rewrite El rootZ // root_prod_XsubC.
  have : s \in filter close l by rewrite mem_filter cs -rl.
  case E : (filter close l) => [|a l'] //= _.
  have : a \in filter close l by rewrite E inE eqxx.
  by rewrite mem_filter rl andbC.
case/andP: key => /rootP k1 k2; have [e3 _] := fibP d Q y (sol y); split; first by rewrite -e3.
by rewrite np [rho]splitr distrC ltr_add.
Qed.
End Ball.

Lemma implicit_function : exists phi : 'rV[C]_m -> 'rV[C]_m.+1,
  [/\ phi x = z0, local_parametrisation (peval Q) (pgrad Q) d phi x &
      exists2 r : C, 0 < r & forall z, norm1 (z - z0) < r -> peval Q z = 0 -> phi (others z) = z].
Proof.
have [rho [rho0 rho1] [B1 B2]] := ball.
have [del del0 H] := sol_ok rho0 rho1 B2.
pose phi y := pt y (sol rho y).
have oE y : others (phi y) = y by rewrite /phi others_pt.
have uniq u : norm1 (u - z0) <= rho -> peval Q u = 0 -> norm1 (others u - x) < del -> phi (others u) = u.
  move=> hu Qu hy; have [q1 q2] := H _ hy.
  by apply: (zeros_unique B1) => //; apply: ltW.
have px : phi x = z0.
  by apply: uniq => //; rewrite subrr norm10 // ltW.
exists phi; split=> //.
  exists del => //; split.
  - by move=> z _; apply: poly_grad.
  - by move=> y a; rewrite pt_lift.
  move=> y1 hy1; have [q1 q2] := H _ hy1; split=> //.
  set z1 := phi y1; have g1 := poly_grad Q z1.
  have c1 : peval (Q^`M(d)) z1 != 0.
    by rewrite -normr_gt0; apply: (lt_le_trans _ (B2 _ (ltW q2))); rewrite divr_gt0 ?c_gt0.
  have l0 := lam_ge0; have l1 : 0 < 1 + lam by exact: ltr_paddr.
  have Dsol : is_grad (sol rho) y1 (- (peval (Q^`M(d)) z1)^-1 *: others (pgrad Q z1)).
    move=> e e0; pose e' := e * `|peval (Q^`M(d)) z1| / (1 + lam).
    have e'0 : 0 < e' by rewrite divr_gt0 // mulr_gt0 // normr_gt0.
    have [dd dd0 Hd] := g1 e' e'0.
    have s0 : 0 < del - norm1 (y1 - x) by rewrite subr_gt0.
    have [r [r0 r1 r2]] := pos_min (divr_gt0 dd0 l1) s0.
    exists r => // v hv.
    have hy2 : norm1 (y1 + v - x) < del.
      rewrite addrAC; apply: (le_lt_trans (norm1D _ _)); rewrite addrC -ltr_subr_addr.
      exact: lt_le_trans r2.
    have [p1 p2] := H _ hy2.
    have lip := zeros_lip B1 (ltW p2) (ltW q2) p1 q1.
    rewrite !others_pt !pt_d [y1 + v]addrC addrK [v + y1]addrC in lip.
    pose w := phi (y1 + v) - z1.
    have wd : w 0 d = sol rho (y1 + v) - sol rho y1 by rewrite /w !mxE unlift_none.
    have wo : others w = v by rewrite othersB !oE addrC addKr.
    have nw : norm1 w <= (1 + lam) * norm1 v.
      by rewrite (norm1_pt d) wd wo mulrDl mul1r addrC ler_add2l.
    have wdd : norm1 w < dd.
      apply: (le_lt_trans nw); rewrite mulrC -ltr_pdivl_mulr //; exact: lt_le_trans r1.
    have zw : z1 + w = phi (y1 + v) by rewrite /w addrC subrK.
    have := Hd w wdd; rewrite zw.
    rewrite -/(phi y1) -/(phi (y1 + v)) in p1 q1.
    rewrite p1 q1 subrr sub0r normrN (dotv_pt d) wd wo mxE => h.
    have nc : 0 < `|peval (Q^`M(d)) z1| by rewrite normr_gt0.
    rewrite -(ler_pmul2l nc) -normrM.
    have -> : peval (Q^`M(d)) z1 * (sol rho (y1 + v) - sol rho y1 -
       dotv (- (peval (Q^`M(d)) z1)^-1 *: others (pgrad Q z1)) v) =
       peval (Q^`M(d)) z1 * (sol rho (y1 + v) - sol rho y1) + dotv (others (pgrad Q z1)) v.
      by rewrite dotvZl; field.
    apply: (le_trans h); apply: (@le_trans _ _ (e' * ((1 + lam) * norm1 v))).
      by rewrite ler_pmul2l.
    rewrite /e' le_eqVlt; apply/orP; left; apply/eqP; field; exact: lt0r_neq0.
  exists (\matrix_(a, i) if unlift d i is Some b then (a == b)%:R
            else - (peval (Q^`M(d)) z1)^-1 * pgrad Q z1 0 (lift d a)).
  move=> i; case: (unliftP d i) => [b ->|->].
    apply: is_grad_eq (is_grad_ext _ (is_grad_coord b y1)); last by move=> y; rewrite pt_lift.
    by apply/rowP => a; rewrite !mxE liftK eqxx.
  apply: is_grad_eq (is_grad_ext _ Dsol); last by move=> y; rewrite pt_d.
  by apply/rowP => a; rewrite !mxE unlift_none.
have [r [r0 r1 r2]] := pos_min rho0 del0.
exists r => // z hz Qz'; apply: uniq => //; first by apply: ltW; apply: lt_le_trans r1.
rewrite -othersB; apply: (le_lt_trans _ (lt_le_trans hz r2)).
by rewrite [X in _ <= X](norm1_pt d) ler_addr.
Qed.
End Implicit.
