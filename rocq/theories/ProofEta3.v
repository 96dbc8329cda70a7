(** The sign of the Ricci tensor at the extrema of eta. *)
From Coq Require Import ZArith Reals Lra.
From mathcomp Require Import all_ssreflect all_algebra.
From mathcomp Require Import complex.
From SsrMultinomials Require Import mpoly.
From Verif Require Import Base ModelUtil ModelProjective ModelBasis ModelDiff ModelGeom Deriv Bridge Wirtinger SpecGeom Herm Herm2 Herm3
  SpecMon SpecBasis SpecSections SpecPatch ProofBasis3 ProofGeom3 ProofGeom4 PolyGrad Implicit Implicit2 ProofSections ProofPatch ProofRicci
  RealField RealLog ComplexR SpecComplex ProofComplex ProofRicci2 ProofRicci3 SpecEta ProofEta ProofEta2.
Delimit Scope Z_scope with Z.

Set Implicit Arguments.
Unset Strict Implicit.
Unset Printing Implicit Defensive.

Import GRing.Theory Num.Theory Order.POrderTheory.
Local Open Scope ring_scope.
Delimit Scope R_scope with RR.

#[local] Hint Extern 0 (is_true (0 < _)) => solve [apply: ltr01 | apply: ltr0Sn] : core.

(** *** The trace of a semidefinite matrix against a positive metric *)
Lemma trace_psd (C : numClosedFieldType) n (R g : 'M[C]_n) : hermitian g -> posdef g -> possemidef R ->
  0 <= \sum_i \sum_j R i j * invmx g j i.
Proof.
move=> hg pg pR; have [L uL Eg] := cholesky hg pg.
have Ei : invmx g = adjm (invmx L) *m invmx L.
  have uA : adjm L \in unitmx by rewrite unitmxE det_adjm unitfE conjC_eq0 -unitfE -unitmxE.
  have E2 : adjm L *m adjm (invmx L) = 1%:M by rewrite -adjm_mul mulVmx // adjm1.
  have E3 : g *m (adjm (invmx L) *m invmx L) = 1%:M.
    by rewrite Eg -mulmxA (mulmxA (adjm L)) E2 mul1mx mulmxV.
  by rewrite -[RHS]mul1mx -(mulVmx (posdef_unit pg)) -mulmxA E3 mulmx1.
have -> : \sum_i \sum_j R i j * invmx g j i = \sum_r hform R (row r (invmx L)).
  rewrite /hform Ei.
  under eq_bigr do under eq_bigr do rewrite mxE mulr_sumr.
  under [RHS]eq_bigr do under eq_bigr do under eq_bigr do rewrite !mxE.
  rewrite [RHS]exchange_big; apply: eq_bigr => i _.
  rewrite [RHS]exchange_big; apply: eq_bigr => j _; apply: eq_bigr => r _.
  by rewrite adjmE mulrA mulrC mulrA.
by apply: sumr_ge0 => r _; exact: pR.
Qed.

Lemma mixed_opp (C : numClosedFieldType) n (f : 'rV[C]_n -> C) x (H : 'M[C]_n) :
  is_mixed (fun y => - f y) x H -> is_mixed f x (fun a b => - H a b).
Proof.
move=> [df [dfc [r [r0 [H1 H2]]]]].
exists (fun y a => - df y a), (fun y a => - dfc y a), r; split=> //; split=> [y /H1 h|a].
  by apply: wgrad_ext (wgrad_opp h) => u; rewrite opprK.
by have [dd h] := H2 a; exists (fun b => - dd b); exact: wgrad_opp.
Qed.

Lemma clog_real (x : CR) : 0 < x -> (clog x)^* = clog x.
Proof. by move=> /pos_rc[q q0 ->]; rewrite clog_rc // rcJ. Qed.

Lemma clog_le (x y : CR) : 0 < x -> x <= y -> clog x <= clog y.
Proof.
move=> x0 xy; have y0 := lt_le_trans x0 xy.
move: x0 y0 xy => /pos_rc[p p0 ->] /pos_rc[q q0 ->] /rc_le pq; rewrite !clog_rc //; apply/rc_le.
by case: pq => [pq|->]; [left; exact: ln_increasing|right].
Qed.

Section Ext.
Variables (m k e : nat) (P : {mpoly CR[m.+2]}) (B : basis).
Hypothesis HB : basis_for k P B.
Hypothesis HP : P \is e.-homog.
Hypothesis k0 : (0 < k)%N.
Variable M : 'M[CR]_(size (power_matrix B)).
Hypothesis HM : hermitian M.
Hypothesis pd : posdef M.
Variables (i : 'I_m.+2) (d : 'I_m.+1).
Let Q := dehom i P.
Let o := on_patch k M P i d.
Let pi := rc PI.
Variable z : 'rV[CR]_m.+1.
Hypothesis Pz : peval Q z = 0.
Hypothesis gz : peval (Q^`M(d)) z != 0.

Lemma pi_conj : pi^* = pi. Proof. exact: rcJ. Qed.

Lemma patch_herm R : ob_ricci_loc pi (o z) = Ok R -> hermitian R.
Proof. by apply: (ricci_loc_herm (M := M)) pi_conj _ => // s a b; rewrite /= mderiv_comm. Qed.

Lemma patch_g_herm g : ob_g_loc pi (o z) = Ok g -> hermitian g.
Proof. by apply: (gl_conj (M := M)) pi_conj _ => // s a b; rewrite /= mderiv_comm. Qed.

Lemma form_min (F : 'rV[CR]_m -> CR) x (H : 'M[CR]_m) (r : CR) : hermitian H -> 0 < r ->
  (forall y, norm1 (y - x) < r -> (F y)^* = F y) -> (forall y, norm1 (y - x) < r -> F x <= F y) ->
  is_mixed F x H -> possemidef H.
Proof.
move=> hH r0 fr mn Hm v.
have E : hform H v = hdir H v.
  rewrite /hform /hdir; apply: eq_bigr => a _; rewrite mulr_suml; apply: eq_bigr => b _.
  by rewrite [RHS]mulrC mulrA.
have /rc_le := mixed_min r0 fr Hm mn v.
have -> // : rc (re (hdir H v)) = hform H v.
have cE : (hform H v)^* = hform H v.
  rewrite /hform; apply: sum_conj => a b; rewrite 2!cjM cjK -hH.
  by rewrite mulrC [_^* * _]mulrC mulrA.
rewrite -E; have [_ h] := conj_parts (esym cE).
by apply: CR_eq => //=; lra.
Qed.

Lemma ext_setup : exists phi x R, [/\ phi x = z, ob_ricci_loc pi (o z) = Ok R,
  is_mixed (fun y => - clog (eta_at pi o (phi y))) x R &
  forall s : CR, 0 < s -> exists2 r : CR, 0 < r & forall y, norm1 (y - x) < r ->
    [/\ 0 < eta_at pi o (phi y), norm1 (phi y - z) < s & peval Q (phi y) = 0]].
Proof.
have [phi [phx par _]] := implicit_function Pz gz; set x := others d z in phx par.
have [R ER [[r1 r10 H1] Hm]] := eta_ricci clog_pos_mul clog_near pi_pos HB HP k0 HM pd phx par gz.
exists phi, x, R; split=> // s s0.
have [r2 r20 [_ _ H2]] := par.
have [_ [J HJ]] : peval Q (phi x) = 0 /\ exists J, is_jac phi x J by apply: H2; rewrite subrr norm10.
have [r3 r30 H3] := jac_close HJ s0.
have [r4 [r40 l1 l2]] := pos_min r10 r20; have [r [r0 l3 l4]] := pos_min r40 r30.
exists r => // y hy; split.
- by apply: H1; apply: lt_le_trans hy (le_trans l3 l1).
- by rewrite -phx; apply: H3; apply: lt_le_trans hy l4.
by have [] := H2 y (lt_le_trans (lt_le_trans hy l3) l2).
Qed.

Lemma scalar_of R : ob_ricci_loc pi (o z) = Ok R -> exists g, [/\ ob_g_loc pi (o z) = Ok g, hermitian g, posdef g &
  ob_ricci_scalar pi (o z) = Ok (\sum_a \sum_b R a b * invmx g b a)].
Proof.
move=> ER; have [_ [g Eg pg]] := for_positive HP HB k0 pi_pos HM pd Pz gz.
exists g; split=> //; first exact: patch_g_herm.
by rewrite /ob_ricci_scalar ER /= Eg.
Qed.

Lemma eta_max_ricci : eta_below pi Q o z -> exists R s, [/\ ob_ricci_loc pi (o z) = Ok R, possemidef R,
  ob_ricci_scalar pi (o z) = Ok s & 0 <= s].
Proof.
move=> [s s0 Hs]; have [phi [x [R [phx ER Hm near]]]] := ext_setup.
have [r r0 Hr] := near s s0; have [g [Eg hg pg Er]] := scalar_of ER.
have x1 : norm1 (x - x) < r by rewrite subrr norm10.
have pR : possemidef R.
  apply: (form_min (patch_herm ER) r0 _ _ Hm) => y /Hr[p0 n1 q0]; first by rewrite cjN clog_real.
  by rewrite ler_opp2; apply: clog_le => //; rewrite phx; exact: Hs.
by exists R, (\sum_a \sum_b R a b * invmx g b a); split=> //; exact: trace_psd.
Qed.

Lemma eta_min_ricci : eta_above pi Q o z -> exists R s, [/\ ob_ricci_loc pi (o z) = Ok R, possemidef (- R),
  ob_ricci_scalar pi (o z) = Ok s & s <= 0].
Proof.
move=> [s s0 Hs]; have [phi [x [R [phx ER Hm near]]]] := ext_setup.
have [r r0 Hr] := near s s0; have [g [Eg hg pg Er]] := scalar_of ER.
have x1 : norm1 (x - x) < r by rewrite subrr norm10.
have [px _ _] := Hr x x1.
have hN : hermitian (- R) by move=> a b; rewrite !mxE (patch_herm ER) rmorphN.
have Hm' : is_mixed (fun y => clog (eta_at pi o (phi y))) x (- R : 'M_m).
  have [df [dfc [q [q0 [H1 H2]]]]] := mixed_opp Hm; exists df, dfc, q; split=> //; split=> // a.
  by have [dd h] := H2 a; exists dd; apply: wgrad_eq h => // b; rewrite mxE.
have pR : possemidef (- R).
  apply: (form_min hN r0 _ _ Hm') => y /Hr[p0 n1 q0]; first exact: clog_real.
  by apply: clog_le => //; rewrite phx; exact: Hs.
exists R, (\sum_a \sum_b R a b * invmx g b a); split=> //.
have := trace_psd hg pg pR; rewrite -oppr_ge0 -sumrN; congr (_ <= _); apply: eq_bigr => a _.
by rewrite -sumrN; apply: eq_bigr => b _; rewrite mxE mulNr.
Qed.
End Ext.
