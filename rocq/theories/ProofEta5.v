(** The Ricci tensor at the extrema of eta on a smooth Calabi-Yau hypersurface. *)
From Coq Require Import ZArith Reals.
From mathcomp Require Import all_ssreflect all_algebra.
From mathcomp Require Import complex.
From SsrMultinomials Require Import mpoly.
From Verif Require Import Base ModelUtil ModelProjective ModelExpr ModelPoly ModelHom ModelVariety ModelBasis ModelDiff ModelGeom ModelAlg.
From Verif Require Import SpecPoly SpecHom SpecVariety SpecGeom SpecBasis SpecSections SpecPatch SpecAlg Herm Herm2 Herm3.
From Verif Require Import Deriv Wirtinger Bridge PolyGrad ProofHom ProofFS ProofSections ProofPatch ProofBasis3 ProofGeom3 ProofGeom4 Implicit Implicit2 ProofPolyExpr ProofAlg ProofAlg2
  ProofAlg3 ProofAlg4 ProofAlg6 ProofRicci ProofRicci2 ProofRicci3 RealField ComplexR ProofComplex SpecEta ProofEta ProofEta2 ProofEta3 ProofEta4.
Delimit Scope Z_scope with Z.

Set Implicit Arguments.
Unset Strict Implicit.
Unset Printing Implicit Defensive.

Import GRing.Theory Num.Theory Order.POrderTheory.
Local Open Scope ring_scope.
Delimit Scope R_scope with RR.

Section Local.
Variables (m k : nat) (P : {mpoly CR[m.+2]}) (B : basis).
Hypothesis HB : basis_for k P B.
Hypothesis HP : P \is m.+2.-homog.
Hypothesis k0 : (0 < k)%N.
Variable M : 'M[CR]_(size (power_matrix B)).
Hypothesis HM : hermitian M.
Hypothesis pd : posdef M.
Hypothesis sm : forall (p : 'I_m.+2) z, peval (dehom p P) z = 0 -> pgrad (dehom p P) z <> 0.
Notation etp := (@etp m k P B M).

Lemma near_et i d (z : 'rV[CR]_m.+1) : peval ((dehom i P)^`M(d)) z != 0 -> exists2 r : CR, 0 < r &
  forall y, norm1 (y - z) < r -> peval (dehom i P) y = 0 ->
  eta_at (rc PI) (on_patch k M P i d) y = etp (homr i y) /\ (peval P (homr i y) = 0 /\ homr i y != 0).
Proof.
move=> gd; have /wgrad_hol/wgrad_diff W := poly_grad ((dehom i P)^`M(d)) z.
have [r r0 Hr] := diff_nonzero W gd; exists r => // y hy Py.
have [_ gy] := Hr y hy.
have Ph : peval P (homr i y) = 0 by rewrite -[LHS]dehom_eval.
have h1 : homr i y 0 i != 0 by rewrite homr_patch oner_neq0.
split; last by split=> //; apply: contraNneq h1 => ->; rewrite mxE.
rewrite /eta_at (eta_et k M gy) (etp_at HB HP k0 HM pd sm Ph h1); congr (et _ _ _).
by apply/rowP => a; rewrite mxE homr_lift homr_patch divr1.
Qed.

Lemma homr_affr i (x : 'rV[CR]_m.+2) : x 0 i != 0 -> homr i (affr i x) = (x 0 i)^-1 *: x.
Proof. by move=> xi; apply/rowP => a; rewrite homr_aff // mxE mulrC. Qed.

Lemma at_point i d (x : 'rV[CR]_m.+2) : peval P x = 0 -> x 0 i != 0 -> peval ((dehom i P)^`M(d)) (affr i x) != 0 ->
  eta_at (rc PI) (on_patch k M P i d) (affr i x) = etp x.
Proof.
by move=> Px xi gd; rewrite /eta_at (eta_et k M gd) (etp_at HB HP k0 HM pd sm Px xi).
Qed.

Lemma local_max i d (x : 'rV[CR]_m.+2) : peval P x = 0 -> x 0 i != 0 -> peval ((dehom i P)^`M(d)) (affr i x) != 0 ->
  (forall y, y != 0 -> peval P y = 0 -> etp y <= etp x) -> eta_below (rc PI) (dehom i P) (on_patch k M P i d) (affr i x).
Proof.
move=> Px xi gd H; have [r r0 Hr] := near_et gd; exists r => // y hy Py.
by have [-> [Ph h0]] := Hr y hy Py; rewrite (at_point Px xi gd); exact: H.
Qed.

Lemma local_min i d (x : 'rV[CR]_m.+2) : peval P x = 0 -> x 0 i != 0 -> peval ((dehom i P)^`M(d)) (affr i x) != 0 ->
  (forall y, y != 0 -> peval P y = 0 -> etp x <= etp y) -> eta_above (rc PI) (dehom i P) (on_patch k M P i d) (affr i x).
Proof.
move=> Px xi gd H; have [r r0 Hr] := near_et gd; exists r => // y hy Py.
by have [-> [Ph h0]] := Hr y hy Py; rewrite (at_point Px xi gd); exact: H.
Qed.

Lemma unit_neq0 (x : 'rV[CR]_m.+2) : unit_zero P x -> x != 0.
Proof. by move=> /unit_nz[i xi]; apply: contraNneq xi => ->; rewrite mxE. Qed.

Lemma all_max : exists x, [/\ x != 0, peval P x = 0 & forall y, y != 0 -> peval P y = 0 -> etp y <= etp x].
Proof.
have [x ux H] := etp_max HB HP k0 HM pd sm; exists x; split; [exact: unit_neq0|exact: ux.1|].
by move=> y y0 Py; have [y' uy <-] := etp_scale HB HP k0 HM pd sm y0 Py; exact: H.
Qed.

Lemma all_min : exists x, [/\ x != 0, peval P x = 0 & forall y, y != 0 -> peval P y = 0 -> etp x <= etp y].
Proof.
have [x ux H] := etp_min HB HP k0 HM pd sm; exists x; split; [exact: unit_neq0|exact: ux.1|].
by move=> y y0 Py; have [y' uy <-] := etp_scale HB HP k0 HM pd sm y0 Py; exact: H.
Qed.
End Local.

Lemma psd_congr (C : numClosedFieldType) n (A R R0 : 'M[C]_n) : A \in unitmx -> R = A *m R0 *m adjm A ->
  possemidef R -> possemidef R0.
Proof.
move=> uA ER pR v; have := pR (v *m invmx A); congr (_ <= _).
have E : forall X (w : 'rV[C]_n), hform X w = (w *m X *m adjm w) 0 0.
  move=> X w; rewrite /hform mxE exchange_big; apply: eq_bigr => j _.
  by rewrite mxE mulr_suml; apply: eq_bigr => i _; rewrite adjmE.
by rewrite !E ER adjm_mul !mulmxA mulmxKV // -!mulmxA (mulmxA (adjm A)) -adjm_mul mulVmx // adjm1 mul1mx.
Qed.

Section Global.
Variable D : forall n : nat, ('rV[CR]_n -> CR) -> 'rV[CR]_n -> 'rV[CR]_n.
Hypothesis hD : diff_ok D.
Variables (lg ex : CR -> CR) (m : nat).
Variables (V : variety CR) (ps : seq CR) (Q : {mpoly CR[m.+2]}).
Hypotheses (hV : hypersurface V ps m m.+2) (hQ : defined_by V ps Q) (sm : smooth D V ps m).
Variables (k : nat) (B : basis).
Hypotheses (hB : basis_for k Q B) (k0 : (0 < k)%N).
Variable M : 'M[CR]_(size (power_matrix B)).
Hypotheses (HM : hermitian M) (pd : posdef M).
Let HQ : Q \is m.+2.-homog := V_homog hV hQ.
Let hC : basis_class CR m.+1 k B := for_class HQ hB.

Notation eta_of x := (alg_eta D lg ex (rc PI) m V (HMat M) (row_seq x) (PArr ps) None None None).
Notation ricci_of x := (alg_ricci D lg ex (rc PI) m V (HMat M) (row_seq x) (PArr ps) None None None).
Notation scalar_of x := (alg_ricci_scalar D lg ex (rc PI) m V (HMat M) (row_seq x) (PArr ps) None None None).
Notation on_V x := (v_defining V (row_seq x) (PArr ps) (PatchNone _) = Ok 0).
Notation etp := (@etp m k Q B M).

Lemma sm_poly (p : 'I_m.+2) z : peval (dehom p Q) z = 0 -> pgrad (dehom p Q) z <> 0.
Proof.
move=> hz; have [|g [b [E gi]]] := sm (p := p) (zs := row_seq z); first by rewrite (V_patch hV hQ) hz.
move: E; rewrite (grad_code hD hV hQ) => -[Eg] G0; move: gi; rewrite -Eg G0.
case: (ltnP b m.+1) => [im|mi]; last by rewrite nth_default ?size_row_seq ?eqxx.
by rewrite -[b]/(nat_of_ord (Ordinal im)) nth_row_seq mxE eqxx.
Qed.

Lemma on_poly x : on_V x <-> peval Q x = 0.
Proof. by split=> [|E]; [rewrite hQ => -[]|rewrite hQ E]. Qed.

Lemma code_point (x : 'rV[CR]_m.+2) : x != 0 -> peval Q x = 0 -> exists i d a g,
  [/\ smooth_at D V ps x i d a g, x 0 i != 0, peval ((dehom i Q)^`M(d)) (affr i x) != 0 &
   alg_objects D lg ex m V (HMat M) a (PArr ps) (Some (Z.of_nat i)) None (Some (Z.of_nat d)) =
     Ok (on_patch k M Q i d (affr i x), Z.of_nat i)].
Proof.
move=> x0 Qx; have [i xi] := nonzero_coord x0.
have [d [a [g sa]]] := smooth_every hD hV hQ sm x0 Qx xi.
exists i, d, a, g; have [hx _ ha hg gd] := sa.
have aE : a = row_seq (affr i x) by move: ha; rewrite hom_to_affine_seq => -[<-].
have gz : peval ((dehom i Q)^`M(d)) (affr i x) != 0.
  by move: gd; move: hg; rewrite aE (grad_code hD hV hQ) => -[<-]; rewrite nth_row_seq mxE.
have bne := B_ne hD hV hQ hB k0 pi_pos HM pd hx xi ha hg gd.
split=> //.
by rewrite aE (objects_gen hD lg ex hV hQ hC bne M (erefl : choose_dependent _ (Some _) = _) (or_introl erefl) gz).
Qed.

Lemma eta_code x : x != 0 -> peval Q x = 0 -> eta_of x = Ok (etp x).
Proof.
move=> x0 Qx; have [i [d [a [g [sa xi gz Eo]]]]] := code_point x0 Qx.
have [i0 [E [E0 [E1 E2 _ /(_ erefl) E3 _]]]] := eta_wrap hD lg ex hV hQ hB k0 pi_pos HM pd sa.
rewrite E2 -E3; move: E1; rewrite /alg_eta Eo /= => E1.
by have := at_point hB HQ k0 HM pd sm_poly Qx xi gz; rewrite /eta_at E1 => ->.
Qed.

Lemma ricci_max x : x != 0 -> peval Q x = 0 -> (forall y, y != 0 -> peval Q y = 0 -> etp y <= etp x) ->
  exists R i d s, [/\ ricci_of x = Ok (R, i, d), possemidef R, scalar_of x = Ok s & 0 <= s].
Proof.
move=> x0 Qx H; have [i [d [a [g [sa xi gz Eo]]]]] := code_point x0 Qx.
have Qi : peval (dehom i Q) (affr i x) = 0 by rewrite (dehom_aff HQ xi) Qx mulr0.
have [R [s [ER pR Es s0]]] := eta_max_ricci hB HQ k0 HM pd Qi gz (local_max hB HQ k0 HM pd sm_poly Qx xi gz H).
have [i0 [d0 [G [G0 [R' [R0 [A [r [[_ _ E1 E2] [uA _ EA S1 S2]]]]]]]]]] := ricci_wrap hD lg ex hV hQ hB k0 HM pd sa.
exists R0, i0, d0, s; split=> //.
  apply: (psd_congr uA EA); move: E1; rewrite /alg_ricci Eo /= ER /= => -[<-]; exact: pR.
by rewrite S2 -S1 /alg_ricci_scalar Eo /= Es.
Qed.

Lemma ricci_min x : x != 0 -> peval Q x = 0 -> (forall y, y != 0 -> peval Q y = 0 -> etp x <= etp y) ->
  exists R i d s, [/\ ricci_of x = Ok (R, i, d), possemidef (- R), scalar_of x = Ok s & s <= 0].
Proof.
move=> x0 Qx H; have [i [d [a [g [sa xi gz Eo]]]]] := code_point x0 Qx.
have Qi : peval (dehom i Q) (affr i x) = 0 by rewrite (dehom_aff HQ xi) Qx mulr0.
have [R [s [ER pR Es s0]]] := eta_min_ricci hB HQ k0 HM pd Qi gz (local_min hB HQ k0 HM pd sm_poly Qx xi gz H).
have [i0 [d0 [G [G0 [R' [R0 [A [r [[_ _ E1 E2] [uA _ EA S1 S2]]]]]]]]]] := ricci_wrap hD lg ex hV hQ hB k0 HM pd sa.
have EA' : - R' = A *m (- R0) *m adjm A by rewrite mulmxN mulNmx EA.
exists R0, i0, d0, s; split=> //.
  apply: (psd_congr uA EA'); move: E1; rewrite /alg_ricci Eo /= ER /= => -[<-]; exact: pR.
by rewrite S2 -S1 /alg_ricci_scalar Eo /= Es.
Qed.

Lemma global_signs : exists x y : 'rV[CR]_m.+2,
  [/\ x != 0 /\ on_V x, y != 0 /\ on_V y,
    forall w : 'rV[CR]_m.+2, w != 0 -> on_V w -> exists Ex Ey Ew,
      [/\ eta_of x = Ok Ex, eta_of y = Ok Ey, eta_of w = Ok Ew, 0 < Ey & Ey <= Ew <= Ex],
    exists R i d s, [/\ ricci_of x = Ok (R, i, d), possemidef R, scalar_of x = Ok s & 0 <= s] &
    exists R i d s, [/\ ricci_of y = Ok (R, i, d), possemidef (- R), scalar_of y = Ok s & s <= 0]].
Proof.
have [x [x0 Qx Hx]] := all_max hB HQ k0 HM pd sm_poly; have [y [y0 Qy Hy]] := all_min hB HQ k0 HM pd sm_poly.
exists x, y; split; [by split=> //; apply/on_poly|by split=> //; apply/on_poly| |exact: ricci_max|exact: ricci_min].
move=> w w0 /on_poly Qw; exists (etp x), (etp y), (etp w); split; try exact: eta_code.
  by have [y' uy <-] := etp_scale hB HQ k0 HM pd sm_poly y0 Qy; exact: (etp_pos hB HQ k0 HM pd sm_poly uy).
by rewrite Hx // Hy.
Qed.
End Global.

(** *** The Fermat hypersurface, the full basis, H the identity: the hypotheses hold *)
Section Fermat.
Variables (m k : nat).
Hypothesis k0 : (0 < k)%N.

Lemma fermat_extrema : exists2 B, basis_full m.+1 k = Ok B &
  let o := on_patch (B := B) k 1%:M (dwork_Q m 0 : {mpoly CR[m.+2]}) in
  (exists i d z, [/\ peval (dehom i (dwork_Q m 0)) z = 0, peval ((dehom i (dwork_Q m 0))^`M(d)) z != 0 &
    eta_below (rc PI) (dehom i (dwork_Q m 0)) (o i d) z]) /\
  (exists i d z, [/\ peval (dehom i (dwork_Q m 0)) z = 0, peval ((dehom i (dwork_Q m 0))^`M(d)) z != 0 &
    eta_above (rc PI) (dehom i (dwork_Q m 0)) (o i d) z]).
Proof.
have [B [EB _ _ _ _]] := full_class m.+1 k; exists B => //.
have hV := @fermat_hyp CR m [::]; have hQ := @fermat_defined CR m [::]; have HQ := V_homog hV hQ.
have hB : basis_for k (dwork_Q m 0 : {mpoly CR[m.+2]}) B by left.
have HM := @herm1 CR (size (power_matrix B)); have PD := @pd1 CR (size (power_matrix B)).
have sm := sm_poly (@choice_D_ok CR) hV hQ (@fermat_smooth _ _ (@choice_D_ok CR) m [::]).
have pt (x : 'rV[CR]_m.+2) : x != 0 -> peval (dwork_Q m 0) x = 0 -> exists i d, [/\ x 0 i != 0,
    peval (dehom i (dwork_Q m 0)) (affr i x) = 0 & peval ((dehom i (dwork_Q m 0))^`M(d)) (affr i x) != 0].
  move=> x0 Qx; have [i xi] := nonzero_coord x0.
  have Qi : peval (dehom i (dwork_Q m 0)) (affr i x) = 0 by rewrite (dehom_aff HQ xi) Qx mulr0.
  by have [d gd] := some_dep sm Qi; exists i, d.
split.
  have [x [x0 Qx H]] := all_max hB HQ k0 HM PD sm; have [i [d [xi Qi gd]]] := pt x x0 Qx.
  by exists i, d, (affr i x); split=> //; exact: (local_max hB HQ k0 HM PD sm Qx xi gd H).
have [x [x0 Qx H]] := all_min hB HQ k0 HM PD sm; have [i [d [xi Qi gd]]] := pt x x0 Qx.
by exists i, d, (affr i x); split=> //; exact: (local_min hB HQ k0 HM PD sm Qx xi gd H).
Qed.

Lemma fermat_hypotheses : diff_ok (@choice_D CR) /\ exists2 B, basis_full m.+1 k = Ok B &
  [/\ hypersurface (fermat_variety CR m) [::] m m.+2, @defined_by CR (fermat_variety CR m) [::] m (dwork_Q m 0),
      smooth (@choice_D CR) (fermat_variety CR m) [::] m, basis_for k (dwork_Q m 0 : {mpoly CR[m.+2]}) B &
      hermitian (1%:M : 'M[CR]_(size (power_matrix B))) /\ posdef (1%:M : 'M[CR]_(size (power_matrix B)))].
Proof.
split; first exact: choice_D_ok.
have [B [EB _ _ _ _]] := full_class m.+1 k; exists B => //.
split; [exact: fermat_hyp|exact: fermat_defined|apply: fermat_smooth; exact: choice_D_ok|by left|].
by split; [exact: herm1|exact: pd1].
Qed.

Lemma fermat_chart : exists (B : basis) (i : 'I_m.+2) (d : 'I_m.+1) (z : 'rV[CR]_m.+1) (phi : 'rV[CR]_m -> 'rV[CR]_m.+1) x,
  [/\ basis_for k (dwork_Q m 0 : {mpoly CR[m.+2]}) B, (dwork_Q m 0 : {mpoly CR[m.+2]}) \is m.+2.-homog, phi x = z,
      local_parametrisation (peval (dehom i (dwork_Q m 0))) (pgrad (dehom i (dwork_Q m 0))) d phi x &
      peval ((dehom i (dwork_Q m 0))^`M(d)) z != 0].
Proof.
have [B EB [[i [d [z [Qz gz _]]]] _]] := fermat_extrema.
have [phi [phx par _]] := implicit_function Qz gz.
exists B, i, d, z, phi, (others d z); split=> //; first by left.
exact: (V_homog (@fermat_hyp CR m [::]) (@fermat_defined CR m [::])).
Qed.
End Fermat.

Lemma eta_curvature : forall (m k e : nat) (P : {mpoly CR[m.+2]}) (B : basis), basis_for k P B ->
  P \is e.-homog -> (0 < k)%N ->
  forall M : 'M[CR]_(size (power_matrix B)), hermitian M -> posdef M ->
  forall (i : 'I_m.+2) (d : 'I_m.+1) (phi : 'rV[CR]_m -> 'rV[CR]_m.+1) (x : 'rV[CR]_m),
  let o := on_patch k M P i d in
  local_parametrisation (peval (dehom i P)) (pgrad (dehom i P)) d phi x -> peval ((dehom i P)^`M(d)) (phi x) != 0 ->
  exists2 R, ob_ricci_loc (rc PI) (o (phi x)) = Ok R &
    (exists2 r : CR, 0 < r & forall y, norm1 (y - x) < r ->
       exists2 E, ob_eta (rc PI) (o (phi y)) = Ok E & 0 < E) /\
    is_mixed (fun y => - clog (eta_at (rc PI) o (phi y))) x R.
Proof.
move=> m k e P B HB HP k0 M HM pd i d phi x o par gd.
have [R ER [[r r0 H] Hm]] := eta_ricci clog_pos_mul clog_near pi_pos HB HP k0 HM pd erefl par gd.
exists R => //; split=> //; exists r => // y /H; rewrite /eta_at.
by case E: ob_eta => [v|//]; [exists v|rewrite ltxx].
Qed.

Lemma mixed_shift (C : numClosedFieldType) n (c : C) (f : 'rV[C]_n -> C) x (H : 'M[C]_n) :
  is_mixed f x H -> is_mixed (fun y => c + f y) x H.
Proof.
move=> [df [dfc [r [r0 [H1 H2]]]]]; exists df, dfc, r; split=> //; split=> // y /H1 h.
have := wgrad_add (wgrad_const c y) h; apply: wgrad_eq => a; by rewrite add0r.
Qed.

Lemma eta_determines : forall (m k k' e : nat) (P : {mpoly CR[m.+2]}) (B B' : basis),
  basis_for k P B -> basis_for k' P B' -> P \is e.-homog -> (0 < k)%N -> (0 < k')%N ->
  forall (M : 'M[CR]_(size (power_matrix B))) (M' : 'M[CR]_(size (power_matrix B'))),
  hermitian M -> posdef M -> hermitian M' -> posdef M' ->
  forall (i : 'I_m.+2) (d : 'I_m.+1) (z : 'rV[CR]_m.+1) (c r : CR),
  let o := on_patch k M P i d in let o' := on_patch k' M' P i d in
  peval (dehom i P) z = 0 -> peval ((dehom i P)^`M(d)) z != 0 -> 0 < c -> 0 < r ->
  (forall y, norm1 (y - z) < r -> peval (dehom i P) y = 0 -> eta_at (rc PI) o y = c * eta_at (rc PI) o' y) ->
  exists2 R, ob_ricci_loc (rc PI) (o z) = Ok R & ob_ricci_loc (rc PI) (o' z) = Ok R.
Proof.
move=> m k k' e P B B' HB HB' HP k0 k0' M M' HM pd HM' pd' i d z c r o o' Pz gz c0 r0 E.
have [phi [phx par _]] := implicit_function Pz gz; set x := others d z in phx par.
have [R ER [_ Hm]] := eta_ricci clog_pos_mul clog_near pi_pos HB HP k0 HM pd phx par gz.
have [R' ER' [[r1 r10 H1] Hm']] := eta_ricci clog_pos_mul clog_near pi_pos HB' HP k0' HM' pd' phx par gz.
exists R => //; rewrite ER'; congr Ok; apply/matrixP => a b.
have [r2 r20 [_ _ H2]] := par.
have [_ [J HJ]] : peval (dehom i P) (phi x) = 0 /\ exists J, is_jac phi x J by apply: H2; rewrite subrr norm10.
have [r3 r30 H3] := jac_close HJ r0.
have [r4 [r40 l1 l2]] := pos_min r10 r20; have [q [q0 l3 l4]] := pos_min r40 r30.
apply: (mixed_unique _ Hm).
apply: (mixed_near q0 _ (mixed_shift (- clog c) Hm')) => y hy.
rewrite -opprD -clog_pos_mul //; last by apply: H1; apply: lt_le_trans hy (le_trans l3 l1).
congr (- clog _); apply/esym; apply: E; first by rewrite -phx; apply: H3; apply: lt_le_trans hy l4.
by have [] := H2 y (lt_le_trans (lt_le_trans hy l3) l2).
Qed.

Lemma fermat_scaled (m k : nat) (c : CR) : (0 < k)%N -> 0 < c ->
  exists2 B, basis_full m.+1 k = Ok B &
  hermitian (c%:M : 'M[CR]_(size (power_matrix B))) /\ posdef (c%:M : 'M[CR]_(size (power_matrix B))) /\
  forall (i : 'I_m.+2) (d : 'I_m.+1) y, peval (dehom i (dwork_Q m 0)) y = 0 ->
  eta_at (rc PI) (on_patch (B := B) k 1%:M (dwork_Q m 0) i d) y =
  1 * eta_at (rc PI) (on_patch (B := B) k c%:M (dwork_Q m 0) i d) y.
Proof.
move=> k0 c0; have [B [EB _ _ _ _]] := full_class m.+1 k; exists B => //.
have hV := @fermat_hyp CR m [::]; have hQ := @fermat_defined CR m [::]; have HQ := V_homog hV hQ.
have hB : basis_for k (dwork_Q m 0 : {mpoly CR[m.+2]}) B by left.
have HM := @herm1 CR (size (power_matrix B)); have PD := @pd1 CR (size (power_matrix B)).
have sm := sm_poly (@choice_D_ok CR) hV hQ (@fermat_smooth _ _ (@choice_D_ok CR) m [::]).
have cr : c^* = c by apply: conj_Creal; apply: ger0_real; exact: ltW.
split; first by move=> a b; rewrite !mxE eq_sym rmorphMn /= cr.
split.
  move=> v v0; have := PD v v0; rewrite -(pmulr_rgt0 _ c0); congr (_ < _); rewrite /hform mulr_sumr.
  apply: eq_bigr => a _; rewrite mulr_sumr; apply: eq_bigr => b _; rewrite !mxE.
  by case: eqP => _ /=; rewrite ?mulr1 ?mulr0 ?mulr0n ?mulr1n ?mulr0 ?mul0r ?mulr0 // mulrA [v 0 a * c]mulrC.
move=> i d y Py; rewrite mul1r /eta_at.
have p0 : ob_psi (on_patch (B := B) k 1%:M (dwork_Q m 0) i d y) != 0.
  exact/lt0r_neq0/(psi_pos hB HQ k0 HM PD sm Py).
rewrite -(eta_scale (rc PI) (lt0r_neq0 c0) p0 cr) /with_h /=.
by rewrite /on_patch /poly_objects /=; congr (if ob_eta _ (Objects (HMat _) _ _ _ _ _ _ _) is Ok E then E else 0); rewrite scalemx1.
Qed.

Lemma ricci_hermitian : forall (C : numClosedFieldType) (N m : nat) (pi : C) (o : objects C N m) (M : 'M[C]_N),
  o_h o = HMat M -> hermitian M -> (forall s i j, o_s2 o s i j = o_s2 o s j i) -> pi^* = pi ->
  (forall R, ob_ricci_proj pi o = Ok R -> hermitian R) /\ (forall R, ob_ricci_loc pi o = Ok R -> hermitian R) /\
  (forall r, ob_ricci_scalar pi o = Ok r -> r \is Num.real).
Proof.
move=> C N m pi o M Hh HM s2 pir; split; [|split].
- exact: (ricci_proj_herm Hh HM s2 pir).
- exact: (ricci_loc_herm Hh HM s2 pir).
exact: (ricci_scalar_real Hh HM s2 pir).
Qed.

Lemma ricci_signs : forall (D : forall n : nat, ('rV[CR]_n -> CR) -> 'rV[CR]_n -> 'rV[CR]_n), diff_ok D ->
  forall (lg ex : CR -> CR) (m : nat) (V : variety CR) (ps : seq CR) (Q : {mpoly CR[m.+2]}),
  hypersurface V ps m m.+2 -> defined_by V ps Q -> smooth D V ps m ->
  forall (k : nat) (B : basis), basis_for k Q B -> (0 < k)%N ->
  forall M : 'M[CR]_(size (power_matrix B)), hermitian M -> posdef M ->
  let on_V (x : 'rV[CR]_m.+2) := x != 0 /\ v_defining V (row_seq x) (PArr ps) (PatchNone CR) = Ok 0 in
  let eta_of (x : 'rV[CR]_m.+2) := alg_eta D lg ex (rc PI) m V (HMat M) (row_seq x) (PArr ps) None None None in
  let ricci_of (x : 'rV[CR]_m.+2) := alg_ricci D lg ex (rc PI) m V (HMat M) (row_seq x) (PArr ps) None None None in
  let scalar_of (x : 'rV[CR]_m.+2) := alg_ricci_scalar D lg ex (rc PI) m V (HMat M) (row_seq x) (PArr ps) None None None in
  exists x y : 'rV[CR]_m.+2,
  [/\ on_V x, on_V y,
    forall w, on_V w -> exists Ex Ey Ew,
      [/\ eta_of x = Ok Ex, eta_of y = Ok Ey, eta_of w = Ok Ew, 0 < Ey & Ey <= Ew <= Ex],
    exists R i d s, [/\ ricci_of x = Ok (R, i, d), possemidef R, scalar_of x = Ok s & 0 <= s] &
    exists R i d s, [/\ ricci_of y = Ok (R, i, d), possemidef (- R), scalar_of y = Ok s & s <= 0]].
Proof.
move=> D hD lg ex m V ps Q hV hQ sm k B hB k0 M HM pd.
have [x [y [hx hy he h1 h2]]] := global_signs hD lg ex hV hQ sm hB k0 HM pd.
by exists x, y; split=> // w [w0 hw]; exact: he.
Qed.

Lemma fermat_ricci (m k : nat) : (0 < k)%N -> exists (B : basis) (i : 'I_m.+2) (d : 'I_m.+1) (z : 'rV[CR]_m.+1) R r,
  let o := on_patch (B := B) k 1%:M (dwork_Q m 0 : {mpoly CR[m.+2]}) i d z in
  [/\ hermitian (1%:M : 'M[CR]_(size (power_matrix B))), forall s a b, o_s2 o s a b = o_s2 o s b a, (rc PI : CR)^* = rc PI,
      ob_ricci_loc (rc PI) o = Ok R & ob_ricci_scalar (rc PI) o = Ok r].
Proof.
move=> k0; have [B EB [[i [d [z [Qz gz ext]]]] _]] := fermat_extrema m k0.
have hB : basis_for k (dwork_Q m 0 : {mpoly CR[m.+2]}) B by left.
have hV := @fermat_hyp CR m [::]; have hQ := @fermat_defined CR m [::]; have HQ := V_homog hV hQ.
have HM := @herm1 CR (size (power_matrix B)); have PD := @pd1 CR (size (power_matrix B)).
have [R [r [h1 _ h2 _]]] := eta_max_ricci hB HQ k0 HM PD Qz gz ext.
exists B, i, d, z, R, r; split=> //; last exact: pi_conj.
by move=> s a b; rewrite /= mderiv_comm.
Qed.
