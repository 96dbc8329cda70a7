(** Metrics of the full basis on a hypersurface are metrics of the reduced basis. *)
From Coq Require Import ZArith Lia.
From mathcomp Require Import all_ssreflect all_algebra.
From mathcomp Require Import zify ssrZ ring.
From SsrMultinomials Require Import mpoly.
From Verif Require Import Base ModelUtil ModelProjective SpecMon ModelBasis ModelGeom ModelVariety ModelDiff ProofUtil ProofProjective
  Bridge Deriv Herm ProofDiff ProofFS SpecGeom SpecBasis SpecSections SpecPatch PolyGrad ProofBasis2 ProofBasis3 ProofSections ProofPatch.
Delimit Scope Z_scope with Z.

Set Implicit Arguments.
Unset Strict Implicit.
Unset Printing Implicit Defensive.

Import GRing.Theory Num.Theory Order.POrderTheory.
Local Open Scope ring_scope.

(** The local metric in terms of sections and their derivatives along the hypersurface *)
Section Form.
Variables (C : numClosedFieldType) (N m : nat) (pi : C) (o : objects C N m) (M : 'M[C]_N) (d : 'I_m.+1).
Hypotheses (oM : o_h o = HMat M) (od : o_dep o = Some (Z.of_nat d)).
Definition orow : 'rV[C]_N := \row_a o_s o a.
Definition omat : 'M[C]_(m.+1, N) := \matrix_(b, a) o_s1 o a b.
Definition otan : 'M[C]_(m, N) := Jm (o_grad o) d *m omat.

Definition loc_form (k : nat) (s : 'rV[C]_N) (U : 'M[C]_(m, N)) : 'M[C]_m :=
  (k%:R * pi)^-1 *: ((hform M s)^-1 *: (U *m M *m adjm U) -
    (hform M s ^+ 2)^-1 *: ((U *m M *m adjm s) *m adjm (U *m M *m adjm s))).

Lemma psi_form : ob_psi o = hform M orow.
Proof. by rewrite /ob_psi oM /hform /=; apply: eq_bigr => a _; apply: eq_bigr => b _; rewrite !mxE. Qed.

Lemma jac_form : ob_jac o = Ok (Jm (o_grad o) d).
Proof. by rewrite /ob_jac /ob_dependent od /= /jac jacobian_embed_rows /= mx_rows_row. Qed.

Lemma loc_formE : ob_g_loc pi o = Ok (loc_form (o_degree o) orow otan).
Proof.
rewrite /ob_g_loc jac_form /=; congr Ok; set J := Jm _ _; set k := o_degree o.
have h1 i : ob_psi_h o i = (omat *m M *m adjm orow) i 0.
  rewrite /ob_psi_h oM /= mxE exchange_big; apply: eq_bigr => b _; rewrite mxE mulr_suml.
  by apply: eq_bigr => a _; rewrite !mxE.
have h2 i j : ob_psi_ha o i j = (omat *m M *m adjm omat) i j.
  rewrite /ob_psi_ha oM /= mxE exchange_big; apply: eq_bigr => b _; rewrite mxE mulr_suml.
  by apply: eq_bigr => a _; rewrite !mxE.
pose G := (k%:R * pi)^-1 *: ((hform M orow)^-1 *: (omat *m M *m adjm omat) -
    (hform M orow ^+ 2)^-1 *: ((omat *m M *m adjm orow) *m adjm (omat *m M *m adjm orow))).
have gE i j : ob_g_proj pi o i j = G i j.
  rewrite /ob_g_proj /g_proj /ob_psi_a /psi_a !h1 h2 psi_form /G -/k.
  rewrite [RHS]mxE [X in _ = _ * X]mxE [X in _ = _ * (X + _)]mxE [X in _ = _ * (_ + X)]mxE [X in _ = _ * (_ - X)]mxE.
  rewrite [X in _ = _ * (_ - _ * X)]mxE big_ord1 adjmE.
  by rewrite mulrC; congr (_ * (_ - _)); rewrite mulrC.
have -> : g_loc (ob_g_proj pi o) J (jac_c J) = J *m G *m adjm J.
  apply/matrixP => r s; rewrite [LHS]mxE [RHS]mxE exchange_big; apply: eq_bigr => j _.
  rewrite [(J *m G) r j]mxE mulr_suml; apply: eq_bigr => i _; rewrite gE adjmE.
  by rewrite [jac_c J s j]mxE.
rewrite /loc_form /otan /G -/J -scalemxAr -scalemxAl; congr (_ *: _).
rewrite mulmxBr mulmxBl -!scalemxAr -!scalemxAl; congr (_ *: _ - _ *: _); by rewrite !adjm_mul !mulmxA.
Qed.

End Form.

Section Reduce.
Variables (C : numClosedFieldType) (m k e : nat) (P : {mpoly C[m.+2]}) (F B : basis).
Hypotheses (P0 : P != 0) (Ph : P \is e.-homog) (occ : forall i, variable_occurs P i).
Hypotheses (hF : basis_full m.+1 k = Ok F) (hB : basis_reduced P k = Ok B).
Notation NF := (size (power_matrix F)).
Notation N := (size (power_matrix B)).
Let mo (A : basis) (a : nat) : {mpoly C[m.+2]} := mono C m.+1 (nth [::] (power_matrix A) a).

Lemma red_facts : [/\ uniq (power_matrix B), forall v, v \in power_matrix B -> is_monomial m.+2 k v & basis_modulo k P (power_matrix B)].
Proof.
by have [B' []] := reduced_class_lemma k P0 Ph occ; rewrite hB => -[<-].
Qed.

Lemma full_mem v : v \in power_matrix F <-> is_monomial m.+2 k v.
Proof. by have [F' []] := full_class m.+1 k; rewrite hF => -[<-] _ _ _. Qed.

Lemma red_one (t : 'I_NF) : exists cq : ('I_N -> C) * {mpoly C[m.+2]},
  mo F t = cq.2 * P + \sum_(s : 'I_N) cq.1 s *: mo B s /\
  forall s0 : 'I_N, nth [::] (power_matrix B) s0 = nth [::] (power_matrix F) t -> forall s, cq.1 s = (s == s0)%:R.
Proof.
have [uB sB bm] := red_facts.
have hom : mo F t \is k.-homog by apply: (@class_homog C m.+1 k F); left.
have [r [sr [q E]] un] := bm _ hom.
have szB : all (fun v => size v == m.+2) (power_matrix B) by apply/allP => v /sB[-> _].
have rE := supported_sum uB szB sr.
exists (fun s : 'I_N => r@_(mn m.+2 (nth [::] (power_matrix B) s)), q) => /=; split.
  by rewrite E {1}rE (big_nth [::]) big_mkord.
move=> s0 e0 s.
have rm : mo F t = r.
  apply: un; last by exists 0; rewrite mul0r add0r.
  move=> u; rewrite /mo /mono msuppX inE => /eqP ->; rewrite -e0.
  by rewrite -/(mn m.+2 _) mnK ?mem_nth //; have [] := sB _ (mem_nth [::] (ltn_ord s0)).
rewrite -rm /mo -e0 /mono mcoeffX -/(mn m.+2 _); congr (_%:R); apply: congr1; apply/eqP/eqP => [|->] //.
move=> /(congr1 (fun u : 'X_{1..m.+2} => (u : seq nat))); rewrite !mnK.
- by move/eqP; rewrite nth_uniq // => /eqP/val_inj.
- by have [] := sB _ (mem_nth [::] (ltn_ord s)).
by have [] := sB _ (mem_nth [::] (ltn_ord s0)).
Qed.

Lemma red_matrix : exists (T : 'M[C]_(N, NF)) (q : 'I_NF -> {mpoly C[m.+2]}),
  (forall t : 'I_NF, mo F t = q t * P + \sum_(s : 'I_N) T s t *: mo B s) /\ forall v : 'rV[C]_N, v *m T = 0 -> v = 0.
Proof.
have [f Hf] := fin_all_exists red_one.
exists (\matrix_(s, t) (f t).1 s), (fun t => (f t).2); split=> [t|v /rowP v0].
  by rewrite {1}(Hf t).1; congr (_ + _); apply: eq_bigr => s _; rewrite mxE.
have [uB sB _] := red_facts.
apply/rowP => s0; rewrite mxE.
have ht : nth [::] (power_matrix B) s0 \in power_matrix F by apply/full_mem/sB/mem_nth.
have it : (index (nth [::] (power_matrix B) s0) (power_matrix F) < NF)%N by rewrite index_mem.
have := v0 (Ordinal it); rewrite !mxE (bigD1 s0) //= big1 => [|s ss].
  by rewrite mxE ((Hf _).2 s0) ?eqxx ?mulr1 ?addr0 //= nth_index.
by rewrite mxE ((Hf _).2 s0) ?(negPf ss) ?mulr0 //= nth_index.
Qed.

Variable T : 'M[C]_(N, NF).
Variable q : 'I_NF -> {mpoly C[m.+2]}.
Hypothesis HT : forall t : 'I_NF, mo F t = q t * P + \sum_(s : 'I_N) T s t *: mo B s.

Lemma sec_red p (t : 'I_NF) : section_polys C p t = dehom p (q t) * dehom p P + \sum_s T s t *: section_polys C p s.
Proof.
have d0 : dehom p (0 : {mpoly C[m.+2]}) = 0 by rewrite -[0]/((0 : C)%:MP) dehomC.
rewrite /section_polys -/(mo F t) HT dehomD dehomM; congr (_ + _).
by rewrite (big_morph _ (dehomD p) d0); apply: eq_bigr => s _; rewrite dehomZ.
Qed.

Variables (pi : C) (h : 'M[C]_NF) (p : 'I_m.+2) (d : 'I_m.+1) (z : 'rV[C]_m.+1).
Hypotheses (z0 : peval (dehom p P) z = 0) (zd : peval ((dehom p P)^`M(d)) z != 0).
Let o := on_patch k h P p d z.
Let o' := on_patch k (T *m h *m adjm T) P p d z.

Lemma row_red : orow o = orow o' *m T.
Proof.
apply/rowP => t; rewrite [LHS]mxE /= sec_red /peval mevalD mevalM [(dehom p P).@[_]]z0 mulr0 add0r raddf_sum mxE.
by apply: eq_bigr => s _; rewrite /= mevalZ mulrC !mxE.
Qed.

Lemma tan_red : otan o d = otan o' d *m T.
Proof.
pose c : 'rV[C]_NF := \row_t peval (dehom p (q t)) z.
have -> : otan o d = Jm (pgrad (dehom p P) z) d *m ((pgrad (dehom p P) z)^T *m c + omat o' *m T).
  congr (_ *m _); apply/matrixP => b t; rewrite [LHS]mxE /= sec_red mderivD mderivM /peval mevalD mevalD !mevalM [(dehom p P).@[_]]z0.
  rewrite mulr0 add0r [RHS]mxE; congr (_ + _).
    by rewrite mxE big_ord1 !mxE mulrC.
  have -> : (\sum_s T s t *: section_polys C p s)^`M(b) = \sum_s T s t *: (section_polys C p s)^`M(b).
    by rewrite raddf_sum; apply: eq_bigr => s _; rewrite /= mderivZ.
  rewrite raddf_sum mxE /=; apply: eq_bigr => s _; by rewrite mevalZ mulrC !mxE.
rewrite mulmxDr mulmxA Jm_ker ?mul0mx ?add0r ?mulmxA //.
by rewrite mxE.
Qed.

Lemma psi_red : ob_psi o = ob_psi o'.
Proof. by rewrite (psi_form (M := h)) // (psi_form (M := T *m h *m adjm T)) // row_red hform_congr. Qed.

Lemma g_red : ob_g_loc pi o = ob_g_loc pi o'.
Proof.
rewrite (loc_formE pi (M := h) (d := d)) // (loc_formE pi (M := T *m h *m adjm T) (d := d)) //; congr Ok.
rewrite /loc_form tan_red row_red hform_congr; congr (_ *: (_ *: _ - _ *: _)); by rewrite !adjm_mul !mulmxA.
Qed.

Lemma eta_red : ob_eta pi o = ob_eta pi o'.
Proof. by rewrite /ob_eta g_red. Qed.
End Reduce.
