(** Sections of bases of monomials: values, and positivity of the metric. *)
From Coq Require Import ZArith Lia.
From mathcomp Require Import all_ssreflect all_algebra.
From mathcomp Require Import ring.
From SsrMultinomials Require Import mpoly.
From Verif Require Import Base ModelUtil ModelProjective ModelBasis ModelDiff ModelGeom Deriv Bridge Wirtinger SpecGeom Herm Herm2
  SpecMon SpecBasis SpecSections ProofBasis3 ProofDiff ProofGeom4 PolyGrad Implicit Implicit2.
Delimit Scope Z_scope with Z.

Set Implicit Arguments.
Unset Strict Implicit.
Unset Printing Implicit Defensive.

Import GRing.Theory Num.Theory Order.POrderTheory.
Local Open Scope ring_scope.

Section Dehom.
Variables (C : numClosedFieldType) (n : nat) (p : 'I_n.+1).

Lemma dehomC c : dehom p (c%:MP : {mpoly C[n.+1]}) = c%:MP.
Proof. by rewrite /dehom mmapC. Qed.
Lemma dehomX i : dehom p ('X_i : {mpoly C[n.+1]}) = if unlift p i is Some a then 'X_a else 1.
Proof. by rewrite /dehom mmapX mmap1U. Qed.
Lemma dehomD P Q : dehom p (P + Q : {mpoly C[n.+1]}) = dehom p P + dehom p Q.
Proof. exact: rmorphD. Qed.
Lemma dehomM P Q : dehom p (P * Q : {mpoly C[n.+1]}) = dehom p P * dehom p Q.
Proof. exact: rmorphM. Qed.
Lemma dehomXn P k : dehom p (P ^+ k : {mpoly C[n.+1]}) = dehom p P ^+ k.
Proof. exact: rmorphX. Qed.
Lemma dehomZ c P : dehom p (c *: P : {mpoly C[n.+1]}) = c *: dehom p P.
Proof. by rewrite -!mul_mpolyC dehomM dehomC. Qed.

Lemma dehom_eval (P : {mpoly C[n.+1]}) (z : 'rV[C]_n) : peval (dehom p P) z = P.@[fun j => homr p z 0 j].
Proof.
elim/mpoly_ring_ind: P => [c|i|P Q IHP IHQ|P Q IHP IHQ].
- by rewrite dehomC /peval !mevalC.
- rewrite dehomX mevalXU; case: unliftP => [a ->|->]; first by rewrite homr_lift /peval mevalXU.
  by rewrite homr_patch /peval -mpolyC1 mevalC.
- by rewrite dehomD mevalD -IHP -IHQ /peval mevalD.
by rewrite dehomM mevalM -IHP -IHQ /peval mevalM.
Qed.

Lemma mono_eval (v : seq nat) (z : 'rV[C]_n) :
  peval (dehom p (mono C n v)) z = monomial_at (affine_to_hom (row_seq z) (Z.of_nat p)) v.
Proof.
rewrite dehom_eval homr_seq -(@meval_mn _ n.+1) ?size_row_seq // /mono.
by apply: meval_eq => j; rewrite nth_row_seq.
Qed.

Lemma sections_poly (lg ex : C -> C) (B : basis) (z : 'rV[C]_n) precompute :
  power_matrix B <> [::] ->
  (forall v, v \in power_matrix B -> is_monomial n.+1 (bdegree B) v) ->
  (~~ precompute -> exp_log_ok lg ex /\ forall i, z 0 i != 0) ->
  basis_call lg ex B (row_seq z) (Some (Z.of_nat p)) precompute =
  Ok [seq peval (section_polys C p s) z | s <- enum 'I_(size (power_matrix B))].
Proof.
move=> B0 hB hp.
have hz : ~~ precompute -> exp_log_ok lg ex /\ forall x, x \in row_seq z -> x != 0.
  move=> /hp[el hz]; split=> // x /(nthP 0)[i]; rewrite size_row_seq => hi <-.
  by rewrite (nth_row_seq _ (Ordinal hi)).
have pn : (p <= n)%N by rewrite -ltnS.
rewrite (@sections_affine C lg ex n B B0 hB (row_seq z) p precompute (size_row_seq z) pn hz).
congr Ok; apply: (@eq_from_nth _ 0) => [|s]; rewrite size_map; first by rewrite size_map size_enum_ord.
move=> hs.
rewrite (nth_map [::]) // (nth_map (Ordinal hs)) ?size_enum_ord // /section_polys.
by rewrite (nth_ord_enum (Ordinal hs) (Ordinal hs)) mono_eval.
Qed.
End Dehom.

(** Sections generating all forms of the degree modulo P *)
Section Generate.
Variables (C : numClosedFieldType) (n : nat) (p : 'I_n.+1).
Variables (k : nat) (P : {mpoly C[n.+1]}) (B : seq (seq nat)).
Hypothesis k0 : (0 < k)%N.
Hypothesis gen : forall f, f \is k.-homog -> exists2 r, supported B r & congruent P f r.
Let Q := dehom p P.

Lemma functional_zero (L : {mpoly C[n]} -> C) :
  (forall f g, L (f + g) = L f + L g) -> (forall c f, L (c *: f) = c * L f) ->
  (forall q, L (q * Q) = 0) -> (forall v, v \in B -> L (dehom p (mono C n v)) = 0) ->
  forall f, f \is k.-homog -> L (dehom p f) = 0.
Proof.
move=> LD LZ LQ LB f /gen[r sr [q ->]].
rewrite dehomD dehomM LD LQ add0r.
rewrite [r]mpolyE.
have L0 : L 0 = 0 by rewrite -(scale0r 0) LZ mul0r.
have -> : L (dehom p (\sum_(m <- msupp r) r@_m *: 'X_[m])) = \sum_(m <- msupp r) r@_m * L (dehom p 'X_[m]).
  elim: (msupp r) => [|m l IH]; rewrite ?big_nil ?big_cons; last by rewrite dehomD LD IH dehomZ LZ.
  by rewrite -mpolyC0 dehomC mpolyC0.
rewrite big1_seq // => m /andP[_ /sr hm].
have -> : ('X_[m] : {mpoly C[n.+1]}) = mono C n m.
  by rewrite /mono; congr 'X_[_]; apply/mnmP => i; rewrite mnmE -mnm_nth.
by rewrite LB // mulr0.
Qed.

Lemma homX i l : ('X_i ^+ l : {mpoly C[n.+1]}) \is l.-homog.
Proof. by rewrite mpolyXn dhomogX /= mdegMn mdeg1 mul1n. Qed.

Lemma dehom_p l : dehom p ('X_p ^+ l : {mpoly C[n.+1]}) = 1.
Proof. by rewrite dehomXn dehomX unlift_none expr1n. Qed.

Lemma dehom_q i : dehom p ('X_p ^+ k.-1 * 'X_(lift p i) : {mpoly C[n.+1]}) = 'X_i.
Proof. by rewrite dehomM dehom_p mul1r dehomX liftK. Qed.

Lemma hom_q i : ('X_p ^+ k.-1 * 'X_(lift p i) : {mpoly C[n.+1]}) \is k.-homog.
Proof.
have := dhomogM (homX p k.-1) (homX (lift p i) 1).
by rewrite expr1 addn1 prednK.
Qed.

Variable z : 'rV[C]_n.
Hypothesis Qz : peval Q z = 0.

Lemma peval1 : peval (1 : {mpoly C[n]}) z = 1.
Proof. by rewrite /peval meval1. Qed.

Lemma some_section : exists s : 'I_(size B), peval (section_polys C p s) z != 0.
Proof.
case: (boolP [exists s : 'I_(size B), peval (section_polys C p s) z != 0]) => [/existsP//|].
rewrite negb_exists => /forallP H.
suff /eqP : peval (dehom p 'X_p ^+ k) z = 0 by rewrite dehomX unlift_none expr1n peval1 oner_eq0.
rewrite -dehomXn; apply: (functional_zero (L := fun f => peval f z)) (homX p k) => [f g|c f|q|v].
- by rewrite /peval mevalD.
- by rewrite /peval mevalZ.
- by rewrite /peval mevalM -/(peval Q z) Qz mulr0.
move=> /(nthP [::])[s hs <-].
by have := H (Ordinal hs); rewrite negbK => /eqP.
Qed.

Lemma pgradE (f : {mpoly C[n]}) (v : 'rV[C]_n) : dotv (pgrad f z) v = \sum_i v 0 i * peval (f^`M(i)) z.
Proof. by rewrite /dotv; apply: eq_bigr => i _; rewrite mxE mulrC. Qed.

Lemma immersion (v : 'rV[C]_n) (c : C) : \sum_i v 0 i * peval (Q^`M(i)) z = 0 ->
  (forall s : 'I_(size B), \sum_i v 0 i * peval ((section_polys C p s)^`M(i)) z = c * peval (section_polys C p s) z) ->
  c = 0 /\ v = 0.
Proof.
move=> vQ H.
pose L (f : {mpoly C[n]}) := \sum_i v 0 i * peval (f^`M(i)) z - c * peval f z.
have LA : forall f, f \is k.-homog -> L (dehom p f) = 0.
  apply: functional_zero => [f g|a f|q|b].
  - rewrite /L /peval mevalD; under eq_bigr do rewrite mderivD mevalD mulrDr.
    by rewrite big_split /=; ring.
  - rewrite /L /peval mevalZ mulrBr; under eq_bigr do rewrite mderivZ mevalZ mulrCA.
    by rewrite -mulr_sumr (mulrCA c).
  - rewrite /L /peval mevalM -/(peval Q z) Qz !mulr0 subr0.
    under eq_bigr do rewrite mderivM mevalD !mevalM -/(peval Q z) Qz mulr0 add0r mulrCA.
    by rewrite -mulr_sumr vQ mulr0.
  move=> /(nthP [::])[s hs <-].
  by apply/eqP; rewrite subr_eq0; apply/eqP; exact: (H (Ordinal hs)).
have c0 : c = 0.
  move: (LA _ (homX p k)); rewrite dehom_p /L peval1 mulr1 => /eqP.
  rewrite subr_eq0 big1 => [/eqP//|i _].
  by rewrite -mpolyC1 mderivC /peval meval0 mulr0.
split=> //; apply/rowP => i; rewrite mxE.
move: (LA _ (hom_q i)); rewrite dehom_q /L c0 mul0r subr0.
rewrite (bigD1 i) //= big1 => [|j ji]; rewrite mderivX mnm1E ?eqxx.
  by rewrite addr0 UsubU mpolyX0 scale1r peval1 mulr1.
by rewrite eq_sym (negbTE ji) scale0r /peval meval0 mulr0.
Qed.
End Generate.

Lemma gen_full (C : numClosedFieldType) n k (B : seq (seq nat)) :
  (forall v, is_monomial n.+1 k v -> v \in B) ->
  forall f : {mpoly C[n.+1]}, f \is k.-homog -> exists2 r, supported B r & congruent 0 f r.
Proof.
move=> H f /dhomogP hf; exists f; last by exists 0; rewrite mul0r add0r.
by move=> m /hf /= mk; apply: H; apply/is_monomialP; rewrite mnm_mons; apply/eqP.
Qed.

Section Metric.
Variables (C : numClosedFieldType) (m k : nat) (p : 'I_m.+2) (B : seq (seq nat)).
Variables (M : 'M[C]_(size B)) (pi : C).
Hypothesis k0 : (0 < k)%N.
Hypothesis HM : hermitian M.
Hypothesis pd : posdef M.
Hypothesis pi0 : 0 < pi.
Variables (z : 'rV[C]_m.+1) (d : 'I_m.+1).

Let ob Q := poly_objects M k (@section_polys C _ p B) Q d z.

Lemma metric_pos_full Q : (forall v, is_monomial m.+2 k v -> v \in B) ->
  0 < ob_psi (ob Q) /\ posdef (gpm pi (ob Q)).
Proof.
move=> /gen_full gen.
have Q0 : peval (dehom p (0 : {mpoly C[m.+2]})) z = 0 by rewrite -mpolyC0 dehomC mpolyC0 /peval meval0.
have [a sa] := some_section (@gen C) Q0.
have s0 : exists a, o_s (ob Q) a != 0 by exists a.
split; first exact: (psi_gt0 (M := M)).
apply/(gpm_pos (M := M)) => // v c H.
have [|_ ->//] := @immersion _ _ p k 0 B k0 (@gen C) z Q0 v c _ H.
rewrite big1 // => i _; by rewrite -mpolyC0 dehomC mpolyC0 mderiv0 /peval meval0 mulr0.
Qed.

Lemma metric_pos_modulo (P : {mpoly C[m.+2]}) :
  (forall f, f \is k.-homog -> exists2 r, supported B r & congruent P f r) ->
  let Q := dehom p P in peval Q z = 0 -> peval (Q^`M(d)) z != 0 ->
  0 < ob_psi (ob Q) /\
  exists g, [/\ ob_g_loc pi (ob Q) = Ok g, posdef g & exists2 e, ob_eta pi (ob Q) = Ok e & 0 < e].
Proof.
move=> gen Q Qz dQ.
have [a sa] := some_section gen Qz.
have s0 : exists a, o_s (ob Q) a != 0 by exists a.
have Edep : o_dep (ob Q) = Some (Z.of_nat d) by [].
have nz : o_grad (ob Q) 0 d != 0 by rewrite /= mxE.
split; first exact: (psi_gt0 (M := M)).
have pdg : posdef (Jm (o_grad (ob Q)) d *m gpm pi (ob Q) *m adjm (Jm (o_grad (ob Q)) d)).
  move=> w w0; rewrite hform_congr; apply: (hform_gpm_pos (M := M)) => // c H.
  move/negP: w0; apply; apply/eqP; apply: (@Jm_inj _ _ (o_grad (ob Q)) d).
  have [|_ ->//] := @immersion _ _ p k P B k0 gen z Qz (w *m Jm (o_grad (ob Q)) d) c _ H.
  have /(congr1 (fun A : 'M_(_, _) => (w *m A) 0 0)) := Jm_ker nz.
  rewrite mulmxA mulmx0 [X in _ = X]mxE => E; rewrite -[RHS]E [RHS]mxE.
  by apply: eq_bigr => i _; rewrite [_^T _ _]mxE [o_grad _ _ _]mxE.
eexists; split; [exact: g_loc_dep | exact: pdg |].
rewrite (eta_dep pi Edep nz) -(vol_lemma _ nz); eexists; first by [].
apply: mulr_gt0; last by rewrite exprn_gt0 // normr_gt0.
exact: posdef_det.
Qed.
End Metric.

Lemma full_positive (C : numClosedFieldType) (m k : nat) (p : 'I_m.+2) (B : basis) :
  basis_full m.+1 k = Ok B -> (0 < k)%N ->
  forall (M : 'M[C]_(size (power_matrix B))) (pi : C), hermitian M -> posdef M -> 0 < pi ->
  forall (Q : {mpoly C[m.+1]}) (d : 'I_m.+1) (z : 'rV[C]_m.+1),
  let o := poly_objects M k (@section_polys C _ p (power_matrix B)) Q d z in
  [/\ 0 < ob_psi o, posdef (\matrix_(i, j) ob_g_proj pi o i j) &
      peval (Q^`M(d)) z != 0 ->
      exists g, [/\ ob_g_loc pi o = Ok g, posdef g & exists2 e, ob_eta pi o = Ok e & 0 < e]].
Proof.
have [B' [E _ _ _ mem]] := full_class m.+1 k; rewrite E => -[E']; subst B' => k0 M pi HM pd pi0 Q d z o.
have [h1 h2] := metric_pos_full p k0 HM pd pi0 z d Q (fun v => (mem v).2); split=> // dQ.
by apply: (@g_loc_pos _ _ _ pi o d) => //; rewrite /o /= mxE.
Qed.

Lemma reduced_positive (C : numClosedFieldType) (m k e : nat) (p : 'I_m.+2) (P : {mpoly C[m.+2]}) (B : basis) :
  P != 0 -> P \is e.-homog -> (forall i, variable_occurs P i) ->
  basis_reduced P k = Ok B -> (0 < k)%N ->
  forall (M : 'M[C]_(size (power_matrix B))) (pi : C), hermitian M -> posdef M -> 0 < pi ->
  let Q := dehom p P in
  forall (d : 'I_m.+1) (z : 'rV[C]_m.+1), peval Q z = 0 -> peval (Q^`M(d)) z != 0 ->
  let o := poly_objects M k (@section_polys C _ p (power_matrix B)) Q d z in
  0 < ob_psi o /\
  exists g, [/\ ob_g_loc pi o = Ok g, posdef g & exists2 x, ob_eta pi o = Ok x & 0 < x].
Proof.
move=> P0 Ph occ.
have [B' [E _ _ _ bm]] := reduced_class_lemma k P0 Ph occ.
rewrite E => -[E']; subst B' => k0 M pi HM pd pi0 Q d z Qz dQ o.
apply: metric_pos_modulo => // f /bm[r [sr cr] _]; by exists r.
Qed.

Lemma class_sections (C : numClosedFieldType) (lg ex : C -> C) (n k : nat) (p : 'I_n.+1) (B : basis) :
  (basis_full n k = Ok B \/ exists (P : {mpoly C[n.+1]}) e, [/\ P != 0, P \is e.-homog,
     forall i, variable_occurs P i, basis_reduced P k = Ok B & power_matrix B <> [::]]) ->
  forall (z : 'rV[C]_n) precompute,
  (~~ precompute -> exp_log_ok lg ex /\ forall i, z 0 i != 0) ->
  basis_call lg ex B (row_seq z) (Some (Z.of_nat p)) precompute =
  Ok [seq peval (section_polys C p s) z | s <- enum 'I_(size (power_matrix B))].
Proof.
case=> [|[P [e [P0 Ph occ EB B0]]]].
  have [B' [E dk B0 _ mem]] := full_class n k; rewrite E => -[E']; subst B'.
  by move=> z pre; apply: sections_poly => // v /mem; rewrite dk.
have [B' [E dk _ mem _]] := reduced_class_lemma k P0 Ph occ.
move: EB; rewrite E => -[E']; subst B'.
by move=> z pre; apply: sections_poly => // v /mem; rewrite dk.
Qed.

(** Instances *)
Section Cubic.
Variable C : numClosedFieldType.
Definition cubic_Q : {mpoly C[2]} := 'X_0 ^+ 3 + 'X_1 ^+ 3 + 1.
Definition cubic_pt : 'rV[C]_2 := \row_i (if i == 0 then -1 else 0).

Lemma cubic_value : peval cubic_Q cubic_pt = 0 /\ peval (cubic_Q^`M(0)) cubic_pt != 0.
Proof.
have E1 : peval ('X_0 : {mpoly C[2]}) cubic_pt = -1 by rewrite /peval mevalXU mxE.
have E2 : peval ('X_1 : {mpoly C[2]}) cubic_pt = 0 by rewrite /peval mevalXU mxE.
split.
  rewrite /cubic_Q /peval !mevalD !rmorphX /= !mevalXU meval1 !mxE /=; ring.
have -> : cubic_Q^`M(0) = 'X_0 ^+ 2 *+ 3 :> {mpoly C[2]}.
  rewrite /cubic_Q !mderivD -mpolyC1 mderivC addr0 !mpolyXn !mderivX !mulmnE !mnm1E /=.
  rewrite scale0r addr0 scaler_nat; congr ('X_[_] *+ 3).
  by apply/mnmP => i; rewrite mnmBE !mulmnE mnm1E; case: eqP.
rewrite /peval mevalMn rmorphX /= mevalXU mxE /=.
by rewrite mulrn_eq0 /= expf_neq0 // oppr_eq0 oner_neq0.
Qed.
End Cubic.

Lemma dehom_value (C : numClosedFieldType) (n : nat) (p : 'I_n.+1) (P : {mpoly C[n.+1]}) (z : 'rV[C]_n) :
  peval (dehom p P) z = P.@[fun j => nth 0 (affine_to_hom (row_seq z) (Z.of_nat p)) j].
Proof. by rewrite dehom_eval homr_seq; apply: meval_eq => j; rewrite nth_row_seq. Qed.

Lemma degree_zero (C : numClosedFieldType) (m : nat) (p : 'I_m.+2) (B : basis) :
  basis_full m.+1 0 = Ok B ->
  forall (M : 'M[C]_(size (power_matrix B))) (Q : {mpoly C[m.+1]}) (d : 'I_m.+1) (z : 'rV[C]_m.+1) i,
  let o := poly_objects M 0 (@section_polys C _ p (power_matrix B)) Q d z in
  ob_psi_h o i = 0 /\ forall j, ob_psi_ha o i j = 0.
Proof.
have [B' [E _ _ _ mem]] := full_class m.+1 0; rewrite E => -[E']; subst B' => M Q d z i o.
have s0 s j : o_s1 o s j = 0.
  rewrite /o /= /section_polys /mono.
  have /mem[sz] : nth [::] (power_matrix B) s \in power_matrix B by exact: mem_nth.
  move/eqP; rewrite sum_nat_eq0 => /forallP h.
  have -> : [multinom nth 0%N (nth [::] (power_matrix B) s) (val j0) | j0 < m.+2] = 0%MM.
    by apply/mnmP => a; rewrite mnmE mnmE; have /= /eqP := h a.
  by rewrite mpolyX0 -mpolyC1 dehomC mderivC /peval meval0.
split=> [|j].
  by rewrite /ob_psi_h /psi_h /=; apply: big1 => a _; apply: big1 => b _; rewrite [peval _ _]s0 !mul0r.
by rewrite /ob_psi_ha /psi_ha /=; apply: big1 => a _; apply: big1 => b _; rewrite [peval _ _]s0 !mul0r.
Qed.
