(** AlgebraicMetric: the objects built from code are those of the polynomials. *)
From Coq Require Import ZArith Lia FunctionalExtensionality.
From mathcomp Require Import all_ssreflect all_algebra.
From mathcomp Require Import zify ssrZ.
From SsrMultinomials Require Import mpoly.
From Verif Require Import Base ModelUtil ModelProjective ModelDiff ModelExpr ModelPoly ModelHom ModelVariety ModelBasis ModelGeom ModelAlg.
From Verif Require Import SpecPoly SpecHom SpecVariety SpecGeom SpecBasis SpecSections SpecPatch SpecAlg Herm.
From Verif Require Import Deriv Wirtinger Bridge PolyGrad ProofUtil ProofProjective ProofDiff ProofDiff2 ProofSections ProofPatch ProofRicci2 ProofHom ProofHom2 ProofBasis3 ProofPolyExpr.
Delimit Scope Z_scope with Z.

Set Implicit Arguments.
Unset Strict Implicit.
Unset Printing Implicit Defensive.

Import GRing.Theory Num.Theory Order.POrderTheory.
Local Open Scope ring_scope.
#[local] Hint Extern 0 (is_true (0 < _)) => solve [apply: ltr01 | apply: ltr0Sn] : core.

Section Rescale.
Variable C : numClosedFieldType.

Lemma argmax_from_scale (c x : C) ib i s : 0 < c ->
  argmax_from (c * x) ib i [seq c * y | y <- s] = argmax_from x ib i s.
Proof. by move=> c0; elim: s x ib i => [//|y s IH] x ib i /=; rewrite ltr_pmul2l // !IH. Qed.

Lemma argmax_scale (c : C) s : c != 0 -> argmax [seq `|x| | x <- [seq c * x | x <- s]] = argmax [seq `|x| | x <- s].
Proof.
move=> c0; have cp : 0 < `|c| by rewrite normr_gt0.
have -> : [seq `|x| | x <- [seq c * x | x <- s]] = [seq `|c| * x | x <- [seq `|x| | x <- s]].
  by rewrite -!map_comp; apply: eq_map => x /=; rewrite normrM.
by case: s => [//|x s] /=; rewrite argmax_from_scale.
Qed.

Lemma map_del (T U : Type) (f : T -> U) s p : map f (del s p) = del (map f s) p.
Proof. by rewrite /del map_cat map_take map_drop. Qed.

Lemma auto_scale (c : C) s : c != 0 -> hom_to_affine_auto [seq c * x | x <- s] = hom_to_affine_auto s.
Proof.
move=> c0; rewrite /hom_to_affine_auto argmax_scale //.
have [->|s0] := eqVneq s [::]; first by [].
have ne : [seq `|x| | x <- s] != [::] by case: s s0.
have re y : y \in [seq `|x| | x <- s] -> y \is Num.real by move=> /mapP[x _ ->]; exact: normr_real.
have [p [-> [pn _ _]]] := argmaxP ne re; rewrite size_map in pn => /=.
rewrite !hom_to_affineE ?size_map //= -map_del -map_comp (nth_map 0) //.
congr (Ok (_, _)); apply: eq_map => x /=.
by rewrite -mulf_div divff // mul1r.
Qed.
End Rescale.

(** The polynomials of the predefined varieties *)
Section Predefined.
Variables (C : numClosedFieldType) (m : nat).

Definition dwork_Q (c : C) : {mpoly C[m.+2]} := \sum_i 'X_i ^+ m.+2 + c *: \prod_i 'X_i.

Lemma big_row_seq (R : Type) (idx : R) (op : Monoid.com_law idx) n (z : 'rV[C]_n) (f : C -> R) :
  \big[op/idx]_(x <- row_seq z) f x = \big[op/idx]_(i < n) f (z 0 i).
Proof. by rewrite /row_seq big_map big_enum. Qed.

Lemma dwork_Q_eval c z : peval (dwork_Q c) z = \sum_i z 0 i ^+ m.+2 + c * \prod_i z 0 i.
Proof.
rewrite /dwork_Q /peval mevalD mevalZ raddf_sum rmorph_prod /=; congr (_ + c * _).
  by apply: eq_bigr => i _; rewrite rmorphX /= mevalXU.
by apply: eq_bigr => i _; rewrite mevalXU.
Qed.

Lemma dwork_Q_homog c : dwork_Q c \is (m.+2).-homog.
Proof.
apply: peval_homog => x z; rewrite !dwork_Q_eval mulrDr mulr_sumr; congr (_ + _).
  by apply: eq_bigr => i _; rewrite mxE exprMn.
rewrite mulrCA; congr (c * _); rewrite (eq_bigr (fun i => x * z 0 i)) => [|i _]; last by rewrite mxE.
by rewrite big_split /= prodr_const card_ord.
Qed.

Lemma dwork_Q_dehom c (p : 'I_m.+2) z : peval (dehom p (dwork_Q c)) z =
  1 + (\sum_i z 0 i ^+ m.+2 + c * \prod_i z 0 i).
Proof.
have -> : peval (dehom p (dwork_Q c)) z = peval (dwork_Q c) (homr p z).
  by rewrite dehom_eval; apply: meval_eq.
rewrite dwork_Q_eval (bigD1_ord p) //= (bigD1_ord p (F := fun i => homr p z 0 i)) //= homr_patch expr1n mul1r addrA.
by congr (_ + _ + c * _); apply: eq_bigr => i _; rewrite homr_lift.
Qed.

Lemma dwork_mpoly f c : exists Q : {mpoly C[m.+2]},
  [/\ defined_by (dwork_variety m f) [:: c] Q, Q \is (m.+2).-homog &
      forall (p : 'I_m.+2) z, v_defining (dwork_variety m f) (row_seq z) (PArr [:: c]) (PatchInt C (Z.of_nat p)) =
        Ok (peval (dehom p Q) z)].
Proof.
exists (dwork_Q (dwork_factor_value f * c)); split; [|exact: dwork_Q_homog|] => [z|p z] /=.
  by rewrite /dwork_call size_row_seq addn0 eqxx /= dwork_Q_eval !big_row_seq.
by rewrite /dwork_call size_row_seq addn1 eqxx /= dwork_Q_dehom !big_row_seq.
Qed.

Lemma fermat_mpoly ps : exists Q : {mpoly C[m.+2]},
  [/\ defined_by (fermat_variety C m) ps Q, Q \is (m.+2).-homog &
      forall (p : 'I_m.+2) z, v_defining (fermat_variety C m) (row_seq z) (PArr ps) (PatchInt C (Z.of_nat p)) =
        Ok (peval (dehom p Q) z)].
Proof.
exists (dwork_Q 0); split; [|exact: dwork_Q_homog|] => [z|p z] /=.
  by rewrite /fermat_call size_row_seq addn0 eqxx /= dwork_Q_eval mul0r addr0 !big_row_seq.
by rewrite /fermat_call size_row_seq addn1 eqxx /= dwork_Q_dehom mul0r addr0 !big_row_seq.
Qed.
End Predefined.

Section Objects.
Variable C : numClosedFieldType.
Variable D : forall n : nat, ('rV[C]_n -> C) -> 'rV[C]_n -> 'rV[C]_n.
Hypothesis hD : diff_ok D.
Variables (lg ex : C -> C) (pi : C) (m e : nat).
Variables (V : variety C) (ps : seq C) (Q : {mpoly C[m.+2]}).
Hypotheses (hV : hypersurface V ps m e) (hQ : defined_by V ps Q).

Lemma V_dim : v_coordinates V = Ok m.+2.
Proof.
case: hV => [[norm [P [H [_ [_ hi Ev Ei _]]]]]|[f [c [-> _ _]]]|[-> _]] //.
have [hE _] := init_ok norm hi; move: Ev; rewrite /variety_init; case: rassert => //= _ [<-] /=.
by rewrite hE /dim_complex Ei /= size_map size_iota.
Qed.

Lemma V_poly : exists Q : {mpoly C[m.+2]},
  [/\ defined_by V ps Q, Q \is e.-homog &
      forall (p : 'I_m.+2) z, v_defining V (row_seq z) (PArr ps) (PatchInt C (Z.of_nat p)) = Ok (peval (dehom p Q) z)].
Proof.
case: hV => [[norm [P [H [nk [[hP he] hi Ev Ei sp]]]]]|[f [c [-> -> ->]]]|[-> ->]].
- have [Q' [E1 E2 _ hom]] := defining_mpoly nk hP hi Ei sp; move: Ev; rewrite /variety_init; case: rassert => //= _ [<-].
  by exists Q'; split=> //; exact: hom.
- exact: dwork_mpoly.
exact: fermat_mpoly.
Qed.

Lemma V_unique Q' : defined_by V ps Q' -> Q' = Q.
Proof. by move=> H; apply: peval_inj => z; have := H z; rewrite hQ => -[->]. Qed.

Lemma V_homog : Q \is e.-homog.
Proof. by have [Q' [/V_unique -> ]] := V_poly. Qed.

Lemma V_patch (p : 'I_m.+2) z : v_defining V (row_seq z) (PArr ps) (PatchInt C (Z.of_nat p)) = Ok (peval (dehom p Q) z).
Proof. by have [Q' [/V_unique -> _]] := V_poly. Qed.

Lemma D_poly n f (p : {mpoly C[n]}) z : (forall y, f y = peval p y) -> @D n f z = pgrad p z.
Proof. by move=> E; apply: hD; apply: is_grad_ext (poly_grad p z) => y; rewrite E. Qed.

Lemma grad_code (p : 'I_m.+2) z :
  v_grad_defining D V (row_seq z) (PArr ps) (PatchInt C (Z.of_nat p)) = Ok (row_seq (pgrad (dehom p Q) z)).
Proof.
rewrite /v_grad_defining /grad_defining V_patch /= /grad_fn size_row_seq row_seqK; congr (Ok (row_seq _)).
by apply: D_poly => y; rewrite V_patch.
Qed.

Lemma jac_code (p : 'I_m.+2) (d : 'I_m.+1) z :
  v_jacobian_embed D V (row_seq z) (PArr ps) (PatchInt C (Z.of_nat p)) (Some (Z.of_nat d)) =
  Ok ([seq row_seq (row r (Jm (pgrad (dehom p Q) z) d)) | r <- enum 'I_m], None).
Proof. by rewrite /v_jacobian_embed grad_code /= jacobian_embed_rows. Qed.

Lemma jac_h_code (p : 'I_m.+2) (d : 'I_m.+1) z q i a : peval ((dehom p Q)^`M(d)) z != 0 ->
  alg_jac_h D V (PArr ps) (Z.of_nat p) (Z.of_nat d) z q i a =
  if i == d then pquot (dehom p Q) d (lift d q) a z else 0.
Proof.
move=> nz; pose o := @poly_objects C 0 m 0 0 (fun=> 0) (dehom p Q) d.
have [_ [r r0 /(_ z)]] := @poly_embedding C 0 m 0 0 (fun=> 0) (dehom p Q) d z nz.
rewrite subrr norm10 => /(_ r0)[_ _ /(_ q i) H _]; rewrite /alg_jac_h.
have -> : @D m.+1 (fun y => mx_rows m m.+1 (res_or [::] (rmap fst (v_jacobian_embed D V (row_seq y) (PArr ps)
    (PatchInt C (Z.of_nat p)) (Some (Z.of_nat d))))) q i) z = \row_a o_jach (o z) q i a.
  apply: hD; apply: is_grad_ext H => y; rewrite jac_code /= mx_rows_row.
  by rewrite /ob_jac /= /jac jacobian_embed_rows /= mx_rows_row.
by rewrite mxE.
Qed.

Variables (k : nat) (B : basis).
Hypotheses (hB : basis_class C m.+1 k B) (B0 : power_matrix B <> [::]).
Notation N := (size (power_matrix B)).

Lemma class_degree : bdegree B = k.
Proof.
case: hB => [|[P [e' [P0 Ph occ]]]].
  by have [B' [E dk _ _ _]] := full_class m.+1 k; rewrite E => -[E']; subst B'.
by have [B' [E dk _ _ _]] := reduced_class_lemma k P0 Ph occ; rewrite E => -[E']; subst B'.
Qed.

Lemma sections_code (p : 'I_m.+2) z : alg_sections lg ex B (Z.of_nat p) z =
  Ok [seq peval (section_polys C p s) z | s <- enum 'I_N].
Proof.
apply: (@class_sections C lg ex m.+1 k p B) => //; case: hB => [H|[P [e' [P0 Ph occ EB]]]]; [by left|right].
by exists P, e'; split.
Qed.

Lemma s_code (p : 'I_m.+2) (s : 'I_N) z : alg_s lg ex (Z.of_nat p) s z = peval (section_polys C p s) z.
Proof. by rewrite /alg_s sections_code /= (nth_map s) ?size_enum_ord // nth_ord_enum. Qed.

Lemma s1_code (p : 'I_m.+2) (s : 'I_N) i z :
  alg_s1 D lg ex (Z.of_nat p) s i z = peval ((section_polys C p s)^`M(i)) z.
Proof.
rewrite /alg_s1 (@D_poly _ _ (section_polys C p s)) => [|y]; last exact: s_code.
by rewrite mxE.
Qed.

Lemma s2_code (p : 'I_m.+2) (s : 'I_N) i j z :
  alg_s2 D lg ex (Z.of_nat p) s i j z = peval ((section_polys C p s)^`M(i)^`M(j)) z.
Proof.
rewrite /alg_s2 (@D_poly _ _ ((section_polys C p s)^`M(i))) => [|y]; last exact: s1_code.
by rewrite mxE.
Qed.

Variable M : 'M[C]_N.

Lemma point_code (p : 'I_m.+2) (z : 'rV[C]_m.+1) :
  alg_point m V (row_seq z) (Some (Z.of_nat p)) = Ok (z, Z.of_nat p).
Proof. by rewrite /alg_point /= /v_dim_projective V_dim /= size_row_seq eqxx /= row_seqK. Qed.

Lemma objects_gen (p : 'I_m.+2) z g dep (d : 'I_m.+1) : choose_dependent (row_seq (pgrad (dehom p Q) z)) dep = Ok (Z.of_nat d) ->
  (g = None \/ g = Some (pgrad (dehom p Q) z)) ->
  peval ((dehom p Q)^`M(d)) z != 0 ->
  alg_objects D lg ex m V (HMat M) (row_seq z) (PArr ps) (Some (Z.of_nat p)) g dep =
  Ok (on_patch k M Q p d z, Z.of_nat p).
Proof.
move=> Hd Hg nz; rewrite /alg_objects point_code /= sections_code /=.
have -> : alg_grad D V (PArr ps) g (Z.of_nat p) z = Ok (pgrad (dehom p Q) z).
  by case: Hg => ->; rewrite /alg_grad ?grad_code //= row_seqK.
rewrite /= Hd /=; congr (Ok (_, _)); rewrite /on_patch /poly_objects class_degree; congr Objects.
- by apply: functional_extensionality => s; rewrite (nth_map s) ?size_enum_ord // nth_ord_enum.
- by do 2 apply: functional_extensionality => ?; rewrite s1_code.
- by do 3 apply: functional_extensionality => ?; rewrite s2_code.
by do 3 apply: functional_extensionality => ?; rewrite jac_h_code.
Qed.
End Objects.
