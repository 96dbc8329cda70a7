(** Unitary changes of the homogeneous coordinates: weights and Donaldson steps. *)
From Coq Require Import ZArith Lia.
From mathcomp Require Import all_ssreflect all_algebra all_fingroup.
From mathcomp Require Import zify ssrZ ring.
From SsrMultinomials Require Import mpoly.
From Verif Require Import Base ModelUtil ModelVariety ModelBasis ModelDonaldson ModelAlg ModelPipe.
From Verif Require Import SpecGeom SpecBasis SpecSections SpecPatch SpecAlg SpecDonaldson SpecPipe SpecStep SpecSymmetry Herm.
From Verif Require Import Deriv Bridge PolyGrad ProofPatch ProofAlg ProofAlg2 ProofAlg6 ProofPipe ProofPipe2 ProofPipe3 ProofStep ProofStep2 ProofDonaldson2 ProofSymmetry ProofSymmetry2.
From Verif Require Import SpecLinear ProofLinear ProofLinear2 ProofLinear3.
Delimit Scope Z_scope with Z.

Set Implicit Arguments.
Unset Strict Implicit.
Unset Printing Implicit Defensive.

Import GRing.Theory Num.Theory Order.POrderTheory.
Local Open Scope ring_scope.

Section Weight.
Variables (C : numClosedFieldType) (m : nat) (A : 'M[C]_m.+2) (Q Q' : {mpoly C[m.+2]}).
Hypothesis UA : unitary A.
Hypothesis QQ : forall x, peval Q' x = peval Q (x *m A).

Lemma unitary_unit : A \in unitmx.
Proof. by have [] := mulmx1_unit UA. Qed.

Lemma unitary_back (x : 'rV[C]_m.+2) : x *m A *m adjm A = x.
Proof. by rewrite -mulmxA UA mulmx1. Qed.

Lemma len2E (x : 'rV[C]_m.+2) : len2 x = (x *m adjm x) 0 0.
Proof. by rewrite mxE; apply: eq_bigr => a _; rewrite adjmE normCK. Qed.

Lemma len2_lin (x : 'rV[C]_m.+2) : len2 (x *m A) = len2 x.
Proof. by rewrite !len2E adjm_mul mulmxA unitary_back. Qed.

Lemma pgrad_hom (x : 'rV[C]_m.+2) : pgrad Q' x = pgrad Q (x *m A) *m A^T.
Proof.
have J : is_jac (fun y : 'rV[C]_m.+2 => y *m A) x A.
  move=> c; apply: (@is_grad_ext _ _ (fun y : 'rV[C]_m.+2 => \sum_l A l c * y 0 l)).
    by move=> y; rewrite mxE; apply: eq_bigr => l _; rewrite mulrC.
  have H : is_grad (fun y : 'rV[C]_m.+2 => \sum_l A l c * y 0 l) x (\sum_l A l c *: delta_mx 0 l).
    by apply: is_grad_sum => l _; apply: is_grad_scale; exact: is_grad_coord.
  apply: is_grad_eq H; apply/rowP => a; rewrite summxE [RHS]mxE (bigD1 a) //= !mxE !eqxx mulr1 big1 ?addr0 // => l la.
  by rewrite !mxE eqxx eq_sym (negbTE la) mulr0.
have G := is_grad_comp J (poly_grad Q (x *m A)).
rewrite -(is_grad_unique G (is_grad_ext QQ (poly_grad Q' x))).
by apply/rowP => a; rewrite !mxE; apply: eq_bigr => b _; rewrite !mxE mulrC.
Qed.

Lemma grad2_lin (x : 'rV[C]_m.+2) : grad2 Q' x = grad2 Q (x *m A).
Proof.
have G (P : {mpoly C[m.+2]}) y : grad2 P y = (pgrad P y *m adjm (pgrad P y)) 0 0.
  by rewrite mxE; apply: eq_bigr => a _; rewrite adjmE !mxE normCK.
have AT : A^T *m adjm A^T = 1%:M.
  have E : adjm A *m A = 1%:M by exact: mulmx1C UA.
  have -> : adjm A^T = (adjm A)^T by apply/matrixP => a b; rewrite !mxE.
  by rewrite -trmx_mul E trmx1.
by rewrite !G pgrad_hom adjm_mul mulmxA -[_ *m A^T *m _]mulmxA AT mulmx1.
Qed.

Lemma max_coord (x : 'rV[C]_m.+2) : exists i, forall j, `|x 0 j| <= `|x 0 i|.
Proof.
have : forall s : seq 'I_m.+2, s != [::] -> exists i, forall j, j \in s -> `|x 0 j| <= `|x 0 i|.
  elim=> [//|a s IH] _; have [->|s0] := eqVneq s [::]; first by exists a => j; rewrite inE => /eqP ->.
  have [b hb] := IH s0; have [le|le] := real_leP (normr_real (x 0 a)) (normr_real (x 0 b)).
    by exists b => j; rewrite inE => /predU1P[->|/hb].
  exists a => j; rewrite inE => /predU1P[->//|/hb jb]; exact: le_trans jb (ltW le).
move=> /(_ (enum 'I_m.+2)); case: (enum 'I_m.+2) (mem_enum 'I_m.+2) => [E|a s E /(_ isT)[b hb]].
  by have := E 0; rewrite inE.
by exists b => j; apply: hb; rewrite E.
Qed.

Lemma max_nz (x : 'rV[C]_m.+2) i : x != 0 -> (forall j, `|x 0 j| <= `|x 0 i|) -> x 0 i != 0.
Proof.
move=> x0 H; apply: contra_neq x0 => xi; apply/rowP => j; rewrite mxE; apply/eqP.
by have := H j; rewrite xi normr0 normr_le0.
Qed.

Lemma weight_lin pi (x : 'rV[C]_m.+2) w : has_weight pi m.+2 Q' (row_seq x) w ->
  has_weight pi m.+2 Q (row_seq (x *m A)) w.
Proof.
move=> [x' [i [xx le xi ->]]]; have {xx} xE : x = x' by apply/rowP => j; rewrite -!nth_row_seq xx.
subst x'; have [j jm] := max_coord (x *m A).
have y0 : x *m A != 0.
  apply: contra_neq xi => E; have := unitary_back x; rewrite E mul0mx => /rowP/(_ i); by rewrite mxE => <-.
have yj := max_nz y0 jm.
exists (x *m A), j; split=> //.
rewrite /patch_weight len2_lin -grad2_lin !divff // expf_neq0 // normr_eq0 //.
Qed.
End Weight.

Section Steps.
Variable C : numClosedFieldType.
Variable D : forall n : nat, ('rV[C]_n -> C) -> 'rV[C]_n -> 'rV[C]_n.
Hypothesis hD : diff_ok D.
Variables (lg ex : C -> C) (pi : C) (m : nat) (V V' : variety C) (ps ps' : seq C) (Q Q' : {mpoly C[m.+2]}).
Hypotheses (hV : hypersurface V ps m m.+2) (hQ : defined_by V ps Q) (hV' : hypersurface V' ps' m m.+2) (hQ' : defined_by V' ps' Q').
Hypothesis pi0 : 0 < pi.
Hypotheses (hS : smooth D V ps m) (hS' : smooth D V' ps' m).
Variable A : 'M[C]_m.+2.
Hypothesis UA : unitary A.
Hypothesis QQ : forall x, peval Q' x = peval Q (x *m A).
Variables (key : Type) (draw draw' : key -> seq C -> nat -> res (seq (seq C))) (splitn : key -> nat -> seq key).
Variables (k : nat) (B : basis).
Hypotheses (EB : basis_full m.+1 k = Ok B) (k0 : (0 < k)%N).
Notation N := (size (power_matrix B)).
Variable R : 'M[C]_N.
Hypothesis AR : lin_sections A R.
Variables (kk : key) (batches bs : nat) (zss : seq (seq (seq C))) (W : seq C -> C).
Hypothesis Hd' : rseq [seq draw' k' ps' bs | k' <- splitn kk batches] = Ok zss.
Hypothesis Hd : rseq [seq draw k' ps bs | k' <- splitn kk batches] = Ok [seq lin_points A zs | zs <- zss].
Hypothesis Hz : forall zs, zs \in zss -> size zs = bs /\ points_on V' ps' m zs.
Hypothesis HW : forall z, z \in flatten zss -> has_weight pi m.+2 Q' z (W z).
Hypothesis sp : forall v : 'rV[C]_N, v != 0 -> exists2 z, z \in flatten zss & \sum_a v 0 a * hom_sections B z 0 a != 0.
Hypotheses (ne : zss != [::]) (bs0 : (0 < bs)%N).

Let zss2 := [seq lin_points A zs | zs <- zss].
Let mvA (z : seq C) : seq C := row_seq (seq_row m.+2 z *m A).
Let W2 (z : seq C) : C := W (row_seq (seq_row m.+2 z *m adjm A)).

Lemma R_unit : R \in unitmx.
Proof. by have [R' [u _ E]] := lin_unit EB (unitary_unit UA); rewrite (E _ AR). Qed.

Lemma flat2 : flatten zss2 = map mvA (flatten zss).
Proof. by rewrite map_flatten. Qed.

Lemma form z : z \in flatten zss -> exists x : 'rV[C]_m.+2, [/\ z = row_seq x, x != 0 & peval Q' x = 0].
Proof.
move=> /flattenP[zs zi zz]; have [_ /(_ _ zz)[x [E x0 hx]]] := Hz zi; exists x; split=> //.
by move: hx; rewrite E hQ' => -[].
Qed.

Lemma back z : z \in flatten zss -> W2 (mvA z) = W z.
Proof. by move=> /form[x [-> _ _]]; rewrite /W2 /mvA !row_seqK unitary_back. Qed.

Lemma sections2 z : z \in flatten zss -> hom_sections B (mvA z) = hom_sections B z *m R.
Proof. by move=> /form[x [-> _ _]]; rewrite /mvA row_seqK AR. Qed.

Lemma weights2 z : z \in flatten zss -> has_weight pi m.+2 Q (mvA z) (W z).
Proof. by move=> zi; have := HW zi; have [x [-> _ _]] := form zi; rewrite /mvA row_seqK; exact: weight_lin. Qed.

Lemma points2 zs : zs \in zss2 -> size zs = bs /\ points_on V ps m zs.
Proof.
move=> /mapP[zs' zi ->]; have [sz _] := Hz zi; split; first by rewrite size_map.
move=> z /mapP[z' zz ->]; have /form[x [-> x0 hx]] : z' \in flatten zss by apply/flattenP; exists zs'.
exists (x *m A); rewrite row_seqK; split=> //; last by rewrite hQ -QQ hx.
by apply: contra_neq x0 => E; rewrite -(unitary_back UA x) E mul0mx.
Qed.

Lemma span2 (v : 'rV[C]_N) : v != 0 -> exists2 z, z \in flatten zss2 & \sum_a v 0 a * hom_sections B z 0 a != 0.
Proof.
move=> v0; have v1 : v *m R^T != 0.
  by apply: contra_neq v0 => E; rewrite -(mulmxK (_ : R^T \in unitmx) v) ?unitmx_tr ?R_unit // E mul0mx.
have [z zi nz] := sp v1; exists (mvA z); first by rewrite flat2; apply/mapP; exists z.
rewrite sections2 //; apply: contra_neq nz => E; rewrite -[RHS]E.
have L (u s : 'rV[C]_N) : \sum_a u 0 a * s 0 a = (u *m s^T) 0 0.
  by rewrite mxE; apply: eq_bigr => a _; rewrite mxE.
by rewrite !L trmx_mul mulmxA.
Qed.

Let pts := [seq [seq (hom_sections B z, Some (W z)) | z <- zs] | zs <- zss].
Let vol := avg W (flatten zss).

Lemma pts2 : [seq [seq (hom_sections B z, Some (W2 z)) | z <- zs] | zs <- zss2] = change_basis R pts.
Proof.
rewrite /zss2 /change_basis /pts -!map_comp; apply/eq_in_map => zs zi /=.
rewrite /lin_points -!map_comp; apply/eq_in_map => z zz /=.
have zf : z \in flatten zss by apply/flattenP; exists zs.
by rewrite -/(mvA z) sections2 // back.
Qed.

Lemma vol2 : avg W2 (flatten zss2) = vol.
Proof.
rewrite /vol /avg flat2 size_map big_map; congr (_ / _); rewrite !big_seq; apply: eq_bigr => z zi.
exact: back.
Qed.

Lemma linear_step h H : hermitian h -> posdef h ->
  alg_donaldson_step D lg ex pi splitn m V draw true kk h ps vol batches bs = Ok H ->
  alg_donaldson_step D lg ex pi splitn m V' draw' true kk (R *m h *m adjm R) ps' vol batches bs = Ok (R *m H *m adjm R).
Proof.
move=> hh ph.
have [gs' S'] := sampled_step hD lg ex hV' hQ' pi0 hS' (or_introl EB) k0 Hd' Hz HW sp ne bs0.
have ne2 : zss2 != [::] by rewrite /zss2; case: (zss) ne.
have HW2 z : z \in flatten zss2 -> has_weight pi m.+2 Q z (W2 z).
  by rewrite flat2 => /mapP[z' zi ->]; rewrite back //; exact: weights2.
have [_ S] := sampled_step hD lg ex hV hQ pi0 hS (or_introl EB) k0 Hd points2 HW2 span2 ne2 bs0.
rewrite /= vol2 pts2 in S; rewrite S S' => E2.
have hm : hermitian (R *m h *m adjm R) by apply: hermitian_congr.
have pm : posdef (R *m h *m adjm R).
  move=> v v0; rewrite hform_congr; apply: ph; apply: contra_neq v0 => vA.
  by rewrite -[v]mulmx1 -(mulmxV R_unit) mulmxA vA mul0mx.
have [H1 E1] : exists H1, donaldson_step true (R *m h *m adjm R) vol pts = Ok H1 by eexists.
have [eb _ _ _ _] := gs'.
by rewrite -/vol E1 (step_basis R_unit (erefl _) eb (good_unit gs' hm pm) E1 E2).
Qed.
End Steps.
