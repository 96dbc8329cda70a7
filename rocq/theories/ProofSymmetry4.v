(** Limits of the steps on symmetric samples, and examples. *)
From Coq Require Import ZArith Lia.
From mathcomp Require Import all_ssreflect all_algebra all_fingroup.
From mathcomp Require Import zify ssrZ ring.
From SsrMultinomials Require Import mpoly.
From Verif Require Import Base ModelUtil ModelVariety ModelBasis ModelDonaldson ModelAlg ModelPipe.
From Verif Require Import SpecPoly SpecHom SpecVariety SpecGeom SpecBasis SpecSections SpecPatch SpecAlg SpecDonaldson SpecPipe SpecStep SpecSymmetry Herm.
From Verif Require Import Deriv Bridge PolyGrad ProofAlg ProofAlg6 ProofDonaldson2 ProofStep ProofStep2 ComplexR ProofStep7 ProofStep8 ProofSymmetry ProofSymmetry2 ProofSymmetry3.
Delimit Scope Z_scope with Z.

Set Implicit Arguments.
Unset Strict Implicit.
Unset Printing Implicit Defensive.

Import GRing.Theory Num.Theory Order.POrderTheory.
Local Open Scope ring_scope.

Lemma stable_symmetric_limit N (vol : CR) (bs : seq (seq (sample CR N))) : good_sample vol bs ->
  forall (A : 'M[CR]_N) (hs : nat -> 'M[CR]_N), `|\det A| = 1 -> symmetric_under A (flatten bs) -> stable (flatten bs) ->
  hermitian (hs 0%N) -> posdef (hs 0%N) -> iterates vol bs hs ->
  exists L, [/\ balanced vol bs L, converges_to hs L & invariant A L].
Proof.
move=> gs A hs dA sy st hh ph it; have [L bL cL] := stable_limit gs st hh ph it; exists L; split=> //.
have [_ ind] := (stable_iff_balanced gs).1 st.
by apply: (balanced_symmetric gs _ sy ind bL dA); rewrite unitmxE unitfE -normr_eq0 dA oner_eq0.
Qed.

Section Points.
Variable D : forall n : nat, ('rV[CR]_n -> CR) -> 'rV[CR]_n -> 'rV[CR]_n.
Hypothesis hD : diff_ok D.
Variables (lg ex : CR -> CR).
Variables (pi : CR) (m e : nat) (V : variety CR) (ps : seq CR) (Q : {mpoly CR[m.+2]}).
Hypotheses (hV : hypersurface V ps m e) (hQ : defined_by V ps Q) (pi0 : 0 < pi).
Hypothesis hS : smooth D V ps m.
Variable key : Type.
Variable draw : key -> seq CR -> nat -> res (seq (seq CR)).
Variables (k : nat) (B : basis).
Hypotheses (hB : basis_for k Q B) (k0 : (0 < k)%N).
Notation N := (size (power_matrix B)).

Lemma sampled_symmetric_limit (l : 'I_m.+2 -> CR) (s : {perm 'I_m.+2}) (sg : {perm 'I_N}) :
  (forall j, `|l j| = 1) -> (exists2 c, `|c| = 1 & forall x, peval Q (move l s x) = c * peval Q x) -> permutes_basis s sg ->
  forall (splitn : key -> nat -> seq key) kk batches bs zss W,
  rseq [seq draw k' ps bs | k' <- splitn kk batches] = Ok zss ->
  (forall zs, zs \in zss -> size zs = bs /\ points_on V ps m zs) ->
  (forall z, z \in flatten zss -> has_weight pi e Q z (W z)) ->
  (forall v : 'rV[CR]_N, v != 0 -> exists2 z, z \in flatten zss & \sum_a v 0 a * hom_sections B z 0 a != 0) ->
  zss != [::] -> (0 < bs)%N -> moved_to_itself l s (flatten zss) ->
  let pts := [seq [seq (hom_sections B z, Some (W z)) | z <- zs] | zs <- zss] in let vol := avg W (flatten zss) in
  stable (flatten pts) ->
  forall hs : nat -> 'M[CR]_N, hermitian (hs 0%N) -> posdef (hs 0%N) ->
  (forall j, alg_donaldson_step D lg ex pi splitn m V draw true kk (hs j) ps vol batches bs = Ok (hs j.+1)) ->
  exists L, [/\ hermitian L, posdef L, converges_to hs L & h_symmetric l sg L].
Proof.
move=> l1 Ql Hsg splitn kk batches bs zss W Hd Hz HW sp ne bs0 Hm pts vol st hs hh ph E.
have [gs St] := sampled_step hD lg ex hV hQ pi0 hS hB k0 Hd Hz HW sp ne bs0.
have [L [hL pL cL EL]] := sampled_limit hD hV hQ pi0 hS hB k0 Hd Hz HW sp ne bs0 (or_introl st) hh ph E.
have [_ ind] := (stable_iff_balanced gs).1 st.
exists L; split=> //.
exact: (sampled_balanced_symmetric hD hV hQ pi0 hS hB k0 l1 Ql Hsg Hd Hz HW sp ne bs0 Hm hL pL EL ind).
Qed.
End Points.

Lemma phases_vanish (C : numClosedFieldType) n (l : 'I_n -> C) B (h : 'M[C]_(size (power_matrix B))) :
  (forall j, `|l j| = 1) -> h_symmetric l 1 h -> forall a b, chi l a != chi l b -> h a b = 0.
Proof.
move=> l1 H a b ab; have := H a b; rewrite !perm1 => /eqP; rewrite -subr_eq0 -{1}[h a b]mul1r -mulrBl mulf_eq0.
case/orP => [|/eqP//]; rewrite subr_eq0 => /eqP E; exfalso; move/eqP: ab; apply.
have b1 : `|chi l b| = 1 by rewrite /chi normr_prod big1 // => j _; rewrite normrX l1 expr1n.
by rewrite -[chi l b]mul1r E -mulrA [_^* * _]mulrC -normCK b1 expr1n mulr1.
Qed.

Section Three.
Variable C : numClosedFieldType.

Lemma pt2_mul a b (A : 'M[C]_2) : pt2 a b *m A = pt2 (a * A 0 0 + b * A 1 0) (a * A 0 1 + b * A 1 1).
Proof. by apply/rowP => j; rewrite !mxE sum2 !mxE /=; case: (ord2E j) => ->. Qed.

Lemma pt2_scale c a b : c *: pt2 a b = pt2 (c * a) (c * b) :> 'rV[C]_2.
Proof. by apply/rowP => j; rewrite !mxE; case: (ord2E j) => -> /=. Qed.

(** The rotation (1, 0) -> (0, 1) -> (1, 1) -> (1, 0) of the three points *)
Definition turn : 'M[C]_2 := mx2 0 1 (- 1) (- 1).

Lemma three_turn : symmetric_under turn (flatten (three C)).
Proof.
exists (fun i => if i == 0%N then 1 else - 1); first by case=> [|i] /=; rewrite ?oppr_eq0 oner_eq0.
rewrite /= !pt2_mul !pt2_scale !mxE /= !(mul0r, mul1r, mulr0, mulr1, add0r, addr0, mulrN, mulNr, opprK, subrr, oppr0).
set a := (pt2 0 1, _); set b := (pt2 1 1, _); set c := (pt2 1 0, _).
by rewrite -[[:: c; a; b]]/([:: c] ++ [:: a; b]) perm_sym perm_catC.
Qed.

Lemma turn_h3 : invariant turn (h3 C).
Proof.
apply/matrixP => i j; rewrite mxE sum2 ![(_ *m _) _ _]mxE !sum2 !mxE.
by case: (ord2E i) => ->; case: (ord2E j) => -> /=; rewrite !cjE; ring.
Qed.

Lemma turn_det : `|\det turn| = 1.
Proof. by rewrite (expand_det_row _ 0) sum2 /cofactor !det_mx11 !mxE /= !(mul0r, mul1r, add0r, addr0, expr0, expr1, mulrN1, opprK) ?normr1. Qed.

Lemma turn_one : ~ invariant turn 1%:M.
Proof.
move=> /matrixP/(_ 1 1); rewrite mxE sum2 ![(_ *m _) _ _]mxE !sum2 !mxE /= !cjE.
rewrite !(mulr0, mulr1, add0r, addr0, mulrNN, mulr1n) => /eqP; rewrite -subr_eq0 addrK oner_eq0 //.
Qed.
End Three.

Section Pair.
Variable C : numClosedFieldType.
Definition flip (j : 'I_2) : C := if j == 0 then 1 else - 1.

Lemma pair_flip : moved_to_itself flip 1 (pair_points C).
Proof.
exists (fun=> 1) => [_|]; first exact: oner_neq0.
have E a : row_seq (1 *: move flip 1 (seq_row 2 [:: 1; a])) = [:: 1; - a] :> seq C.
  apply/esym/row_seq_eq => // j; rewrite !mxE perm1 !mul1r /flip.
  by case: (ord2E j) => -> /=; rewrite ?mul1r ?mulN1r.
rewrite /= !E opprK; set a := [:: 1; - 'i]; set b := [:: 1; 'i].
by rewrite -[[:: a; b]]/([:: a] ++ [:: b]) perm_catC.
Qed.

Lemma pair_chi : chi flip (0 : 'I_(size (power_matrix pair_basis))) = 1 /\ chi flip (1 : 'I_(size (power_matrix pair_basis))) = - 1.
Proof. by split; rewrite /chi !big_ord_recl big_ord0 /flip /= ?expr0 ?expr1 ?mulr1 ?mul1r ?expr1n. Qed.
End Pair.
