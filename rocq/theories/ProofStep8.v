(** Repeated Donaldson steps on points of a hypersurface converge. *)
From Coq Require Import ZArith Lia.
From mathcomp Require Import all_ssreflect all_algebra.
From mathcomp Require Import zify ssrZ ring.
From SsrMultinomials Require Import mpoly.
From Verif Require Import Base ModelUtil ModelProjective ModelDiff ModelExpr ModelPoly ModelHom ModelVariety ModelBasis ModelGeom ModelMC ModelDonaldson ModelAlg ModelPipe.
From Verif Require Import SpecPoly SpecHom SpecVariety SpecGeom SpecBasis SpecSections SpecPatch SpecAlg SpecDonaldson SpecPipe SpecStep Herm Herm2.
From Verif Require Import Deriv Bridge PolyGrad ProofDonaldson2 ProofDonaldson3 ProofAlg ProofAlg6 ProofPipe8 ProofStep3 ProofStep ProofStep2.
From Verif Require Import ComplexR ProofStep7.
Delimit Scope Z_scope with Z.

Set Implicit Arguments.
Unset Strict Implicit.
Unset Printing Implicit Defensive.

Import GRing.Theory Num.Theory Order.POrderTheory.
Local Open Scope ring_scope.

Section Points.
Variable D : forall n : nat, ('rV[CR]_n -> CR) -> 'rV[CR]_n -> 'rV[CR]_n.
Hypothesis hD : diff_ok D.
Variables (lg ex : CR -> CR).
Variables (pi : CR) (m e : nat) (V : variety CR) (ps : seq CR) (Q : {mpoly CR[m.+2]}).
Hypotheses (hV : hypersurface V ps m e) (hQ : defined_by V ps Q) (pi0 : 0 < pi).
Hypothesis hS : smooth D V ps m.
Variable key : Type.
Variable draw : key -> seq CR -> nat -> res (seq (seq CR)).
Variables (k : nat) (B : basis).
Hypotheses (hB : basis_for k Q B) (k0 : (0 < k)%N).
Notation N := (size (power_matrix B)).

Lemma sampled_limit (splitn : key -> nat -> seq key) kk batches bs zss W :
  rseq [seq draw k' ps bs | k' <- splitn kk batches] = Ok zss ->
  (forall zs, zs \in zss -> size zs = bs /\ points_on V ps m zs) ->
  (forall z, z \in flatten zss -> has_weight pi e Q z (W z)) ->
  (forall v : 'rV[CR]_N, v != 0 -> exists2 z, z \in flatten zss & \sum_a v 0 a * hom_sections B z 0 a != 0) ->
  zss != [::] -> (0 < bs)%N ->
  let pts := [seq [seq (hom_sections B z, Some (W z)) | z <- zs] | zs <- zss] in let vol := avg W (flatten zss) in
  stable (flatten pts) \/ (exists g, balanced vol pts g) ->
  forall hs : nat -> 'M[CR]_N, hermitian (hs 0%N) -> posdef (hs 0%N) ->
  (forall j, alg_donaldson_step D lg ex pi splitn m V draw true kk (hs j) ps vol batches bs = Ok (hs j.+1)) ->
  exists L, [/\ hermitian L, posdef L, converges_to hs L &
    alg_donaldson_step D lg ex pi splitn m V draw true kk L ps vol batches bs = Ok L].
Proof.
move=> Hd Hz HW sp ne bs0 pts vol H hs hh ph E.
have [g St] := sampled_step hD lg ex hV hQ pi0 hS hB k0 Hd Hz HW sp ne bs0.
have It : iterates vol pts hs by move=> j; rewrite -St.
have [L [[hL pL EL] cL]] : exists L, balanced vol pts L /\ converges_to hs L.
  case: H => [st|[g' bg]]; first by have [L] := stable_limit g st hh ph It; exists L.
  by have [L [bL cL _]] := balanced_limit g bg hh ph It; exists L.
by exists L; split=> //; rewrite St.
Qed.
End Points.

Section Pair.
Variable C : numClosedFieldType.
Let n2 : (2%:R : C) != 0. Proof. exact: nat_neq0. Qed.

Lemma fermat2_deriv k (x : 'rV[C]_2) : peval ((dwork_Q 0 (0 : C))^`M(k)) x = 2%:R * x 0 k.
Proof.
rewrite /dwork_Q scale0r addr0 raddf_sum /= (bigD1 k) //= big1 => [|i ik].
  by rewrite addr0 mderivUX eqxx mul1r expr1 /peval mevalM mevalXU -[2%:R]mpolyC_nat mevalC.
by rewrite mderivUX eq_sym (negPf ik) !mul0r.
Qed.

Lemma pair_weights pi (w : seq C -> C) : (forall z, z \in pair_points C -> has_weight pi 2 (dwork_Q 0 0) z (w z)) ->
  forall z, z \in pair_points C -> w z = 4%:R^-1.
Proof.
move=> H z zi; have [x [i [zE _ _ ->]]] := H z zi.
have n1 k : `|x 0 k| = 1.
  have -> : x 0 k = nth 0 z k by rewrite zE nth_row_seq.
  move: zi; rewrite !inE => /orP[] /eqP ->; case: (ord2E k) => -> /=; rewrite ?normrN ?normCi ?normr1 //.
have g2 : grad2 (dwork_Q 0 (0 : C)) x = 4%:R * len2 x.
  rewrite /grad2 /len2 mulr_sumr; apply: eq_bigr => k _; rewrite fermat2_deriv normrM exprMn normr_nat.
  by rewrite -natrX.
have l2 : len2 x = 2%:R by rewrite /len2 sum2 !n1 !expr1n.
by rewrite /patch_weight g2 l2 n1 !expr1n expr0 fact0; field.
Qed.

Lemma pair_balanced (w : seq C -> C) : (forall z, z \in pair_points C -> w z = 4%:R^-1) ->
  let pts := [:: [seq (hom_sections pair_basis z, Some (w z)) | z <- pair_points C]] in
  balanced (avg w (pair_points C)) pts (1%:M : 'M[C]_2).
Proof.
move=> H pts.
have h1 : hermitian (1%:M : 'M[C]_2) by move=> i j; rewrite !mxE eq_sym rmorph_nat.
split=> //.
  by move=> v v0; have := ip_gt0 v0; rewrite /ip hform1; under eq_bigr do rewrite -normCK.
have vE : avg w (pair_points C) = 4%:R^-1.
  by rewrite /avg /= !big_cons big_nil !H ?inE ?eqxx ?orbT //; field.
rewrite /donaldson_step /= T_ofE //; last by exists 2%N => b; rewrite inE => /eqP ->.
suff -> : T_of 1%:M (avg w (pair_points C)) (flatten pts) = 1%:M by rewrite invmx1 trmx1.
have sE a : hom_sections pair_basis [:: 1; a] = pt2 1 a.
  by apply/rowP => k; case: (ord2E k) => ->; rewrite !mxE !big_ord_recl !big_ord0 /= !expr0 !expr1 !mulr1 ?mul1r.
have fE a : `|a| = 1 -> hform 1%:M (pt2 1 a) = 2%:R.
  by move=> na; rewrite hform1 sum2 !mxE /= normr1 na !expr1n.
rewrite vE [RHS]one_mx2; apply: mx2_eq; rewrite !mxE /= !big_cons big_nil /weight /= !sE !fE ?normrN ?normCi // !mxE /= !H ?inE ?eqxx ?orbT //.
all: rewrite ?conjC1 ?rmorphN ?conjCi ?opprK ?mulrN ?mulNr -?expr2 ?sqrCi ?opprK; field; rewrite ?n2 ?pnatr_eq0 //.
Qed.
End Pair.
