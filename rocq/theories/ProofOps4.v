(** Derivatives and arithmetic: statements for calls, and examples. *)
From Coq Require Import ZArith Lia Ascii String Permutation.
From mathcomp Require Import all_ssreflect all_algebra.
From mathcomp Require Import zify ssrZ ring.
From Verif Require Import Base ModelStr ModelUtil ModelExpr ModelPoly ModelHom ModelVariety ModelPipe ModelOps.
From Verif Require Import SpecPoly SpecVariety SpecOps ProofStr ProofPoly ProofPoly2 ProofPoly3 ProofPoly6 ProofPoly7 ProofVariety ProofVariety2 ProofPipe6 ProofPipe9 ProofOps ProofOps2 ProofOps3.
Delimit Scope Z_scope with Z.

Set Implicit Arguments.
Unset Strict Implicit.
Unset Printing Implicit Defensive.

Import GRing.Theory Num.Theory.
Local Open Scope ring_scope.

Section Calls.
Variable C : numClosedFieldType.
Variable norm : expr C -> expr C.
Hypothesis nk : norm_ok norm.
Implicit Types P : poly C.

Lemma diff_call P v : made P -> v \in var_symbols (variable_names P) (variable_indices P) ->
  exists P', [/\ poly_diff norm P v = Ok P', made P',
    [/\ variable_names P' = variable_names P, variable_indices P' = variable_indices P & parameters P' = parameters P] &
    forall rho, exists p : {poly C}, (forall x, call_at P (upd rho v x) = Ok p.[x]) /\ call_at P' rho = Ok p^`().[rho v]].
Proof.
move=> mP vv; have [wP gP g0 uP cs] := mP.
have [g [e [Ee _ _]]] : exists g e, [/\ sympy_poly P = SPoly g e, {subset esyms e <= all_symbols P} & no_I e] by case: wP.
have vg : v \in g by move: gP; rewrite Ee /= => ->.
have [P' [E' [En' Ei' Ep' Eg'] wP' vP']] := poly_diff_main nk Ee vg cs; have wR := wP' wP.
exists P'; split=> //.
  split=> //; rewrite ?Eg' ?En' ?Ei' //; try by move: gP g0; rewrite Ee.
  by rewrite /all_symbols En' Ei' Ep'.
move=> rho; have [p Hp] := upd_poly rho v e; exists p.
have Hp' x : value P (upd rho v x) = p.[x] by rewrite -Hp /value Ee.
split=> [x|]; first by rewrite made_call // Hp'.
by rewrite made_call // (vP' rho p).
Qed.

Lemma diff_not_variable P v : made P -> v \notin var_symbols (variable_names P) (variable_indices P) ->
  poly_diff norm P v = Err OtherError.
Proof. by move=> [_ gP _ _ _] nv; apply: poly_diff_bad; rewrite gP. Qed.

Lemma diff_unique P v P' rho (p : {poly C}) : made P -> poly_diff norm P v = Ok P' ->
  (forall x, call_at P (upd rho v x) = Ok p.[x]) -> call_at P' rho = Ok p^`().[rho v].
Proof.
move=> mP E Hp; have vv : v \in var_symbols (variable_names P) (variable_indices P).
  by case vv: (v \in _) => //; move: E; rewrite diff_not_variable ?vv.
have [P2 [E2 _ _ /(_ rho) [q [Hq Eq]]]] := diff_call mP vv; move: E2; rewrite E => -[->]; rewrite Eq.
suff -> : p = q by [].
by apply: horner_inj => x; have := Hp x; rewrite Hq => -[].
Qed.

Lemma hom_diff_ok (H : hompoly C) v d : made (hp H) -> homogeneous (hp H) d.+1 ->
  check_signature [:: lit "patch"] (variable_names (hp H)) = Ok tt -> all isSome (variable_indices (hp H)) ->
  v \in var_symbols (variable_names (hp H)) (variable_indices (hp H)) ->
  exists H', [/\ hom_diff norm H v = Ok H', poly_diff norm (hp H) v = Ok (hp H'), made (hp H'), homogeneous (hp H') d &
    all (fun c => ~~ isSome c) (affine_cache H')].
Proof.
move=> mP hP cs ai vv; have [P' [E mP' [En Ei Ep] _]] := diff_call mP vv.
exists (HomPoly P' (nseq (\prod_(d <- hp_dims P') d)%N None)); split=> //.
- by rewrite /hom_diff E /= /hom_init En cs /= Ei ai.
- exact: poly_diff_hom hP vv E.
- by rewrite all_nseq /= orbT.
Qed.

Lemma op_polynomial P Q : [/\ poly_op norm Plus P (OPoly Q) = poly_add norm P Q,
  poly_op norm Minus P (OPoly Q) = poly_sub norm P Q & poly_op norm Times P (OPoly Q) = poly_mul norm P Q].
Proof. by split; rewrite poly_op_poly. Qed.
End Calls.
