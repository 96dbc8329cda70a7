(** Property C135: solve_defining returns all solutions. *)
From Coq Require Import ZArith Ascii String.
From mathcomp Require Import all_ssreflect all_algebra.
From mathcomp Require Import ssrZ ring.
From Verif Require Import Base ModelStr ModelUtil ModelProjective ModelExpr ModelPoly ModelHom ModelVariety ModelPipe ModelOps.
From Verif Require Import SpecPoly SpecUniv SpecHom SpecVariety SpecOps SpecSolve ProofVariety2 ProofSolve.
Delimit Scope Z_scope with Z.

Set Implicit Arguments.
Unset Strict Implicit.
Unset Printing Implicit Defensive.

Import GRing.Theory Num.Theory.
Local Open Scope ring_scope.

(** ** C135: all solutions with their multiplicities *)
(** q is the defining polynomial as a function of the missing coordinate. *)
Theorem solve_defining_all : forall (C : numClosedFieldType) (norm : expr C -> expr C)
    (visit : expr C -> seq sym) (terms : poly C -> sym -> seq (nat * expr C)) (roots : seq C -> seq C),
  norm_ok norm -> forall (P : poly C) H n p dep zs ps,
  visit_ok visit -> roots_exact roots ->
  hom_ok P -> hom_init P = Ok H -> variable_indices P = dim_indices [:: n] -> (2 < n)%N ->
  (p < n)%N -> (dep < n.-1)%N -> size zs = n.-2 -> size ps = size (parameters P) ->
  let s := merge_subscript (head [::] (variable_names P)) (index_affine_to_hom (Z.of_nat p) (Z.of_nat dep)) in
  let A := affine_build norm P [:: Z.of_nat p] in
  let D := (\max_(t <- terms A s) t.1)%N in
  let pt x := take dep zs ++ x :: drop dep zs in
  terms_ok A s (terms A s) ->
  forall q : {poly C},
  (forall x, defining norm H (pt x) (PArr ps) (PatchInt C (Z.of_nat p)) = Ok q.[x]) -> size q = D.+1 ->
  exists rs, [/\ solve_defining norm visit terms roots H zs ps (Z.of_nat dep) (Some (Z.of_nat p)) = Ok (map pt rs),
    size rs = D & q = lead_coef q *: \prod_(r <- rs) ('X - r%:P)].
Proof. exact solve_all. Qed.
Print Assumptions solve_defining_all.

(** For the Dwork and Fermat polynomials the power of the missing coordinate never
    drops: always as many points as the degree. *)
Theorem dwork_solve_defining : forall (C : numClosedFieldType) (norm : expr C -> expr C)
    (visit : expr C -> seq sym) (terms : poly C -> sym -> seq (nat * expr C)) (roots : seq C -> seq C),
  norm_ok norm -> forall m (f : dwork_factor C) p dep zs psi,
  visit_ok visit -> roots_exact roots ->
  dwork_factor_value f \is Num.real -> (p < m.+3)%N -> (dep < m.+2)%N -> size zs = m.+1 ->
  let s := merge_subscript (lit "z") (index_affine_to_hom (Z.of_nat p) (Z.of_nat dep)) in
  let pt x := take dep zs ++ x :: drop dep zs in
  exists P H, [/\ dwork_poly norm m.+3 f = Ok P, hom_init P = Ok H &
    let A := affine_build norm P [:: Z.of_nat p] in
    terms_ok A s (terms A s) -> terms_nonzero (terms A s) ->
    exists rs, [/\ solve_defining norm visit terms roots H zs [:: psi] (Z.of_nat dep) (Some (Z.of_nat p)) =
        Ok (map pt rs), size rs = m.+3 &
      forall x, dwork_call m.+3 f (pt x) [:: psi] (Some (Z.of_nat p)) = Ok (\prod_(r <- rs) (x - r))]].
Proof. exact dwork_solve. Qed.
Print Assumptions dwork_solve_defining.

Theorem fermat_solve_defining : forall (C : numClosedFieldType) (norm : expr C -> expr C)
    (visit : expr C -> seq sym) (terms : poly C -> sym -> seq (nat * expr C)) (roots : seq C -> seq C),
  norm_ok norm -> forall m p dep zs,
  visit_ok visit -> roots_exact roots ->
  (p < m.+3)%N -> (dep < m.+2)%N -> size zs = m.+1 ->
  let s := merge_subscript (lit "z") (index_affine_to_hom (Z.of_nat p) (Z.of_nat dep)) in
  let pt x := take dep zs ++ x :: drop dep zs in
  exists P H, [/\ fermat_poly norm m.+3 = Ok P, hom_init P = Ok H &
    let A := affine_build norm P [:: Z.of_nat p] in
    terms_ok A s (terms A s) -> terms_nonzero (terms A s) ->
    exists rs, [/\ solve_defining norm visit terms roots H zs [::] (Z.of_nat dep) (Some (Z.of_nat p)) =
        Ok (map pt rs), size rs = m.+3 &
      forall x, fermat_call m.+3 (pt x) (Some (Z.of_nat p)) = Ok (\prod_(r <- rs) (x - r))]].
Proof. exact fermat_solve. Qed.
Print Assumptions fermat_solve_defining.

(** *** Example: 1 + z1^3 + z2^3 = 0 *)
Example all_roots_ex (C : numClosedFieldType) :
  roots_exact (fun cs : seq C => sval (closed_field_poly_normal (desc_poly cs))).
Proof. exact (@closed_exact C). Qed.

Definition cubic_terms (C : numClosedFieldType) : seq (nat * expr C) :=
  [:: (3%N, ENum 1); (0%N, EAdd [:: ENum 1; EPow (ESym (lit "z2")) 3])].

Example cubic_ex (C : numClosedFieldType) :
  exists2 P, fermat_poly (C := C) id 3 = Ok P &
  terms_ok (affine_build id P [:: 0%Z]) (lit "z1") (cubic_terms C) /\ terms_nonzero (cubic_terms C).
Proof.
eexists; first by [].
split.
  split=> // rho; rewrite /value /= !(big_cons, big_nil) /= !(big_cons, big_nil).
  by rewrite -[merge_subscript _ 1]/(lit "z1") -[merge_subscript _ 2]/(lit "z2") /lit /=; ring.
case=> [|[|i]] // _; exists (fun=> 1); rewrite /= ?oner_eq0 // !(big_cons, big_nil) expr1n addr0.
by rewrite -mulr2n pnatr_eq0.
Qed.
