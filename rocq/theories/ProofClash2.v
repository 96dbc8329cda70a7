(** The points found on the conic with the parameter p_0. *)
From Coq Require Import ZArith Ascii String.
From mathcomp Require Import all_ssreflect all_algebra.
From mathcomp Require Import ssrZ ring.
From Verif Require Import Base ModelUtil ModelProjective ModelDiff ModelStr ModelExpr ModelPoly SpecPoly
  SpecUniv ModelHom SpecHom ModelVariety SpecVariety SpecClash.
Delimit Scope Z_scope with Z.

Set Implicit Arguments.
Unset Strict Implicit.
Unset Printing Implicit Defensive.

Import GRing.Theory Num.Theory.
Local Open Scope ring_scope.

Lemma clash_conic_lemma (C : numClosedFieldType) (roots : seq C -> seq C) : roots_ok roots ->
  exists zs, size zs = 2%N /\ forall a,
    sample_hom id id (fun e => undup (esyms e)) (fun _ _ => clash_terms C) roots (clash_conic C) [:: a] 2
      (fun k _ => nseq k ([:: 1; 0], [:: 0; 1])) = Ok zs /\
    forall z, z \in zs -> call_num (clash_conic C) [:: PArr z; PArr [:: a]] [::] = Ok (1 - a).
Proof.
move=> ro; pose cs : seq C := [:: 0 + 0 ^+ 2 + 1 * 1 ^+ 2; 0 + 2%:R * 1 * 0 + 2%:R * 1 * 0 * 1; 0 + 1 ^+ 2 + 1 * 0 ^+ 2].
exists [seq [:: 1 + r * 0; 0 + r * 1] | r <- roots cs].
have h1 : head 0 cs = 1 by rewrite /=; ring.
have [|sz /allP H] := ro cs isT; first by rewrite h1 oner_eq0.
split=> [|a]; first by rewrite size_map sz.
split; last first.
  move=> z /mapP[r /H /eqP Hr ->]; rewrite /call_num /=.
  have : r ^+ 2 = -1.
    apply/eqP; rewrite -addr_eq0 -{}Hr /horner_desc /cs /= !big_ord_recl big_ord0 /=; apply/eqP; ring.
  move=> r2; congr Ok; transitivity (1 + a * r ^+ 2); first by ring.
  by rewrite r2 mulrN1.
rewrite /sample_hom /sample_line /univariate_coefficients.
have -> : \max_(t <- clash_terms C) t.1 = 2%N by rewrite !big_cons big_nil.
case E: (line_poly _ _ _ _) => [L|]; last by vm_compute in E.
vm_compute in E; case: E => <-.
transitivity (Ok (take 2 (flatten [:: [seq [:: 1 + r * 0; 0 + r * 1] | r <- roots cs]]))); first by [].
by rewrite /= cats0 take_oversize // size_map sz.
Qed.
