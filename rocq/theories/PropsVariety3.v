(** Property C132: sampling with parameters named like the points of the line. *)
From Coq Require Import ZArith Ascii String.
From mathcomp Require Import all_ssreflect all_algebra.
From mathcomp Require Import ssrZ ring.
From Verif Require Import Base ModelUtil ModelProjective ModelDiff ModelStr ModelExpr ModelPoly SpecPoly
  SpecUniv ModelHom SpecHom ModelVariety SpecVariety SpecClash ProofClash ProofClash2 PropsHom PropsVariety.
Delimit Scope Z_scope with Z.

Set Implicit Arguments.
Unset Strict Implicit.
Unset Printing Implicit Defensive.

Import GRing.Theory Num.Theory.
Local Open Scope ring_scope.

(** ** C132: parameters with base name p or q *)
(** The values of the parameters whose base name is that of a variable make no
    difference to a call. *)
Theorem call_ignores_clashing_refuted : forall (C : numClosedFieldType) (Q : poly C) vs ps ps',
  size vs = size (variable_names Q) -> size ps = size ps' ->
  (forall j, (j < size (parameters Q))%N -> nth 0 ps j <> nth 0 ps' j ->
     exists n i, split_subscript (nth [::] (parameters Q) j) = Ok (n, i) /\ n \in variable_names Q) ->
  call_num Q (rcons vs (PArr ps)) [::] = call_num Q (rcons vs (PArr ps')) [::].
Proof. exact call_hidden. Qed.
Print Assumptions call_ignores_clashing_refuted.

(** The sampled points do not depend on the values of parameters whose base name
    is p or q. *)
Theorem sample_ignores_clashing_refuted : forall (C : numClosedFieldType) (norm : expr C -> expr C)
    (order : seq (sym * expr C) -> seq (sym * expr C)) (visit : expr C -> seq sym)
    (terms : poly C -> sym -> seq (nat * expr C)) (roots : seq C -> seq C)
    (P : poly C) ps ps' count lines,
  size ps = size ps' ->
  (forall j, (j < size (parameters P))%N -> nth 0 ps j <> nth 0 ps' j ->
     exists n i, split_subscript (nth [::] (parameters P) j) = Ok (n, i) /\ n \in [:: lit "p"; lit "q"]) ->
  sample_hom norm order visit terms roots P ps count lines =
  sample_hom norm order visit terms roots P ps' count lines.
Proof. exact sample_hidden. Qed.
Print Assumptions sample_ignores_clashing_refuted.

(** z0^2 + p_0 z1^2 is an admissible defining polynomial in itself. *)
Example clash_conic_ok (C : numClosedFieldType) (x y a : C) :
  [/\ single (clash_conic C) 2, wf_params [:: lit "z"] (parameters (clash_conic C)),
      homogeneous (clash_conic C) 2 &
      call_num (clash_conic C) [:: PArr [:: x; y]; PArr [:: a]] [::] = Ok (x ^+ 2 + a * y ^+ 2)].
Proof.
split.
- split=> //; last by exists (lit "z"), [:: 0; 1]%Z.
  split=> //.
    by move=> p; rewrite inE => /eqP ->; exists (lit "p") => //; exists (Some 0%Z).
  by do 2 eexists; split=> // s; rewrite /= !inE => /or3P[] /eqP ->.
- by move=> p; rewrite inE => /eqP ->; exists (lit "p") => //; exists (Some 0%Z).
- by move=> rho l; rewrite /value /= !(big_cons, big_nil) /=; ring.
- by rewrite /call_num /= add0r.
Qed.

Example clash_terms_ok (C : numClosedFieldType) :
  exists2 L, line_poly id id (@esym_set C) (clash_conic C) = Ok L &
    terms_ok L (lit "t") (clash_terms C).
Proof.
eexists; first by vm_compute.
split=> // rho; rewrite /value /= !(big_cons, big_nil) /= !(big_cons, big_nil) /lit /=.
ring.
Qed.

(** On the line (1, t) the points (1, i), (1, -i) are found for every value of the
    parameter; they are on the conic of the parameter 1 only. *)
Theorem clash_conic_refuted : forall (C : numClosedFieldType) (roots : seq C -> seq C), roots_ok roots ->
  exists zs, size zs = 2%N /\ forall a,
    sample_hom id id (@esym_set C) (fun _ _ => clash_terms C) roots (clash_conic C) [:: a] 2
      (fun k _ => nseq k ([:: 1; 0], [:: 0; 1])) = Ok zs /\
    forall z, z \in zs -> call_num (clash_conic C) [:: PArr z; PArr [:: a]] [::] = Ok (1 - a).
Proof. exact clash_conic_lemma. Qed.
Print Assumptions clash_conic_refuted.
