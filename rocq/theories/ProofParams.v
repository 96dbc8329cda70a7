(** The number of parameters of a hypersurface. *)
From Coq Require Import ZArith Lia Ascii String.
From mathcomp Require Import all_ssreflect all_algebra.
From mathcomp Require Import zify ssrZ.
From SsrMultinomials Require Import mpoly.
From Verif Require Import Base ModelUtil ModelProjective ModelStr ModelExpr ModelPoly ModelHom ModelVariety ModelAlg.
From Verif Require Import SpecPoly SpecHom SpecSections SpecPatch SpecAlg Bridge ProofPolyExpr ProofAlg.
Delimit Scope Z_scope with Z.

Set Implicit Arguments.
Unset Strict Implicit.
Unset Printing Implicit Defensive.

Import GRing.Theory Num.Theory.
Local Open Scope ring_scope.

Lemma param_count (C : numClosedFieldType) (V : variety C) ps (m e : nat) (z : 'rV[C]_m.+2) (qs : seq C) :
  hypersurface V ps m e ->
  (size qs = v_par_count V -> exists v, v_defining V (row_seq z) (PArr qs) (PatchNone C) = Ok v) /\
  ((size qs < v_par_count V)%N -> is_ok (v_defining V (row_seq z) (PArr qs) (PatchNone C)) = false).
Proof.
move=> hV; split=> [sq|lt].
  have hV' : hypersurface V qs m e.
    case: hV sq => [[norm [P [H [nk [hP hi Ev Ei _]]]]]|[f [c [-> _ ->]]]|[-> ->]] sq.
    - constructor 1; exists norm, P, H; split=> //; split=> //; rewrite sq /v_par_count.
      have [EH _] : hp H = P /\ True by move: hi; rewrite /hom_init; case: check_signature => //= _; case: ifP => // _ [<-].
      by move: Ev; rewrite /variety_init; case: rassert => //= _ [<-] /=; rewrite EH.
    - by constructor 2; exists f, (nth 0 qs 0); split=> //; case: qs sq => [|q []].
    - by constructor 3.
  have [Q [dQ _ _]] := V_poly hV'; by eexists; exact: dQ.
case: hV lt => [[norm [P [H [nk [hP hi Ev Ei _]]]]]|[f [c [-> _ _]]]|[-> _]] ; last by case: qs.
- move: Ev; rewrite /variety_init; case: rassert => //= _ [<-] /= lt.
  rewrite /defining /transform_eval /hom_call /call_num /sort_var_args /=.
  by case: rseq => //= r; rewrite /rassert (ltn_eqF lt).
- by case: qs => //= _; rewrite /dwork_call; case: rassert.
Qed.
