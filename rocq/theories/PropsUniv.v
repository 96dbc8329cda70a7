(** Property C33: coefficients with respect to one variable (cyjax/polynomial.py). *)
From Coq Require Import ZArith Ascii String.
From mathcomp Require Import all_ssreflect all_algebra.
From mathcomp Require Import ssrZ ring.
From Verif Require Import Base ModelStr ModelExpr ModelPoly SpecPoly SpecUniv ProofUniv.
Delimit Scope Z_scope with Z.

Set Implicit Arguments.
Unset Strict Implicit.
Unset Printing Implicit Defensive.

Import GRing.Theory Num.Theory.
Local Open Scope ring_scope.

(** ** C33 *)
Theorem univariate_coefficients_value : forall (C : numClosedFieldType) (norm : expr C -> expr C),
  norm_ok norm -> forall (P : poly C) (var : sym) (visit : expr C -> seq sym),
  wf_poly P -> uniq (all_symbols P) -> check_signature [::] (variable_names P) = Ok tt ->
  (forall e, uniq (visit e) /\ visit e =i esyms e) ->
  forall terms : seq (nat * expr C), var \notin parameters P -> terms_ok P var terms ->
  (other_vars P var != [::]) || all (fun t => nilp (esyms t.2)) terms ->
  exists cs, [/\ univariate_coefficients norm P var terms visit = Ok cs,
    size cs = (\max_(t <- terms) t.1).+1,
    forall k Q, nth (UNum 0) cs k = UPoly Q ->
      [/\ wf_poly Q, variable_names Q = unzip1 (other_vars P var),
          variable_indices Q = unzip2 (other_vars P var) & parameters Q = parameters P] &
    forall rho, exists vs, [/\ rseq [seq coeff_eval c rho | c <- cs] = Ok vs, size vs = size cs &
      value P rho = \sum_(k < size cs) nth 0 vs k * rho var ^+ (size cs - k.+1)]].
Proof. exact univ_main. Qed.
Print Assumptions univariate_coefficients_value.

(** No variable is left over but a coefficient contains parameters. *)
Theorem univariate_no_variables_refuted : forall (C : numClosedFieldType) (norm : expr C -> expr C)
    (P : poly C) (var : sym) (visit : expr C -> seq sym) (terms : seq (nat * expr C)),
  var \notin parameters P -> other_vars P var = [::] ->
  ~~ all (fun t => nilp (esyms t.2)) terms ->
  univariate_coefficients norm P var terms visit = Err AssertionError.
Proof. exact univ_no_consts. Qed.
Print Assumptions univariate_no_variables_refuted.

(** z1**2 * z2 * x**2 + 3 * shift * (1 + x**2) with respect to x, and the same
    with respect to z2; a polynomial in x alone. *)
Definition univ_terms (C : numClosedFieldType) : seq (nat * expr C) :=
  let z i := ESym (merge_subscript (lit "z") i) in
  [:: (2%N, EAdd [:: EMul [:: EPow (z 1%Z) 2; z 2%Z]; EMul [:: ENum 3%:R; ESym (lit "shift")]]);
      (0%N, EMul [:: ENum 3%:R; ESym (lit "shift")])].

Definition univ_poly (C : numClosedFieldType) : poly C :=
  let z i := ESym (merge_subscript (lit "z") i) in
  MkPoly [:: lit "x"; lit "z"] [:: None; Some [:: 1; 2]%Z] [:: lit "shift"]
    (SPoly [:: lit "x"; lit "z1"; lit "z2"]
       (EAdd [:: EMul [:: EPow (z 1%Z) 2; z 2%Z; EPow (ESym (lit "x")) 2];
                 EMul [:: ENum 3%:R; ESym (lit "shift"); EAdd [:: ENum 1; EPow (ESym (lit "x")) 2]]])).

Example univariate_ex (C : numClosedFieldType) (a b s : C) :
  exists Q R : poly C,
  [/\ univariate_coefficients id (univ_poly C) (lit "x") (univ_terms C) (fun e => undup (esyms e))
        = Ok [:: UPoly Q; UNum 0; UPoly R],
      variable_names Q = [:: lit "z"], variable_indices Q = [:: Some [:: 1; 2]%Z],
      parameters Q = [:: lit "shift"] &
      call_num Q [:: PArr [:: a; b]; PArr [:: s]] [::] = Ok (0 + a ^+ 2 * b + 3%:R * s)].
Proof.
do 2 eexists; split.
- rewrite /univariate_coefficients.
  have -> : \max_(t <- univ_terms C) t.1 = 2%N by rewrite !big_cons big_nil.
  by [].
- by [].
- by [].
- by [].
- by [].
Qed.

Example univariate_hyp_ex (C : numClosedFieldType) :
  terms_ok (univ_poly C) (lit "x") (univ_terms C) /\ other_vars (univ_poly C) (lit "x") != [::].
Proof.
split=> //; split=> // rho.
rewrite /value /= !big_cons !big_nil /= ?big_cons ?big_nil /= ?big_cons ?big_nil.
rewrite -[merge_subscript _ 1]/(lit "z1") -[merge_subscript _ 2]/(lit "z2"); ring.
Qed.
