(** Properties C30, C31: tables of coefficients and powers (cyjax/polynomial.py). *)
From Coq Require Import ZArith Ascii String.
From mathcomp Require Import all_ssreflect all_algebra.
From mathcomp Require Import ssrZ ring.
From Verif Require Import Base ModelStr ModelExpr ModelPoly ModelMon SpecPoly SpecMon ProofMon ProofMon3.
Delimit Scope Z_scope with Z.

Set Implicit Arguments.
Unset Strict Implicit.
Unset Printing Implicit Defensive.

Import GRing.Theory Num.Theory.
Local Open Scope ring_scope.

(** ** C30 *)
Theorem monomials_value : forall (C : numClosedFieldType) (lg ex : C -> C) (st : strategy)
    (values : seq (option (seq C))) (coeffs : seq C) (powers : seq (option ptable)),
  all (table_ok (size coeffs)) (zip values powers) ->
  (st = Log -> exp_log_ok lg ex /\ all (@log_safe C) (zip values powers)) ->
  compute_monomials lg ex st values coeffs powers = Ok (monomial_values values coeffs powers).
Proof. exact compute_all. Qed.
Print Assumptions monomials_value.

(** Tables of the wrong shape are rejected, by all strategies alike. *)
Theorem monomials_rejects : forall (C : numClosedFieldType) (lg ex : C -> C)
    (values : seq (option (seq C))) (coeffs : seq C) (powers : seq (option ptable)),
  ~~ all (table_ok (size coeffs)) (zip values powers) ->
  exists e, forall st, compute_monomials lg ex st values coeffs powers = Err e.
Proof. exact compute_err. Qed.
Print Assumptions monomials_rejects.

Theorem monomials_missing_value : forall (C : numClosedFieldType) (lg ex : C -> C) (st : strategy)
    (values : seq (option (seq C))) (coeffs : seq C) (powers : seq (option ptable)) (p : ptable),
  (0 < size p)%N ->
  compute_monomials lg ex st (None :: values) coeffs (Some p :: powers) = Err AssertionError.
Proof. exact compute_missing. Qed.
Print Assumptions monomials_missing_value.

(** 5 x^2 z1 and 7 z0^3, with x = 2, z = (3, 1/2); a further variable is absent. *)
Example monomials_ex (C : numClosedFieldType) (lg ex : C -> C) (a b c : C) :
  compute_monomials lg ex Opt [:: Some [:: a]; None; Some [:: b; c]] [:: 5%:R; 7%:R]
    [:: Some [:: [:: 2]; [:: 0]]; None; Some [:: [:: 0; 1]; [:: 3; 0]]]%N
  = Ok [:: 5%:R * (a ^+ 2 * c); 7%:R * b ^+ 3].
Proof.
rewrite monomials_value // /monomial_values /=.
rewrite !big_cons !big_nil /factor_value /= !big_ord_recl !big_ord0 /=.
congr Ok; congr [:: _; _]; ring.
Qed.
Example monomials_err_ex (C : numClosedFieldType) (lg ex : C -> C) (a b : C) :
  compute_monomials lg ex Plain [:: Some [:: a; b]] [:: 1] [:: Some [:: [:: 2]]]%N = Err ValueError.
Proof. by []. Qed.

(** ** C31 *)
(** The extracted table has the same value as the terms it is extracted from. *)
Theorem to_coeffs_value : forall (C : numClosedFieldType) (P : poly C) (gens : seq sym)
    (terms : seq (term C)),
  terms_fit P gens terms -> all (fun t => simple_coeff (parameters P) t.2) terms ->
  exists coeffs cparams powers,
    [/\ to_coeffs_and_powers P gens terms = Ok (coeffs, cparams, powers),
        size cparams = size coeffs,
        all (fun ps => all (fun p => p \in parameters P) ps) cparams,
        all (fun vp => table_ok (size coeffs) (Some vp.1, vp.2))
            (zip (var_lists (variable_names P) (variable_indices P)) powers) &
        forall rho, tables_value rho (var_lists (variable_names P) (variable_indices P))
                      coeffs cparams powers = terms_value rho gens terms].
Proof. exact to_coeffs_fit. Qed.
Print Assumptions to_coeffs_value.

(** Which coefficients are accepted: every factor is a number or a parameter
    (in particular no power of a parameter and no sum inside a product). *)
Theorem to_coeffs_accepts : forall (C : numClosedFieldType) (P : poly C) (gens : seq sym)
    (terms : seq (term C)),
  all (fun t => size t.1 == size gens) terms ->
  is_ok (to_coeffs_and_powers P gens terms) =
  all (fun t => known_factors (parameters P) t.2) terms.
Proof. exact to_coeffs_is_ok. Qed.
Print Assumptions to_coeffs_accepts.

(** A multiple of the imaginary unit loses its magnitude. *)
Theorem to_coeffs_imaginary_refuted : forall (C : numClosedFieldType) (P : poly C) (gens : seq sym)
    (pows : seq nat) (c : C),
  size pows = size gens ->
  exists pws, to_coeffs_and_powers P gens [:: (pows, EMul [:: ENum c; @EI C])] =
    Ok ([:: 'i], [:: [::]], pws).
Proof. exact to_coeffs_imaginary. Qed.
Print Assumptions to_coeffs_imaginary_refuted.

(** The constructed polynomial has the documented value. *)
Theorem from_coeffs_value : forall (C : numClosedFieldType) (norm : expr C -> expr C) pick setorder
    (coeffs : seq C) (cparams : seq (seq sym)) (powers : seq (option ptable)) (names : seq sym)
    (inds : seq (option (seq Z))) (params : seq sym) (P : poly C),
  norm_ok norm -> size cparams = size coeffs ->
  all (fun ps => all (fun p => p \in params) ps) cparams ->
  from_coeffs_and_powers norm pick setorder coeffs powers (Some cparams) (Some names) (Some inds)
    (Some params) = Ok P ->
  [/\ variable_names P = names, variable_indices P = inds, parameters P = params,
      forall rho, value P rho = tables_value rho (var_lists names inds) coeffs cparams powers &
      wf_vars names inds -> wf_params names params -> wf_poly P].
Proof. exact from_coeffs_wf. Qed.
Print Assumptions from_coeffs_value.

(** It exists for all tables of the right shape, unless no variable remains. *)
Theorem from_coeffs_accepts : forall (C : numClosedFieldType) (norm : expr C -> expr C) pick setorder
    (coeffs : seq C) (cparams : seq (seq sym)) (powers : seq (option ptable)) (names : seq sym)
    (inds : seq (option (seq Z))) (params : seq sym),
  size cparams = size coeffs -> check_signature [::] names = Ok tt ->
  all (fun ps => all (fun p => p \in params) ps) cparams ->
  let r := from_coeffs_and_powers norm pick setorder coeffs powers (Some cparams) (Some names)
             (Some inds) (Some params) in
  if all (fun vp => table_ok (size coeffs) (Some vp.1, vp.2)) (zip (var_lists names inds) powers)
  then exists2 e, (forall rho, sem rho e = tables_value rho (var_lists names inds) coeffs cparams powers)
                & is_ok r = ~~ nilp (pick e)
  else r = Err ValueError.
Proof. exact from_coeffs_shape. Qed.
Print Assumptions from_coeffs_accepts.

(** Extraction followed by construction. *)
Theorem coeffs_round_trip : forall (C : numClosedFieldType) (norm : expr C -> expr C) pick setorder
    (P Q : poly C) (gens : seq sym) (terms : seq (term C)),
  norm_ok norm -> terms_fit P gens terms ->
  all (fun t => simple_coeff (parameters P) t.2) terms ->
  (forall rho, value P rho = terms_value rho gens terms) ->
  (do r <- to_coeffs_and_powers P gens terms;
   from_coeffs_and_powers norm pick setorder r.1.1 r.2 (Some r.1.2) (Some (variable_names P))
     (Some (variable_indices P)) (Some (parameters P))) = Ok Q ->
  [/\ variable_names Q = variable_names P, variable_indices Q = variable_indices P,
      parameters Q = parameters P & forall rho, value Q rho = value P rho].
Proof. exact round_trip_fit. Qed.
Print Assumptions coeffs_round_trip.

(** Without explicit variable indices the tables of a polynomial that lacks one
    of its variables are rejected. *)
Theorem from_coeffs_absent_refuted : forall (C : numClosedFieldType) (norm : expr C -> expr C) pick
    setorder (coeffs : seq C) (powers : seq (option ptable)) cparams names params,
  None \in powers ->
  is_ok (from_coeffs_and_powers norm pick setorder coeffs powers cparams names None params) = false.
Proof. exact from_coeffs_none. Qed.
Print Assumptions from_coeffs_absent_refuted.

(** The defaults: letters, ranges, no symbolic coefficients. *)
Theorem from_coeffs_defaults : forall (C : numClosedFieldType) (norm : expr C -> expr C) pick setorder
    (coeffs : seq C) (tabs : seq ptable), all (fun t => ~~ nilp t) tabs -> coeffs != [::] ->
  exists names inds,
  [/\ from_coeffs_and_powers norm pick setorder coeffs (map Some tabs) None None None None =
      from_coeffs_and_powers norm pick setorder coeffs (map Some tabs)
        (Some (nseq (size coeffs) [::])) (Some names) (Some inds) (Some (setorder [::])),
      size names = size tabs,
      forall i, (i < size tabs)%N -> (i < 26)%N ->
        nth [::] names i = [:: nth " "%char (lit "abcdefghijklmnopqrstuvwxyz") i] &
      forall v, (v < size tabs)%N -> exists2 l, nth None inds v = Some l &
        size l = size (head [::] (nth [::] tabs v)) /\
        forall i, (i < size l)%N -> nth 0%Z l i = Z.of_nat i].
Proof. exact from_coeffs_default. Qed.
Print Assumptions from_coeffs_defaults.

Theorem from_coeffs_names_exhausted : forall (C : numClosedFieldType) (norm : expr C -> expr C) pick
    setorder (coeffs : seq C) (powers : seq (option ptable)) cparams inds params,
  (26 < size powers)%N ->
  is_ok (from_coeffs_and_powers norm pick setorder coeffs powers cparams None inds params) = false.
Proof. exact from_coeffs_many. Qed.
Print Assumptions from_coeffs_names_exhausted.

(** (3 + 2 psi) z0^2 + 4 z0 x with an unused variable y. *)
Definition mon_poly (C : numClosedFieldType) : poly C :=
  MkPoly [:: lit "x"; lit "y"; lit "z"] [:: None; None; Some [:: 0; 1]%Z] [:: lit "psi"]
    (SPoly [:: lit "x"; lit "z0"] (EAdd [::
       EMul [:: EAdd [:: ENum 3%:R; EMul [:: ENum 2%:R; ESym (lit "psi")]]; EPow (ESym (lit "z0")) 2];
       EMul [:: ENum 4%:R; ESym (lit "z0"); ESym (lit "x")]])).
Definition mon_terms (C : numClosedFieldType) : seq (term C) :=
  [:: ([:: 0; 2]%N, EAdd [:: ENum 3%:R; EMul [:: ENum 2%:R; ESym (lit "psi")]]);
      ([:: 1; 1]%N, ENum 4%:R)].

Example to_coeffs_ex (C : numClosedFieldType) :
  to_coeffs_and_powers (mon_poly C) [:: lit "x"; lit "z0"] (mon_terms C) =
  Ok ([:: 3%:R; 2%:R; 4%:R], [:: [::]; [:: lit "psi"]; [::]],
      [:: Some [:: [:: 0]; [:: 0]; [:: 1]]; None; Some [:: [:: 2; 0]; [:: 2; 0]; [:: 1; 0]]]%N).
Proof. by []. Qed.

Example to_coeffs_hyp_ex (C : numClosedFieldType) :
  [/\ terms_fit (mon_poly C) [:: lit "x"; lit "z0"] (mon_terms C),
      all (fun t => simple_coeff (parameters (mon_poly C)) t.2) (mon_terms C) &
      forall rho, value (mon_poly C) rho = terms_value rho [:: lit "x"; lit "z0"] (mon_terms C)].
Proof.
split=> //; first by split=> //; apply/allP.
move=> rho; rewrite /value /terms_value /= !big_cons !big_nil /=.
rewrite !big_ord_recl !big_ord0 /= ?big_cons ?big_nil /= ?big_cons ?big_nil; ring.
Qed.

Example from_coeffs_ex (C : numClosedFieldType) (pick : expr C -> seq sym) :
  (forall e, pick e = [:: lit "x"; lit "z0"]) ->
  is_ok (do r <- to_coeffs_and_powers (mon_poly C) [:: lit "x"; lit "z0"] (mon_terms C);
   from_coeffs_and_powers id pick id r.1.1 r.2 (Some r.1.2) (Some (variable_names (mon_poly C)))
     (Some (variable_indices (mon_poly C))) (Some (parameters (mon_poly C)))).
Proof.
move=> H; rewrite to_coeffs_ex /= /from_coeffs_and_powers.
by rewrite -[check_signature _ _]/(Ok tt) /= H.
Qed.

Example to_coeffs_reject_ex (C : numClosedFieldType) :
  to_coeffs_and_powers (mon_poly C) [:: lit "x"; lit "z0"]
    [:: ([:: 1; 0]%N, EMul [:: ENum 2%:R; EPow (ESym (lit "psi")) 2])] = Err TypeError.
Proof. by []. Qed.
