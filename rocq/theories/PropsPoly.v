(** Properties C23-C28, C32, C70-C72: polynomials (cyjax/polynomial.py). *)
From Coq Require Import ZArith Ascii String Permutation.
From mathcomp Require Import all_ssreflect all_algebra algC.
From mathcomp Require Import ssrZ.
From Verif Require Import Base ModelStr ModelExpr ModelPoly SpecPoly ProofPoly ProofPoly2
  ProofPoly3 ProofPoly4 ProofPoly5 ProofPoly6 ProofPoly7.
Delimit Scope Z_scope with Z.

Set Implicit Arguments.
Unset Strict Implicit.
Unset Printing Implicit Defensive.

Import GRing.Theory Num.Theory.
Local Open Scope ring_scope.

(** ** C23: union of index lists *)
Theorem union_indices_members : forall l r : seq Z, uniq l -> uniq r ->
  uniq (union_indices l r) /\
  forall i, (i \in union_indices l r) = (i \in l) || (i \in r).
Proof. exact union_mem. Qed.
Print Assumptions union_indices_members.

Theorem union_indices_sorted : forall l r : seq Z, sorted Z.ltb l -> sorted Z.ltb r ->
  sorted Z.ltb (union_indices l r).
Proof. exact union_sorted. Qed.
Print Assumptions union_indices_sorted.

(** No index is lost or invented even if a list has repetitions. *)
Theorem union_indices_members_rep : forall (l r : seq Z) i,
  (i \in union_indices l r) = (i \in l) || (i \in r).
Proof. exact union_indices_mem. Qed.
Print Assumptions union_indices_members_rep.

Example union_indices_ex :
  union_indices [:: 0; 2; 5]%Z [:: 1; 2; 7; 9]%Z = [:: 0; 1; 2; 5; 7; 9]%Z.
Proof. by []. Qed.

(** ** C24: from_sympy with variable names *)
(** The order in which the free symbols are visited has no influence. *)
Theorem from_sympy_visit_order : forall (C : numClosedFieldType) (norm : expr C -> expr C)
    (e : expr C) (syms syms' names : seq sym) params indices,
  uniq syms -> syms =i esyms e -> perm_eq syms syms' -> all alpha names ->
  is_ok (from_sympy norm e syms (Some names) params indices) =
    is_ok (from_sympy norm e syms' (Some names) params indices) /\
  forall P, from_sympy norm e syms (Some names) params indices = Ok P ->
            from_sympy norm e syms' (Some names) params indices = Ok P.
Proof. exact from_sympy_perm. Qed.
Print Assumptions from_sympy_visit_order.

(** Variables, sorted indices and parameters; every symbol is accounted for. *)
Theorem from_sympy_names : forall (C : numClosedFieldType) (norm : expr C -> expr C)
    (e : expr C) (syms names : seq sym) params P,
  uniq syms -> syms =i esyms e ->
  from_sympy norm e syms (Some names) params None = Ok P ->
  [/\ variable_names P = names /\ size (variable_indices P) = size names,
      forall n, n \in names ->
        match nth None (variable_indices P) (index n names) with
        | None => forall v i, v \in esyms e -> v \notin odflt [::] params ->
                    split_subscript v <> Ok (n, Some i)
        | Some l => l <> [::] /\ sorted Z.ltb l /\
            forall i, i \in l <-> exists2 v, v \in esyms e &
               v \notin odflt [::] params /\ split_subscript v = Ok (n, Some i)
        end,
      (if params is Some s then parameters P = s else
         [/\ sorted sym_leb (parameters P), uniq (parameters P) &
          forall v, v \in parameters P <->
            v \in esyms e /\ exists2 n, has_base v n & n \notin names]) &
      forall v, v \in esyms e -> canonical names (odflt [::] params) v \in all_symbols P].
Proof. exact from_sympy_spec. Qed.
Print Assumptions from_sympy_names.

(** z_2 + psi z0 z_2, variable z: indices 0, 2 and parameter psi. *)
Definition e_ex (C : numClosedFieldType) : expr C :=
  EAdd [:: ESym (lit "z_2"); EMul [:: ESym (lit "psi"); ESym (lit "z0"); ESym (lit "z_2")]].

Example from_sympy_ex (C : numClosedFieldType) :
  let P := MkPoly [:: lit "z"] [:: Some [:: 0; 2]%Z] [:: lit "psi"]
    (SPoly [:: lit "z0"; lit "z2"]
       (EAdd [:: ESym (lit "z2"); EMul [:: ESym (lit "psi"); ESym (lit "z0"); ESym (lit "z2")]])) in
  from_sympy id (e_ex C) [:: lit "psi"; lit "z_2"; lit "z0"] (Some [:: lit "z"]) None None = Ok P /\
  from_sympy id (e_ex C) [:: lit "z0"; lit "z_2"; lit "psi"] (Some [:: lit "z"]) None None = Ok P.
Proof. by []. Qed.

(** ** C25: from_sympy without variable names *)
(** Two symbols with the same base name (say z0 and z1) always raise. *)
Theorem from_sympy_auto_refuted : forall (C : numClosedFieldType) (norm : expr C -> expr C)
    (e : expr C) (syms : seq sym) params (v w n : sym) (i j : option Z),
  uniq syms -> v != w -> v \in syms -> w \in syms ->
  v \notin odflt [::] params -> w \notin odflt [::] params ->
  all (fun v => is_ok (split_subscript v)) syms ->
  split_subscript v = Ok (n, i) -> split_subscript w = Ok (n, j) ->
  from_sympy norm e syms None params None = Err ValueError.
Proof. exact from_sympy_auto_dup. Qed.
Print Assumptions from_sympy_auto_refuted.

(** The exact result: one variable per symbol, in visiting order, and the
    expression is not rewritten. *)
Theorem from_sympy_auto_result : forall (C : numClosedFieldType) (norm : expr C -> expr C)
    (e : expr C) (syms : seq sym) params,
  from_sympy norm e syms None params None =
  (do infos <- rseq [seq split_subscript v | v <- syms & v \notin odflt [::] params];
   let names := map fst infos in
   let indices := [seq (if x.2 is Some i then Some [:: i] else None) | x <- infos] in
   do _ <- check_signature [::] names;
   do sp <- sympy_Poly norm e (var_symbols names indices) (odflt [::] params);
   Ok (MkPoly names indices (odflt [::] params) sp)).
Proof. exact from_sympy_auto. Qed.
Print Assumptions from_sympy_auto_result.

Example from_sympy_auto_ex (C : numClosedFieldType) :
  from_sympy id (EMul [:: ESym (lit "z0"); ESym (lit "z1")] : expr C)
    [:: lit "z0"; lit "z1"] None None None = Err ValueError /\
  from_sympy id (EMul [:: ESym (lit "x"); ESym (lit "y")] : expr C)
    [:: lit "y"; lit "x"] None None None =
  Ok (MkPoly [:: lit "y"; lit "x"] [:: None; None] [::]
       (SPoly [:: lit "y"; lit "x"] (EMul [:: ESym (lit "x"); ESym (lit "y")]))).
Proof. by []. Qed.

(** ** C26: a variable used with and without subscript is rejected *)
Theorem from_sympy_mixed_use : forall (C : numClosedFieldType) (norm : expr C -> expr C)
    (e : expr C) (syms names : seq sym) params (v w n : sym) (i : Z),
  uniq syms -> syms =i esyms e -> all alpha names -> n \in names ->
  v \in syms -> v \notin odflt [::] params -> split_subscript v = Ok (n, None) ->
  w \in syms -> w \notin odflt [::] params -> split_subscript w = Ok (n, Some i) ->
  is_ok (from_sympy norm e syms (Some names) params None) = false.
Proof. exact from_sympy_mixed. Qed.
Print Assumptions from_sympy_mixed_use.

(** The kind of exception depends on the visiting order. *)
Example from_sympy_mixed_ex (C : numClosedFieldType) :
  let e := EMul [:: ESym (lit "z"); ESym (lit "z1")] : expr C in
  from_sympy id e [:: lit "z"; lit "z1"] (Some [:: lit "z"]) None None = Err OtherError /\
  from_sympy id e [:: lit "z1"; lit "z"] (Some [:: lit "z"]) None None = Err AssertionError.
Proof. by []. Qed.

(** The two spellings of one indexed variable cannot be used together. *)
Theorem from_sympy_two_spellings : forall (C : numClosedFieldType) (norm : expr C -> expr C)
    (e : expr C) (syms names : seq sym) params (v w n : sym) (i : Z),
  uniq syms -> n \in names -> v != w ->
  v \in syms -> v \notin odflt [::] params -> split_subscript v = Ok (n, Some i) ->
  w \in syms -> w \notin odflt [::] params -> split_subscript w = Ok (n, Some i) ->
  is_ok (from_sympy norm e syms (Some names) params None) = false.
Proof. exact from_sympy_spellings. Qed.
Print Assumptions from_sympy_two_spellings.

Example from_sympy_two_spellings_ex (C : numClosedFieldType) :
  from_sympy id (EMul [:: ESym (lit "z1"); ESym (lit "z_1")] : expr C)
    [:: lit "z1"; lit "z_1"] (Some [:: lit "z"]) None None = Err OtherError.
Proof. by []. Qed.

(** ** C27: argument binding *)
(** The first [k] variables positionally, the others and the parameters by
    keyword. *)
Theorem arguments_by_keyword : forall (C : numClosedFieldType) (names : seq sym) (np : nat)
    (vals : seq (pyval C)) (kw : seq (sym * pyval C)) p (extra : seq (pyval C)) (k : nat),
  size names = size vals -> lit "params" \notin names -> (k <= size names)%N ->
  (k = size names \/ extra = [::]) ->
  (forall i, (k <= i < size names)%N ->
     dict_get kw (nth [::] names i) = Some (nth PNone vals i)) ->
  dict_get kw (lit "params") = Some p -> params_fit np p ->
  sort_var_args names np (take k vals ++ extra) kw = Ok (vals, p).
Proof. exact sort_args_kw. Qed.
Print Assumptions arguments_by_keyword.

Theorem arguments_positional : forall (C : numClosedFieldType) (names : seq sym) (np : nat)
    (vals : seq (pyval C)) (kw : seq (sym * pyval C)) p,
  size names = size vals -> dict_get kw (lit "params") = None -> params_fit np p ->
  sort_var_args names np (rcons vals p) kw = Ok (vals, p).
Proof. exact sort_args_pos. Qed.
Print Assumptions arguments_positional.

Theorem arguments_without_params : forall (C : numClosedFieldType) (names : seq sym) (np : nat)
    (vals : seq (pyval C)) (kw : seq (sym * pyval C)) (k : nat),
  size names = size vals -> (k <= size names)%N ->
  (forall i, (k <= i < size names)%N ->
     dict_get kw (nth [::] names i) = Some (nth PNone vals i)) ->
  dict_get kw (lit "params") = None ->
  sort_var_args names np (take k vals) kw = Ok (vals, PNone).
Proof. exact sort_args_none. Qed.
Print Assumptions arguments_without_params.

Theorem arguments_too_many : forall (C : numClosedFieldType) (names : seq sym) (np : nat)
    (args : seq (pyval C)) (kw : seq (sym * pyval C)),
  dict_get kw (lit "params") = None -> (size names + 1 < size args)%N ->
  sort_var_args names np args kw = Err RuntimeError.
Proof. exact sort_args_many. Qed.
Print Assumptions arguments_too_many.

Theorem arguments_missing : forall (C : numClosedFieldType) (names : seq sym) (np : nat)
    (args : seq (pyval C)) (kw : seq (sym * pyval C)) (i : nat),
  lit "params" \notin names -> (size args <= i < size names)%N ->
  dict_get kw (nth [::] names i) = None ->
  sort_var_args names np args kw = Err KeyError.
Proof. exact sort_args_missing. Qed.
Print Assumptions arguments_missing.

Theorem arguments_number_of_params : forall (C : numClosedFieldType) (names : seq sym) (np : nat)
    (args : seq (pyval C)) (kw : seq (sym * pyval C)) (a : seq C) v p,
  sort_var_args names np args kw = Ok (v, p) -> p = PArr a -> size a = np.
Proof. exact sort_args_bad_params. Qed.
Print Assumptions arguments_number_of_params.

Example arguments_ex (C : numClosedFieldType) (x y p : C) :
  let names := [:: lit "x"; lit "y"] in
  [/\ sort_var_args names 1 [:: PNum x; PNum y; PArr [:: p]] [::]
        = Ok ([:: PNum x; PNum y], PArr [:: p]),
      sort_var_args names 1 [:: PNum x] [:: (lit "params", PArr [:: p]); (lit "y", PNum y)]
        = Ok ([:: PNum x; PNum y], PArr [:: p]),
      sort_var_args names 1 [:: PNum x] [:: (lit "params", PArr [:: p])] = Err KeyError,
      sort_var_args names 1 [:: PNum x; PNum y; PArr [::]] [::] = Err AssertionError &
      sort_var_args names 1 [:: PNum x; PNum y; PNum x; PNum y] [::] = Err RuntimeError].
Proof. by []. Qed.

(** ** C28: evaluation *)
(** The polynomial made from an expression evaluates to the value of the
    expression, each symbol read from the entry of its variable (in whatever
    spelling) or from its parameter.  [extra]: surplus entries of the arrays. *)
Theorem from_sympy_evaluates : forall (C : numClosedFieldType) (norm : expr C -> expr C)
    (e : expr C) (syms names : seq sym) params indices P (rho : sym -> C) (extra : sym -> seq C),
  norm_ok norm -> uniq syms -> syms =i esyms e -> all alpha names -> no_I e ->
  (forall s, params = Some s -> wf_params names s) ->
  (forall l, indices = Some l -> size l = size names /\
     all (fun ind => if ind is Some l then all (Z.leb 0) l else true) l) ->
  (forall v n i, v \in syms -> split_subscript v = Ok (n, Some i) -> (0 <= i)%Z) ->
  from_sympy norm e syms (Some names) params indices = Ok P ->
  call_num P (rcons (var_inputs P rho extra) (par_input P rho)) [::] =
    Ok (sem (fun v => rho (canonical names (odflt [::] params) v)) e).
Proof. exact from_sympy_call. Qed.
Print Assumptions from_sympy_evaluates.

(** Every polynomial object evaluates to its value ... *)
Theorem poly_call_value : forall (C : numClosedFieldType) (P : poly C) (rho : sym -> C) extra,
  wf_poly P ->
  call_num P (rcons (var_inputs P rho extra) (par_input P rho)) [::] = Ok (value P rho).
Proof. exact call_value. Qed.
Print Assumptions poly_call_value.

(** ... and all inputs of the right shapes are reached. *)
Theorem poly_call_all_inputs : forall (C : numClosedFieldType) (names : seq sym)
    (inds : seq (option (seq Z))) (params : seq sym) (vs : seq (pyval C)) (ps : seq C),
  size names = size inds -> size vs = size inds ->
  (forall i, (i < size inds)%N -> fits (nth None inds i) (nth PNone vs i)) ->
  size ps = size params -> uniq (var_symbols names inds ++ params) ->
  exists rho, map (var_input rho (fun=> [::])) (zip names inds) = vs /\ map rho params = ps.
Proof. exact inputs_onto. Qed.
Print Assumptions poly_call_all_inputs.

(** Symbolic substitution of numbers gives the same value, for every order in
    which sympy makes the replacements. *)
Theorem symbolic_call_agrees : forall (C : numClosedFieldType) (P : poly C) order
    (rho rho' : sym -> C) extra,
  wf_poly P -> uniq (all_symbols P) -> (forall d, Permutation d (order d)) ->
  exists v e, [/\ call_num P (rcons (var_inputs P rho extra) (par_input P rho)) [::] = Ok v,
    call_sym P [seq [seq ENum (rho s) | s <- symbols_of ni.1 ni.2]
               | ni <- zip (variable_names P) (variable_indices P)]
      (Some [seq ENum (rho s) | s <- parameters P]) order = Ok e &
    sem rho' e = v].
Proof. exact call_sym_num. Qed.
Print Assumptions symbolic_call_agrees.

Definition P_ex (C : numClosedFieldType) : poly C :=
  MkPoly [:: lit "z"] [:: Some [:: 0; 2]%Z] [:: lit "psi"]
    (SPoly [:: lit "z0"; lit "z2"]
       (EAdd [:: ESym (lit "z2");
                 EMul [:: ESym (lit "psi"); ESym (lit "z0"); EPow (ESym (lit "z2")) 3]])).

Example poly_call_ex (C : numClosedFieldType) (a b p c : C) :
  call_num (P_ex C) [:: PArr [:: a; b; c]; PArr [:: p]] [::] = Ok (b + p * a * b ^+ 3) /\
  call_num (P_ex C) [::] [:: (lit "z", PArr [:: a; b]); (lit "params", PArr [:: p])]
    = Ok (b + p * a * b ^+ 3).
Proof. by rewrite /call_num /= add0r. Qed.

Example poly_wf_ex (C : numClosedFieldType) : wf_poly (P_ex C) /\ uniq (all_symbols (P_ex C)).
Proof.
split=> //; split=> //.
- by move=> p; rewrite inE => /eqP ->; exists (lit "psi") => //; exists None.
- by do 2 eexists; split=> // s; rewrite /= !inE => /or4P[] /eqP ->.
Qed.

(** ** C70: substitution of symbols by expressions containing them *)
(** Correct whenever the symbols of the polynomial that occur in replacements are
    replaced by themselves ... *)
Theorem symbolic_call_value : forall (C : numClosedFieldType) (P : poly C)
    (f : sym -> expr C) order (rho : sym -> C),
  wf_poly P -> uniq (all_symbols P) -> (forall d, Permutation d (order d)) ->
  (forall s t, s \in all_symbols P -> t \in esyms (f s) -> t \in all_symbols P -> f t = ESym t) ->
  exists2 e, call_sym P [seq [seq f s | s <- symbols_of ni.1 ni.2]
               | ni <- zip (variable_names P) (variable_indices P)]
      (Some (map f (parameters P))) order = Ok e &
    sem rho e = value P (fun s => sem rho (f s)).
Proof. exact call_sym_value. Qed.
Print Assumptions symbolic_call_value.

(** ... but exchanging the variables of x + 2 y gives 3 x or 3 y. *)
Theorem symbolic_call_swap_refuted : forall (C : numClosedFieldType) order,
  (forall d : seq (sym * expr C), Permutation d (order d)) ->
  let P := MkPoly [:: lit "x"; lit "y"] [:: None; None] [::]
    (SPoly [:: lit "x"; lit "y"]
       (EAdd [:: ESym (lit "x"); EMul [:: ENum 2%:R; ESym (lit "y")]])) : poly C in
  exists2 e, call_sym P [:: [:: ESym (lit "y")]; [:: ESym (lit "x")]] None order = Ok e &
  (forall rho, sem rho e = 3%:R * rho (lit "x")) \/ (forall rho, sem rho e = 3%:R * rho (lit "y")).
Proof. exact call_sym_swap. Qed.
Print Assumptions symbolic_call_swap_refuted.

Example symbolic_call_ex (C : numClosedFieldType) (rho : sym -> C) :
  exists2 e, call_sym (P_ex C) [:: [:: ESym (lit "t"); EPow (ESym (lit "t")) 2]]
      (Some [:: ENum 1]) id = Ok e &
    sem rho e = rho (lit "t") ^+ 2 + rho (lit "t") * (rho (lit "t") ^+ 2) ^+ 3.
Proof. by eexists; [by []|rewrite /= !big_cons !big_nil /= addr0 mulr1 mul1r]. Qed.

(** ** C71: coefficients with an imaginary part cannot be evaluated *)
Theorem imaginary_unit_refuted : forall (C : numClosedFieldType) (P : poly C)
    (rho : sym -> C) extra g e,
  wf_vars (variable_names P) (variable_indices P) ->
  wf_params (variable_names P) (parameters P) ->
  sympy_poly P = SPoly g e -> {subset esyms e <= all_symbols P} -> ~~ no_I e ->
  call_num P (rcons (var_inputs P rho extra) (par_input P rho)) [::] = Err RuntimeError.
Proof. exact call_I. Qed.
Print Assumptions imaginary_unit_refuted.

Example imaginary_unit_ex (C : numClosedFieldType) (a : C) :
  call_num (MkPoly [:: lit "x"] [:: None] [::]
      (SPoly [:: lit "x"] (EMul [:: ENum 2%:R; EI; ESym (lit "x")]))) [:: PNum a; PArr [::]] [::]
  = Err RuntimeError.
Proof. by []. Qed.

(** ** C72: parameters sharing a base name with a variable *)
(** The value of the parameter is ignored: the scalar variable is used, ... *)
Theorem parameter_clash_scalar_refuted : forall (C : numClosedFieldType) (P : poly C)
    (rho : sym -> C) extra (s n : sym) (i : option Z),
  wf_vars (variable_names P) (variable_indices P) ->
  (n, None) \in zip (variable_names P) (variable_indices P) ->
  split_subscript s = Ok (n, i) ->
  sympy_poly P = SPoly (var_symbols (variable_names P) (variable_indices P)) (ESym s) ->
  call_num P (rcons (var_inputs P rho extra) (par_input P rho)) [::] = Ok (rho n).
Proof. exact clash_scalar. Qed.
Print Assumptions parameter_clash_scalar_refuted.

(** ... the entry of the vector variable is used, ... *)
Theorem parameter_clash_vector_refuted : forall (C : numClosedFieldType) (P : poly C)
    (rho : sym -> C) extra (s n : sym) l (i : Z),
  wf_vars (variable_names P) (variable_indices P) ->
  (n, Some l) \in zip (variable_names P) (variable_indices P) -> i \in l ->
  split_subscript s = Ok (n, Some i) ->
  sympy_poly P = SPoly (var_symbols (variable_names P) (variable_indices P)) (ESym s) ->
  call_num P (rcons (var_inputs P rho extra) (par_input P rho)) [::]
    = Ok (rho (merge_subscript n i)).
Proof. exact clash_vector. Qed.
Print Assumptions parameter_clash_vector_refuted.

(** ... or the call fails. *)
Theorem parameter_clash_missing : forall (C : numClosedFieldType) (P : poly C)
    args kw (s n : sym) l (i : option Z),
  wf_vars (variable_names P) (variable_indices P) ->
  (n, Some l) \in zip (variable_names P) (variable_indices P) ->
  (if i is Some j then j \notin l else true) ->
  split_subscript s = Ok (n, i) ->
  is_ok (sort_var_args (variable_names P) (size (parameters P)) args kw) ->
  sympy_poly P = SPoly (var_symbols (variable_names P) (variable_indices P)) (ESym s) ->
  call_num P args kw = Err KeyError.
Proof. exact clash_missing. Qed.
Print Assumptions parameter_clash_missing.

(** Accepted by from_sympy when given explicitly as parameter; x1 is 7, x is 2. *)
Example parameter_clash_ex (C : numClosedFieldType) :
  exists2 P, from_sympy id (EAdd [:: ESym (lit "x"); ESym (lit "x1")] : expr C)
      [:: lit "x"; lit "x1"] (Some [:: lit "x"]) (Some [:: lit "x1"]) None = Ok P &
    call_num P [:: PNum 2%:R; PArr [:: 7%:R]] [::] = Ok 4%:R.
Proof. by eexists; [by []|rewrite /call_num /= add0r -natrD]. Qed.

(** ** C32: arithmetic *)
Theorem poly_add_pointwise : forall (C : numClosedFieldType) (norm : expr C -> expr C),
  norm_ok norm -> forall (P Q R : poly C) (rho : sym -> C) extra,
  poly_add norm P Q = Ok R -> wf_poly P -> wf_poly Q ->
  wf_params (variable_names P) (parameters Q) -> wf_params (variable_names Q) (parameters P) ->
  exists p q, [/\ call_num P (rcons (var_inputs P rho extra) (par_input P rho)) [::] = Ok p,
    call_num Q (rcons (var_inputs Q rho extra) (par_input Q rho)) [::] = Ok q &
    call_num R (rcons (var_inputs R rho extra) (par_input R rho)) [::] = Ok (p + q)].
Proof. exact (fun C norm nk P Q R rho extra => @combine_call C norm nk _ _ P Q R rho extra (@add_op C)). Qed.
Print Assumptions poly_add_pointwise.

Theorem poly_mul_pointwise : forall (C : numClosedFieldType) (norm : expr C -> expr C),
  norm_ok norm -> forall (P Q R : poly C) (rho : sym -> C) extra,
  poly_mul norm P Q = Ok R -> wf_poly P -> wf_poly Q ->
  wf_params (variable_names P) (parameters Q) -> wf_params (variable_names Q) (parameters P) ->
  exists p q, [/\ call_num P (rcons (var_inputs P rho extra) (par_input P rho)) [::] = Ok p,
    call_num Q (rcons (var_inputs Q rho extra) (par_input Q rho)) [::] = Ok q &
    call_num R (rcons (var_inputs R rho extra) (par_input R rho)) [::] = Ok (p * q)].
Proof. exact (fun C norm nk P Q R rho extra => @combine_call C norm nk _ _ P Q R rho extra (@mul_op C)). Qed.
Print Assumptions poly_mul_pointwise.

Theorem poly_sub_pointwise : forall (C : numClosedFieldType) (norm : expr C -> expr C),
  norm_ok norm -> forall (P Q R : poly C) (rho : sym -> C) extra,
  poly_sub norm P Q = Ok R -> wf_poly P -> wf_poly Q ->
  wf_params (variable_names P) (parameters Q) -> wf_params (variable_names Q) (parameters P) ->
  exists p q, [/\ call_num P (rcons (var_inputs P rho extra) (par_input P rho)) [::] = Ok p,
    call_num Q (rcons (var_inputs Q rho extra) (par_input Q rho)) [::] = Ok q &
    call_num R (rcons (var_inputs R rho extra) (par_input R rho)) [::] = Ok (p - q)].
Proof. exact (fun C norm nk P Q R rho extra => @combine_call C norm nk _ _ P Q R rho extra (@sub_op C)). Qed.
Print Assumptions poly_sub_pointwise.

(** Variables, indices and parameters of the result, for all three operations. *)
Theorem poly_arith_metadata : forall (C : numClosedFieldType) (norm : expr C -> expr C)
    op (P Q R : poly C),
  combine norm op P Q = Ok R -> wf_poly P -> wf_poly Q ->
  [/\ forall m, (m \in variable_names R) = (m \in variable_names P) || (m \in variable_names Q),
      forall s, (s \in var_symbols (variable_names R) (variable_indices R)) =
        (s \in var_symbols (variable_names P) (variable_indices P)) ||
        (s \in var_symbols (variable_names Q) (variable_indices Q)),
      forall p, (p \in parameters R) = (p \in parameters P) || (p \in parameters Q) &
      wf_vars (variable_names R) (variable_indices R)].
Proof. exact combine_meta_mem. Qed.
Print Assumptions poly_arith_metadata.

(** Compatible polynomials can be combined. *)
Theorem poly_arith_succeeds : forall (C : numClosedFieldType) (norm : expr C -> expr C),
  norm_ok norm -> forall (P Q : poly C),
  wf_poly P -> wf_poly Q ->
  sp_gens (sympy_poly P) = var_symbols (variable_names P) (variable_indices P) ->
  sp_gens (sympy_poly Q) = var_symbols (variable_names Q) (variable_indices Q) ->
  sp_gens (sympy_poly P) != [::] ->
  uniq (parameters P) -> uniq (parameters Q) ->
  all is_ident (variable_names P ++ variable_names Q) ->
  lit "params" \notin variable_names P ++ variable_names Q ->
  ~~ has (mem (parameters P ++ parameters Q))
     (sp_gens (sympy_poly P) ++ sp_gens (sympy_poly Q)) ->
  (forall n, n \in variable_names P -> n \in variable_names Q ->
     isSome (nth None (variable_indices P) (index n (variable_names P))) =
     isSome (nth None (variable_indices Q) (index n (variable_names Q)))) ->
  [/\ exists R, poly_add norm P Q = Ok R, exists R, poly_mul norm P Q = Ok R &
      exists R, poly_sub norm P Q = Ok R].
Proof. exact combine_succeeds. Qed.
Print Assumptions poly_arith_succeeds.

(** A variable that is a vector on one side and a scalar on the other. *)
Theorem poly_arith_mixed_use : forall (C : numClosedFieldType) (norm : expr C -> expr C)
    op (P Q : poly C) n,
  wf_poly P -> wf_poly Q -> n \in variable_names P -> n \in variable_names Q ->
  isSome (nth None (variable_indices P) (index n (variable_names P))) !=
  isSome (nth None (variable_indices Q) (index n (variable_names Q))) ->
  combine norm op P Q = Err AssertionError.
Proof. exact combine_mixed. Qed.
Print Assumptions poly_arith_mixed_use.

Example poly_arith_ex (C : numClosedFieldType) (z0 z1 z2 x a b : C) :
  let Z l := [seq merge_subscript (lit "z") i | i <- l] in
  let P := MkPoly [:: lit "z"] [:: Some [:: 0; 2]%Z] [:: lit "a"]
     (SPoly (Z [:: 0; 2]%Z) (EMul [:: ESym (lit "a"); ESym (lit "z2")])) in
  let Q := MkPoly [:: lit "x"; lit "z"] [:: None; Some [:: 1; 2]%Z] [:: lit "b"; lit "a"]
     (SPoly (lit "x" :: Z [:: 1; 2]%Z) (EMul [:: ESym (lit "b"); ESym (lit "x"); ESym (lit "z1")])) in
  exists2 R, poly_mul id P Q = Ok R &
    [/\ variable_names R = [:: lit "z"; lit "x"],
        variable_indices R = [:: Some [:: 0; 1; 2]%Z; None],
        parameters R = [:: lit "a"; lit "b"] &
        call_num R [:: PArr [:: z0; z1; z2]; PNum x; PArr [:: a; b]] [::]
          = Ok (a * z2 * (b * x * z1))].
Proof. by eexists; first by []. Qed.
