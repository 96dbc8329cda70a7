(** Properties C140-C142: accepted names, points with too few coordinates, the
    network of HNetMLP; more on C133. *)
From Coq Require Import ZArith Ascii String.
From mathcomp Require Import all_ssreflect all_algebra.
From mathcomp Require Import ssrZ.
From Verif Require Import Base ModelStr ModelExpr ModelPoly ModelHom ModelML ModelInput ModelClamp SpecPoly SpecSig ProofSig ProofClamp.
Delimit Scope Z_scope with Z.

Set Implicit Arguments.
Unset Strict Implicit.
Unset Printing Implicit Defensive.

Import GRing.Theory Num.Theory.
Local Open Scope ring_scope.

(** ** C140: which names are accepted *)
Theorem poly_names : forall extra names, check_signature extra names = Ok tt <->
  [/\ forall n, n \in names -> identifier n, uniq names, lit "params" \notin names,
      (forall n, n \in extra -> n \notin names) & uniq extra /\ lit "params" \notin extra].
Proof. exact signature_ok. Qed.
Print Assumptions poly_names.

Theorem hom_poly_names : forall (C : numClosedFieldType) (P : poly C), (exists H, hom_init P = Ok H) <->
  [/\ forall n, n \in variable_names P -> identifier n, uniq (variable_names P),
      lit "params" \notin variable_names P, lit "patch" \notin variable_names P &
      forall ind, ind \in variable_indices P -> exists l, ind = Some l].
Proof. exact hom_names. Qed.
Print Assumptions hom_poly_names.

Theorem hom_poly_scalar : forall (C : numClosedFieldType) (P : poly C),
  (forall n, n \in variable_names P -> identifier n) -> uniq (variable_names P) ->
  lit "params" \notin variable_names P -> lit "patch" \notin variable_names P ->
  None \in variable_indices P -> hom_init P = Err TypeError.
Proof. exact hom_scalar. Qed.
Print Assumptions hom_poly_scalar.

Example names_ex : check_signature [::] [:: lit "a1b"; lit "x_2"; lit "patch"] = Ok tt /\
  check_signature [::] [:: lit "1a"] = Err ValueError /\
  check_signature [:: lit "patch"] [:: lit "z"; lit "patch"] = Err ValueError.
Proof. by []. Qed.

Example scalar_ex (C : numClosedFieldType) :
  hom_init (MkPoly [:: lit "z"; lit "w"] [:: Some [:: 0; 1]%Z; None] [::]
    (SPoly [:: lit "z0"; lit "z1"; lit "w"] (EAdd [:: ESym (lit "z0"); ESym (lit "w")] : expr C))) = Err TypeError.
Proof. by []. Qed.

(** ** C141: points with too few coordinates *)
(** NumPy arrays raise if a missing coordinate occurs in the polynomial. *)
Theorem short_point_numpy : forall (C : numClosedFieldType) (P : poly C) g e, wf_poly P -> sympy_poly P = SPoly g e ->
  forall (rho : sym -> C) (keep : sym -> nat), (forall l, Some l \in variable_indices P -> uniq l) ->
  (missing P keep e -> call_num P (rcons (short_inputs P rho keep) (par_input P rho)) [::] = Err IndexError) /\
  (~ missing P keep e -> call_num P (rcons (short_inputs P rho keep) (par_input P rho)) [::] = Ok (value P rho)).
Proof. exact short_numpy. Qed.
Print Assumptions short_point_numpy.

(** JAX arrays never raise: the last coordinate is used for all missing ones. *)
Theorem short_point_jax_refuted : forall (C : numClosedFieldType) (P : poly C) g e, wf_poly P -> sympy_poly P = SPoly g e ->
  forall (rho rho' : sym -> C) (keep : sym -> nat), (forall n, (0 < keep n)%N) ->
  (forall n l, (n, Some l) \in zip (variable_names P) (variable_indices P) -> uniq l /\
     forall k, (k < size l)%N -> rho' (merge_subscript n (nth 0%Z l k)) =
       rho (merge_subscript n (nth 0%Z l (minn k (minn (keep n) (size l)).-1)))) ->
  (forall n, (n, None) \in zip (variable_names P) (variable_indices P) -> rho' n = rho n) ->
  (forall p, p \in parameters P -> rho' p = rho p) ->
  call_clamp P (rcons (short_inputs P rho keep) (par_input P rho)) [::] = Ok (value P rho').
Proof. exact short_jax. Qed.
Print Assumptions short_point_jax_refuted.

(** With enough coordinates the values are those of C28. *)
Theorem full_point_jax : forall (C : numClosedFieldType) (P : poly C) g e, wf_poly P -> sympy_poly P = SPoly g e ->
  forall (rho : sym -> C) extra,
  call_clamp P (rcons (var_inputs P rho extra) (par_input P rho)) [::] = Ok (value P rho).
Proof. exact full_jax. Qed.
Print Assumptions full_point_jax.

(** The affine point (0, -1) is on z0^3 + z1^3 + z2^3 = 0 in patch 2.  If the patch is
    forgotten NumPy raises, and with JAX the value is -2. *)
Definition cubic_z (C : numClosedFieldType) : poly C :=
  MkPoly [:: lit "z"] [:: Some [:: 0; 1; 2]%Z] [::] (SPoly [:: lit "z0"; lit "z1"; lit "z2"]
    (EAdd [:: EPow (ESym (lit "z0")) 3; EPow (ESym (lit "z1")) 3; EPow (ESym (lit "z2")) 3])).

Example cubic_wf (C : numClosedFieldType) : wf_poly (cubic_z C) /\
  missing (cubic_z C) (fun _ => 2%N) (EAdd [:: EPow (ESym (lit "z0")) 3; EPow (ESym (lit "z1")) 3; EPow (ESym (lit "z2")) 3]).
Proof.
split; last by exists (lit "z"), [:: 0; 1; 2]%Z, 2%N.
by split=> //; do 2 eexists; split; first by [].
Qed.

Example cubic_short (C : numClosedFieldType) :
  [/\ call_num (cubic_z C) [:: PArr [:: 0; -1; 1]; PArr [::]] [::] = Ok 0,
      call_num (cubic_z C) [:: PArr [:: 0; -1]; PArr [::]] [::] = Err IndexError &
      call_clamp (cubic_z C) [:: PArr [:: 0; -1]; PArr [::]] [::] = Ok (- 2%:R)].
Proof.
split=> //; rewrite ?/call_num ?/call_clamp /= ?expr0n ?expr1n /=; congr Ok.
  by rewrite !exprS expr0 mulr1 mulrNN mulr1 mulN1r !add0r addNr.
by rewrite !exprS expr0 mulr1 mulrNN mulr1 mulN1r !add0r -opprD.
Qed.

(** ** C133: names and indices given with a sympy.Poly *)
(** Given names are used instead of the generators. *)
Theorem sympy_poly_given_names : forall (C : numClosedFieldType) (norm : expr C -> expr C)
    gens gens' dom (e : expr C) syms l l' names params inds,
  from_sympy_obj norm gens dom e syms l (Some names) params inds =
  from_sympy_obj norm gens' dom e syms l' (Some names) params inds.
Proof. exact obj_names. Qed.
Print Assumptions sympy_poly_given_names.

(** With names and parameters given it is the same as for the expression. *)
Theorem sympy_poly_as_expression : forall (C : numClosedFieldType) (norm : expr C -> expr C)
    gens dom (e : expr C) syms l names params inds,
  from_sympy_obj norm gens dom e syms l (Some names) (Some params) inds =
  from_sympy norm e syms (Some names) (Some params) inds.
Proof. exact obj_expr. Qed.
Print Assumptions sympy_poly_as_expression.

Theorem sympy_poly_indices_need_names : forall (C : numClosedFieldType) (norm : expr C -> expr C)
    gens dom (e : expr C) syms l params inds,
  from_sympy_obj norm gens dom e syms l None params (Some inds) = Err AssertionError.
Proof. exact obj_indices. Qed.
Print Assumptions sympy_poly_indices_need_names.

Example given_names_ex (C : numClosedFieldType) :
  exists2 P, from_sympy_obj id [:: lit "a"] None (EAdd [:: ESym (lit "z0"); ESym (lit "w1")] : expr C)
    [:: lit "z0"; lit "w1"] id (Some [:: lit "w"; lit "z"]) None None = Ok P & variable_names P = [:: lit "w"; lit "z"].
Proof. by eexists; first by vm_compute. Qed.

(** ** C142: the network *)
(** [xs l] is the input of hidden layer l; [y] the result of a layer before dropout. *)
Theorem hnet_forward_value : forall (C : numClosedFieldType) (exp act : C -> C) (dropf : C -> seq C -> seq C)
    (hidden : seq ((seq (seq C) * seq C) * option C)) fk fb (sup : bool) n x (xs : nat -> seq C),
  xs 0%N = x ->
  (forall l, (l < size hidden)%N -> let '(K, b, r) := nth ([::], [::], None) hidden l in
     exists y : seq C, [/\ size b = size K, forall c, c \in K -> size c = size (xs l), size y = size K,
       forall j, (j < size K)%N ->
         nth 0 y j = act (\sum_(i < size (xs l)) nth 0 (xs l) i * nth 0 (nth [::] K j) i + nth 0 b j) &
       xs l.+1 = if r is Some rate then dropf rate y else y]) ->
  let z := xs (size hidden) in
  size fk = (if sup then (n ^ 2).*2 else n ^ 2)%N -> size fb = size fk -> (forall c, c \in fk -> size c = size z) ->
  let out j := \sum_(i < size z) nth 0 z i * nth 0 (nth [::] fk j) i + nth 0 fb j in
  forall j, (j < n ^ 2)%N ->
  nth 0 (hnet_forward exp act dropf hidden fk fb sup n x) j =
  if sup then (1 + exp (- out j))^-1 * out (n ^ 2 + j)%N else out j.
Proof. exact forward_value. Qed.
Print Assumptions hnet_forward_value.

(** Powers of the moduli in the features may be negative. *)
Theorem hnet_powers : forall (C : numClosedFieldType) (moduli : seq C) (pw : seq Z),
  power_product moduli pw = \prod_(p <- zip moduli pw) p.1 ^ (int_of p.2).
Proof. exact power_product_int. Qed.
Print Assumptions hnet_powers.

Example forward_ex (C : numClosedFieldType) : let act (x : C) := x ^+ 2 in let d (r : C) (x : seq C) := [seq r * y | y <- x] in
  let xs l := nth [::] [:: [:: 1; 2%:R]; [:: 3%:R * act (1 * 5%:R + 2%:R * 7%:R + 1)]] l in
  let hidden := [:: ([:: [:: 5%:R; 7%:R]], [:: 1], Some 3%:R)] in
  (forall l, (l < size hidden)%N -> let '(K, b, r) := nth ([::], [::], None) hidden l in
     exists y : seq C, [/\ size b = size K, forall c, c \in K -> size c = size (xs l), size y = size K,
       forall j, (j < size K)%N ->
         nth 0 y j = act (\sum_(i < size (xs l)) nth 0 (xs l) i * nth 0 (nth [::] K j) i + nth 0 b j) &
       xs l.+1 = if r is Some rate then d rate y else y]).
Proof.
move=> act d xs hidden [|//] _ /=; exists [:: act (1 * 5%:R + 2%:R * 7%:R + 1)]; split=> // [c|[|//] _].
  by rewrite inE => /eqP ->.
by rewrite /= !big_ord_recl big_ord0 addr0.
Qed.
