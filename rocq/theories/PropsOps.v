(** Properties C119-C123: derivatives of polynomials, arithmetic with numbers and
    symbols. *)
From Coq Require Import ZArith Ascii String Permutation.
From mathcomp Require Import all_ssreflect all_algebra.
From mathcomp Require Import ssrZ ring.
From Verif Require Import Base ModelStr ModelUtil ModelExpr ModelPoly ModelHom ModelVariety ModelPipe ModelOps.
From Verif Require Import SpecPoly SpecVariety SpecOps ProofPoly7 ProofOps ProofOps2 ProofOps3 ProofOps4.
Delimit Scope Z_scope with Z.

Set Implicit Arguments.
Unset Strict Implicit.
Unset Printing Implicit Defensive.

Import GRing.Theory Num.Theory.
Local Open Scope ring_scope.

(** *** C119: the derivative of a polynomial *)
Theorem diff_is_derivative : forall (C : numClosedFieldType) (norm : expr C -> expr C), norm_ok norm ->
  forall (P : poly C) (v : sym), made P -> v \in var_symbols (variable_names P) (variable_indices P) ->
  exists P', [/\ poly_diff norm P v = Ok P', made P',
    [/\ variable_names P' = variable_names P, variable_indices P' = variable_indices P & parameters P' = parameters P] &
    forall rho, exists p : {poly C}, (forall x, call_at P (upd rho v x) = Ok p.[x]) /\ call_at P' rho = Ok p^`().[rho v]].
Proof. exact diff_call. Qed.
Print Assumptions diff_is_derivative.

Theorem diff_of_any_polynomial : forall (C : numClosedFieldType) (norm : expr C -> expr C), norm_ok norm ->
  forall (P : poly C) (v : sym) (P' : poly C) (rho : sym -> C) (p : {poly C}), made P -> poly_diff norm P v = Ok P' ->
  (forall x, call_at P (upd rho v x) = Ok p.[x]) -> call_at P' rho = Ok p^`().[rho v].
Proof. exact diff_unique. Qed.
Print Assumptions diff_of_any_polynomial.

Theorem diff_needs_variable : forall (C : numClosedFieldType) (norm : expr C -> expr C) (P : poly C) (v : sym),
  made P -> v \notin var_symbols (variable_names P) (variable_indices P) -> poly_diff norm P v = Err OtherError.
Proof. exact diff_not_variable. Qed.
Print Assumptions diff_needs_variable.

(** a z0^2 + z0 z1 *)
Definition az_poly (C : numClosedFieldType) : poly C :=
  MkPoly [:: lit "z"] [:: Some [:: 0%Z; 1%Z]] [:: lit "a"]
    (SPoly [:: lit "z0"; lit "z1"]
      (EAdd [:: EMul [:: ESym (lit "a"); EPow (ESym (lit "z0")) 2]; EMul [:: ESym (lit "z0"); ESym (lit "z1")]])).

Example az_made (C : numClosedFieldType) : made (az_poly C).
Proof.
split=> //; split=> //.
  by move=> s; rewrite inE => /eqP ->; exists (lit "a"); [exists None|].
exists [:: lit "z0"; lit "z1"]; eexists; split=> //.
by apply/allP.
Qed.

Example az_diff (C : numClosedFieldType) : exists P' : poly C,
  [/\ poly_diff id (az_poly C) (lit "z0") = Ok P',
      call_num P' [:: PArr [:: 2%:R; 3%:R]; PArr [:: 5%:R]] [::] = Ok 23%:R,
      poly_diff id (az_poly C) (lit "a") = Err OtherError &
      poly_diff id (az_poly C) (lit "z_0") = Err OtherError].
Proof.
eexists; split; [by []| |by []|by []].
rewrite /call_num /=; congr Ok; ring.
Qed.

(** *** C120: derivatives of homogeneous polynomials *)
Theorem diff_lowers_degree : forall (C : numClosedFieldType) (norm : expr C -> expr C), norm_ok norm ->
  forall (H : hompoly C) (v : sym) (d : nat), made (hp H) -> homogeneous (hp H) d.+1 ->
  check_signature [:: lit "patch"] (variable_names (hp H)) = Ok tt -> all isSome (variable_indices (hp H)) ->
  v \in var_symbols (variable_names (hp H)) (variable_indices (hp H)) ->
  exists H', [/\ hom_diff norm H v = Ok H', poly_diff norm (hp H) v = Ok (hp H'), made (hp H'), homogeneous (hp H') d &
    all (fun c => ~~ isSome c) (affine_cache H')].
Proof. exact hom_diff_ok. Qed.
Print Assumptions diff_lowers_degree.

Theorem euler_identity : forall (C : numClosedFieldType) (norm : expr C -> expr C), norm_ok norm ->
  forall (P : poly C) (Ps : sym -> poly C) (d : nat) (rho : sym -> C), homogeneous P d -> uniq (all_symbols P) ->
  (forall v, v \in var_symbols (variable_names P) (variable_indices P) -> poly_diff norm P v = Ok (Ps v)) ->
  (exists g e, sympy_poly P = SPoly g e) ->
  \sum_(v <- var_symbols (variable_names P) (variable_indices P)) rho v * value (Ps v) rho = d%:R * value P rho.
Proof. exact euler. Qed.
Print Assumptions euler_identity.

Example az_homogeneous (C : numClosedFieldType) : homogeneous (az_poly C) 2.
Proof.
move=> rho l; rewrite /value /= !big_cons !big_nil /=.
set a := rho _; set b := rho _; set c := rho _; ring.
Qed.

Example az_euler (C : numClosedFieldType) : exists P0 P1 : poly C,
  [/\ poly_diff id (az_poly C) (lit "z0") = Ok P0, poly_diff id (az_poly C) (lit "z1") = Ok P1,
      homogeneous P0 1 & homogeneous P1 1].
Proof.
have nk : norm_ok (@id (expr C)) by split=> // e s.
have [H0 [E0 P0 _ h0 _]] := @diff_lowers_degree C id nk (HomPoly (az_poly C) [::]) (lit "z0") 1
  (@az_made C) (@az_homogeneous C) erefl erefl erefl.
have [H1 [E1 P1 _ h1 _]] := @diff_lowers_degree C id nk (HomPoly (az_poly C) [::]) (lit "z1") 1
  (@az_made C) (@az_homogeneous C) erefl erefl erefl.
by exists (hp H0), (hp H1).
Qed.

(** *** C121: derivatives of the Dwork and Fermat polynomials *)
Theorem dwork_derivative : forall (C : numClosedFieldType) (norm : expr C -> expr C), norm_ok norm ->
  forall (n : nat) (factor : dwork_factor C) (i : nat) (zs : seq C) (psi : C),
  dwork_factor_value factor \is Num.real -> (i < n.+1)%N -> size zs = n.+1 ->
  exists P', [/\ dwork_diff norm n.+1 factor (merge_subscript (lit "z") (Z.of_nat i)) = Ok P', made P',
    [/\ variable_names P' = [:: lit "z"], variable_indices P' = z_indices n.+1 & parameters P' = [:: lit "psi"]] &
    call_num P' [:: PArr zs; PArr [:: psi]] [::] = Ok (n.+1%:R * nth 0 zs i ^+ n +
      dwork_factor_value factor * psi * \prod_(j < n.+1 | j != i :> nat) nth 0 zs j)].
Proof. exact dwork_diff_main. Qed.
Print Assumptions dwork_derivative.

Theorem fermat_derivative : forall (C : numClosedFieldType) (norm : expr C -> expr C), norm_ok norm ->
  forall (n i : nat) (zs : seq C), (i < n.+1)%N -> size zs = n.+1 ->
  exists P', [/\ fermat_diff norm n.+1 (merge_subscript (lit "z") (Z.of_nat i)) = Ok P', made P',
    [/\ variable_names P' = [:: lit "z"], variable_indices P' = z_indices n.+1 & parameters P' = [::]] &
    call_num P' [:: PArr zs; PArr [::]] [::] = Ok (n.+1%:R * nth 0 zs i ^+ n)].
Proof. exact fermat_diff_main. Qed.
Print Assumptions fermat_derivative.

(** The derivative of z0^3 + z1^3 + z2^3 - 5 psi z0 z1 z2 by z1 *)
Example dwork_derivative_ex (C : numClosedFieldType) (norm : expr C -> expr C) : norm_ok norm ->
  exists P' : poly C, dwork_diff norm 3 (FBool C true) (lit "z1") = Ok P' /\
    call_num P' [:: PArr [:: 2%:R; 3%:R; 7%:R]; PArr [:: -1]] [::] = Ok 97%:R.
Proof.
move=> nk; have rf : dwork_factor_value (FBool C true) \is Num.real by rewrite rpredN realn.
have [P' [E _ _ Ec]] := @dwork_derivative C norm nk 2 (FBool C true) 1 [:: 2%:R; 3%:R; 7%:R] (-1) rf erefl erefl.
exists P'; split=> //; rewrite Ec; congr Ok; rewrite big_mkcond !big_ord_recl big_ord0 /=; ring.
Qed.

(** *** C122: arithmetic with numbers and symbols *)
Theorem operation_with_number : forall (C : numClosedFieldType) (norm : expr C -> expr C), norm_ok norm ->
  forall (k : arith) (P : poly C), made P -> forall c : C, c \is Num.real ->
  exists R, [/\ poly_op norm k P (ONum c) = Ok R, made R,
    [/\ variable_names R = variable_names P, variable_indices R = variable_indices P & parameters R = parameters P] &
    forall rho x, call_at P rho = Ok x -> call_at R rho = Ok (op_val k x c)].
Proof. exact op_num. Qed.
Print Assumptions operation_with_number.

Theorem operation_with_parameter : forall (C : numClosedFieldType) (norm : expr C -> expr C), norm_ok norm ->
  forall (k : arith) (P : poly C), made P -> forall s : sym,
  s \in parameters P \/ (exists2 n, has_base s n & n \notin variable_names P) ->
  exists R, [/\ poly_op norm k P (OSym s) = Ok R, made R,
    [/\ variable_names R = variable_names P, variable_indices R = variable_indices P &
        parameters R = if s \in parameters P then parameters P else rcons (parameters P) s] &
    forall rho x, call_at P rho = Ok x -> call_at R rho = Ok (op_val k x (rho s))].
Proof. exact op_par. Qed.
Print Assumptions operation_with_parameter.

Theorem operation_with_variable : forall (C : numClosedFieldType) (norm : expr C -> expr C), norm_ok norm ->
  forall (k : arith) (P : poly C), made P -> forall (s n : sym) (i : option Z),
  n \in variable_names P -> (if i is Some i then 0 <= i else True)%Z ->
  s = (if i is Some i then merge_subscript n i else n) ->
  isSome (nth None (variable_indices P) (index n (variable_names P))) = isSome i ->
  exists R, [/\ poly_op norm k P (OSym s) = Ok R, wf_poly R,
    [/\ variable_names R = variable_names P, parameters R = parameters P &
        forall t, (t \in var_symbols (variable_names R) (variable_indices R)) =
          (t == s) || (t \in var_symbols (variable_names P) (variable_indices P))] &
    forall rho x, call_at P rho = Ok x -> call_at R rho = Ok (op_val k x (rho s))].
Proof. exact op_var. Qed.
Print Assumptions operation_with_variable.

Theorem operation_index_mismatch : forall (C : numClosedFieldType) (norm : expr C -> expr C)
    (k : arith) (P : poly C) (s n : sym) (i : option Z),
  s \notin parameters P -> split_subscript s = Ok (n, i) -> n \in variable_names P ->
  isSome (nth None (variable_indices P) (index n (variable_names P))) != isSome i ->
  poly_op norm k P (OSym s) = Err AssertionError.
Proof. exact op_mixed. Qed.
Print Assumptions operation_index_mismatch.

Theorem operation_with_polynomial : forall (C : numClosedFieldType) (norm : expr C -> expr C) (P Q : poly C),
  [/\ poly_op norm Plus P (OPoly Q) = poly_add norm P Q, poly_op norm Minus P (OPoly Q) = poly_sub norm P Q &
      poly_op norm Times P (OPoly Q) = poly_mul norm P Q].
Proof. exact op_polynomial. Qed.
Print Assumptions operation_with_polynomial.

(** (a z0^2 + z0 z1) z2, (a z0^2 + z0 z1) - b, (a z0^2 + z0 z1) + z *)
Example az_operations (C : numClosedFieldType) : exists R1 R2 : poly C,
  [/\ poly_op id Times (az_poly C) (OSym (lit "z2")) = Ok R1,
      call_num R1 [:: PArr [:: 2%:R; 3%:R; 7%:R]; PArr [:: 5%:R]] [::] = Ok 182%:R,
      poly_op id Minus (az_poly C) (OSym (lit "b")) = Ok R2,
      call_num R2 [:: PArr [:: 2%:R; 3%:R]; PArr [:: 5%:R; 11%:R]] [::] = Ok 15%:R &
      poly_op id Plus (az_poly C) (OSym (lit "z")) = Err AssertionError].
Proof.
by eexists; eexists; split; [rewrite /poly_op /=; reflexivity| |rewrite /poly_op /=; reflexivity| |reflexivity];
  rewrite /call_num /=; congr Ok; ring.
Qed.

(** *** C123: other spellings of a coordinate *)
Theorem operation_spelling_refuted : forall (C : numClosedFieldType) (norm : expr C -> expr C), norm_ok norm ->
  forall (k : arith) (P : poly C), made P -> forall (s n : sym) (i : Z),
  s \notin parameters P -> split_subscript s = Ok (n, Some i) -> n \in variable_names P -> (0 <= i)%Z ->
  isSome (nth None (variable_indices P) (index n (variable_names P))) -> s != merge_subscript n i ->
  exists R, [/\ poly_op norm k P (OSym s) = Ok R,
    [/\ variable_names R = variable_names P, parameters R = parameters P &
      forall t, (t \in var_symbols (variable_names R) (variable_indices R)) =
        (t == merge_subscript n i) || (t \in var_symbols (variable_names P) (variable_indices P))],
    forall rho x, call_at P rho = Ok x -> call_at R rho = Ok (op_val k x (rho (merge_subscript n i))),
    forall (order : seq (sym * expr C) -> seq (sym * expr C)) rho x, (forall d, Permutation d (order d)) ->
      call_at P rho = Ok x ->
      exists2 e, call_sym R (sym_inputs R (fun t => ENum (rho t)))
          (Some (map (fun t => ENum (rho t)) (parameters R))) order = Ok e &
        forall sigma, sem sigma e = op_val k x (sigma s) &
    merge_subscript n i \notin var_symbols (variable_names P) (variable_indices P) ->
      poly_diff norm R (merge_subscript n i) = Err OtherError].
Proof. exact op_spelled. Qed.
Print Assumptions operation_spelling_refuted.

(** (a z0^2 + z0 z1) + z_2 at z = (2, 3, 7): 33 for numbers, 26 + z_2 for symbols *)
Example az_spelling (C : numClosedFieldType) : exists R : poly C, exists e : expr C,
  [/\ poly_op id Plus (az_poly C) (OSym (lit "z_2")) = Ok R,
      call_num R [:: PArr [:: 2%:R; 3%:R; 7%:R]; PArr [:: 5%:R]] [::] = Ok 33%:R,
      call_sym R [:: [:: ENum 2%:R; ENum 3%:R; ENum 7%:R]] (Some [:: ENum 5%:R]) id = Ok e,
      forall sigma, sem sigma e = 26%:R + sigma (lit "z_2") &
      poly_diff id R (lit "z2") = Err OtherError].
Proof.
eexists; eexists; split; [rewrite /poly_op /=; reflexivity| |rewrite /call_sym /=; reflexivity| |reflexivity].
  by rewrite /call_num /=; congr Ok; ring.
move=> sigma; rewrite /= !big_cons !big_nil /=; set x := sigma _; ring.
Qed.
