(** Properties C34-C38: homogeneous polynomials (cyjax/polynomial.py). *)
From Coq Require Import ZArith Ascii String.
From mathcomp Require Import all_ssreflect all_algebra.
From mathcomp Require Import ssrZ ring.
From Verif Require Import Base ModelUtil ModelProjective ModelStr ModelExpr ModelPoly SpecPoly
  ModelHom SpecHom ProofHom ProofHom2 ProofHom3.
Delimit Scope Z_scope with Z.

Set Implicit Arguments.
Unset Strict Implicit.
Unset Printing Implicit Defensive.

Import GRing.Theory Num.Theory.
Local Open Scope ring_scope.

(** ** C34: numbering of patches *)
Theorem patch_number_formula : forall (dims : seq nat) (patch : seq Z),
  size patch = size dims ->
  unique_patch_index dims patch =
  \sum_(k < size dims) nth 0%Z patch k * Z.of_nat (\prod_(j < k) nth 0%N dims j).
Proof. exact upi_sum. Qed.
Print Assumptions patch_number_formula.

Theorem patch_number_range : forall (dims : seq nat) (patch : seq Z),
  valid_patch dims patch ->
  (0 <= unique_patch_index dims patch < Z.of_nat (\prod_(d <- dims) d)%N)%Z.
Proof. exact upi_range. Qed.
Print Assumptions patch_number_range.

Theorem patch_number_injective : forall (dims : seq nat) (p q : seq Z),
  valid_patch dims p -> valid_patch dims q ->
  unique_patch_index dims p = unique_patch_index dims q -> p = q.
Proof. exact upi_inj. Qed.
Print Assumptions patch_number_injective.

Theorem patch_number_onto : forall (dims : seq nat) (k : Z),
  (0 <= k < Z.of_nat (\prod_(d <- dims) d)%N)%Z ->
  exists2 p, valid_patch dims p & unique_patch_index dims p = k.
Proof. exact upi_onto. Qed.
Print Assumptions patch_number_onto.

Example patch_number_ex :
  valid_patch [:: 2; 3; 4]%N [:: 1; 2; 3]%Z /\
  unique_patch_index [:: 2; 3; 4]%N [:: 1; 2; 3]%Z = (1 + 2 * (2 + 3 * 3))%Z.
Proof. by []. Qed.

(** ** C35: affine polynomials *)
(** Indices 0..d-1: a one is inserted at the position of the patch. *)
Theorem affine_poly_value : forall (C : numClosedFieldType) (norm : expr C -> expr C),
  norm_ok norm -> forall (P : poly C) (dims : seq nat) (patch : seq Z) (a : seq (seq C)) (ps : seq C),
  hom_ok P -> variable_indices P = dim_indices dims -> valid_patch dims patch ->
  has (fun d => 1 < d)%N dims ->
  size a = size dims ->
  (forall k, (k < size dims)%N -> size (nth [::] a k) = (nth 0%N dims k).-1) ->
  size ps = size (parameters P) ->
  exists v,
    call_num (affine_build norm P patch) (rcons (map (@PArr C) a) (PArr ps)) [::] = Ok v /\
    call_num P (rcons [seq PArr (affine_to_hom x.1 x.2) | x <- zip a patch] (PArr ps)) [::] = Ok v.
Proof. exact affine_consecutive. Qed.
Print Assumptions affine_poly_value.

(** Arbitrary indices: the coordinates with that subscript are set to 1. *)
Theorem affine_poly_subscript : forall (C : numClosedFieldType) (norm : expr C -> expr C),
  norm_ok norm -> forall (P : poly C) (patch : seq Z) (rho : sym -> C) extra extra',
  hom_ok P -> patch_in P patch -> remains P patch ->
  let A := affine_build norm P patch in
  let rho1 := set1 (patch_syms P patch) rho in
  exists v, call_num A (rcons (var_inputs A rho extra) (par_input A rho)) [::] = Ok v /\
    call_num P (rcons (var_inputs P rho1 extra') (par_input P rho1)) [::] = Ok v.
Proof. exact affine_call. Qed.
Print Assumptions affine_poly_subscript.

(** So the one is inserted at the place of the subscript, not at [patch]. *)
Theorem affine_poly_position_refuted : forall (C : numClosedFieldType) (norm : expr C -> expr C),
  norm_ok norm -> forall (P : poly C) n (l : seq Z) (p : Z) (a ps : seq C),
  hom_ok P -> variable_names P = [:: n] -> variable_indices P = [:: Some l] ->
  p \in l -> (1 < size l)%N ->
  size a = (size l).-1 -> size ps = size (parameters P) ->
  exists v,
    call_num (affine_build norm P [:: p]) [:: PArr a; PArr ps] [::] = Ok v /\
    call_num P [:: PArr (affine_to_hom a (Z.of_nat (index p l))); PArr ps] [::] = Ok v.
Proof. exact affine_position. Qed.
Print Assumptions affine_poly_position_refuted.

(** A patch number that is a position but not a subscript: no value at all. *)
Theorem affine_poly_missing_refuted : forall (C : numClosedFieldType) (norm : expr C -> expr C)
    (P : poly C) n (l : seq Z) (p : Z) args kw,
  hom_ok P -> variable_names P = [:: n] -> variable_indices P = [:: Some l] ->
  (0 <= p)%Z -> p \notin l ->
  is_ok (call_num (affine_build norm P [:: p]) args kw) = false.
Proof. exact affine_missing. Qed.
Print Assumptions affine_poly_missing_refuted.

(** A single coordinate: nothing remains and no value is returned. *)
Theorem affine_poly_single_refuted : forall (C : numClosedFieldType) (norm : expr C -> expr C)
    (P : poly C) n (p : Z) args kw,
  hom_ok P -> variable_names P = [:: n] -> variable_indices P = [:: Some [:: p]] ->
  is_ok (call_num (affine_build norm P [:: p]) args kw) = false.
Proof. exact affine_single. Qed.
Print Assumptions affine_poly_single_refuted.

Definition quadric (C : numClosedFieldType) (l : seq Z) : poly C :=
  let z i := ESym (merge_subscript (lit "z") (nth 0%Z l i)) in
  MkPoly [:: lit "z"] [:: Some l] [:: lit "a"]
    (SPoly [seq merge_subscript (lit "z") i | i <- l]
       (EAdd [:: EMul [:: z 0%N; z 1%N]; EMul [:: ESym (lit "a"); EPow (z 2%N) 2]])).

Example affine_poly_ex (C : numClosedFieldType) (x y a : C) :
  let A l p := affine_build id (quadric C l) [:: p] in
  [/\ call_num (A [:: 0; 1; 2]%Z 1%Z) [:: PArr [:: x; y]; PArr [:: a]] [::]
        = Ok (0 + x * 1 + a * y ^+ 2),
      call_num (A [:: 1; 2; 3]%Z 1%Z) [:: PArr [:: x; y]; PArr [:: a]] [::]
        = Ok (0 + 1 * x + a * y ^+ 2) &
      call_num (A [:: 1; 2; 3]%Z 0%Z) [:: PArr [:: x; y]; PArr [:: a]] [::] = Err OtherError].
Proof. by []. Qed.

Example quadric_ok (C : numClosedFieldType) : hom_ok (quadric C [:: 0; 1; 2]%Z).
Proof.
split=> //; split=> //.
- by move=> p; rewrite inE => /eqP ->; exists (lit "a") => //; exists None.
- by do 2 eexists; split=> // s; rewrite /= !inE => /or4P[] /eqP ->.
Qed.

(** ** C36: the cache *)
Theorem affine_cache_transparent : forall (C : numClosedFieldType) (norm : expr C -> expr C)
    (P : poly C) H (hist : seq (seq Z)) (patch : seq Z),
  hom_init P = Ok H ->
  all (valid_patch (hp_dims P)) hist -> valid_patch (hp_dims P) patch ->
  exists H', affine_poly norm (affine_run norm H hist) patch = Ok (affine_build norm P patch, H').
Proof. exact cache_transparent. Qed.
Print Assumptions affine_cache_transparent.

Theorem hom_call_patch : forall (C : numClosedFieldType) (norm : expr C -> expr C)
    (P : poly C) H (hist : seq (seq Z)) (patch : seq Z) args kw,
  hom_init P = Ok H ->
  all (valid_patch (hp_dims P)) hist -> valid_patch (hp_dims P) patch ->
  rmap fst (hom_call norm (affine_run norm H hist) args kw (Some patch)) =
  call_num (affine_build norm P patch) args kw.
Proof. exact hom_call_valid. Qed.
Print Assumptions hom_call_patch.

(** After a request for p - d the entry of patch p is useless. *)
Theorem affine_cache_negative_refuted : forall (C : numClosedFieldType) (norm : expr C -> expr C)
    (P : poly C) H n (l : seq Z) (p : Z),
  hom_ok P -> hom_init P = Ok H ->
  variable_names P = [:: n] -> variable_indices P = [:: Some l] ->
  (0 <= p < Z.of_nat (size l))%Z ->
  exists A H',
    affine_poly norm (affine_run norm H [:: [:: (p - Z.of_nat (size l))%Z]]) [:: p] = Ok (A, H') /\
    forall args kw, is_ok (call_num A args kw) = false.
Proof. exact poisoned. Qed.
Print Assumptions affine_cache_negative_refuted.

(** Products: a first number out of range has the number of another patch. *)
Theorem affine_cache_range_refuted : forall (C : numClosedFieldType) (norm : expr C -> expr C)
    (P : poly C) H n1 n2 (d1 d2 : nat) (i j : Z),
  hom_ok P -> hom_init P = Ok H ->
  variable_names P = [:: n1; n2] -> variable_indices P = dim_indices [:: d1; d2] ->
  (0 <= i < Z.of_nat d1)%Z -> (0 <= j)%Z -> (j + 1 < Z.of_nat d2)%Z ->
  exists A H',
    affine_poly norm (affine_run norm H [:: [:: (Z.of_nat d1 + i)%Z; j]]) [:: i; (j + 1)%Z]
      = Ok (A, H') /\
    forall args kw, is_ok (call_num A args kw) = false.
Proof. exact poisoned2. Qed.
Print Assumptions affine_cache_range_refuted.

Example affine_cache_ex (C : numClosedFieldType) (x y a : C) :
  exists2 H, hom_init (quadric C [:: 0; 1; 2]%Z) = Ok H &
    let call hist := rmap fst (hom_call id (affine_run id H hist)
                      [:: PArr [:: x; y]; PArr [:: a]] [::] (Some [:: 2%Z])) in
    [/\ call [::] = Ok (0 + x * y + a * 1 ^+ 2),
        call [:: [:: 0]; [:: 2]; [:: 1]]%Z = Ok (0 + x * y + a * 1 ^+ 2) &
        call [:: [:: -1]]%Z = Err OtherError].
Proof.
eexists; first by rewrite /hom_init /= /hp_dims /= big_seq1.
by [].
Qed.

(** ** C37: compiled evaluation *)
Theorem compiled_eval_patch : forall (C : numClosedFieldType) (norm : expr C -> expr C),
  norm_ok norm -> forall (P : poly C) H (dims : seq nat) (a : seq (seq C)) (ps : seq C) (patch : seq Z),
  hom_ok P -> hom_init P = Ok H -> variable_indices P = dim_indices dims ->
  has (fun d => 1 < d)%N dims ->
  size a = size dims ->
  (forall k, (k < size dims)%N -> size (nth [::] a k) = (nth 0%N dims k).-1) ->
  size ps = size (parameters P) ->
  valid_patch dims patch ->
  exists v,
    transform_eval norm H (rcons (map (@PArr C) a) (PArr ps)) [::] (Some patch) = Ok v /\
    call_num P (rcons [seq PArr (affine_to_hom x.1 x.2) | x <- zip a patch] (PArr ps)) [::] = Ok v.
Proof. exact transform_valid. Qed.
Print Assumptions compiled_eval_patch.

(** Any tuple of numbers: the patch whose number is nearest. *)
Theorem compiled_eval_clamped : forall (C : numClosedFieldType) (norm : expr C -> expr C),
  norm_ok norm -> forall (P : poly C) H (dims : seq nat) (a : seq (seq C)) (ps : seq C) (p q : seq Z),
  hom_ok P -> hom_init P = Ok H -> variable_indices P = dim_indices dims ->
  has (fun d => 1 < d)%N dims ->
  size a = size dims ->
  (forall k, (k < size dims)%N -> size (nth [::] a k) = (nth 0%N dims k).-1) ->
  size ps = size (parameters P) ->
  valid_patch dims q ->
  unique_patch_index dims q =
    Z.min (Z.max 0 (unique_patch_index dims p)) (Z.of_nat (\prod_(d <- dims) d)%N - 1) ->
  exists v,
    transform_eval norm H (rcons (map (@PArr C) a) (PArr ps)) [::] (Some p) = Ok v /\
    call_num P (rcons [seq PArr (affine_to_hom x.1 x.2) | x <- zip a q] (PArr ps)) [::] = Ok v.
Proof. exact transform_consecutive. Qed.
Print Assumptions compiled_eval_clamped.

Theorem compiled_eval_homogeneous : forall (C : numClosedFieldType) (norm : expr C -> expr C)
    (P : poly C) H args kw,
  hom_init P = Ok H -> transform_eval norm H args kw None = call_num P args kw.
Proof. exact transform_none. Qed.
Print Assumptions compiled_eval_homogeneous.

Example compiled_eval_ex (C : numClosedFieldType) (x y a : C) :
  exists2 H, hom_init (quadric C [:: 0; 1; 2]%Z) = Ok H &
    let call p := transform_eval id H [:: PArr [:: x; y]; PArr [:: a]] [::] (Some [:: p]) in
    [/\ call 1%Z = Ok (0 + x * 1 + a * y ^+ 2), call 7%Z = Ok (0 + x * y + a * 1 ^+ 2) &
        call (-1)%Z = Ok (0 + 1 * x + a * y ^+ 2)].
Proof.
eexists; first by rewrite /hom_init /= /hp_dims /= big_seq1.
by [].
Qed.

(** ** C38: Dwork and Fermat *)
Theorem dwork_scaling : forall (C : numClosedFieldType) (n : nat) (f : dwork_factor C) (z ps : seq C) (l : C),
  dwork_call n f (scale l z) ps None = rmap (fun v => l ^+ n * v) (dwork_call n f z ps None).
Proof. exact dwork_homogeneous. Qed.
Print Assumptions dwork_scaling.

Theorem dwork_symmetric : forall (C : numClosedFieldType) (n : nat) (f : dwork_factor C) (z z' ps : seq C) patch,
  perm_eq z z' -> dwork_call n f z ps patch = dwork_call n f z' ps patch.
Proof. exact dwork_perm. Qed.
Print Assumptions dwork_symmetric.

Theorem dwork_affine_value : forall (C : numClosedFieldType) (n : nat) (f : dwork_factor C) (z ps : seq C) (p : Z),
  dwork_call n f z ps (Some p) = dwork_call n f (affine_to_hom z p) ps None.
Proof. exact dwork_affine. Qed.
Print Assumptions dwork_affine_value.

Theorem dwork_accepts : forall (C : numClosedFieldType) (n : nat) (f : dwork_factor C) (z ps : seq C) patch,
  is_ok (dwork_call n f z ps patch) = (size z + isSome patch == n)%N && (0 < size ps)%N.
Proof. exact dwork_ok. Qed.
Print Assumptions dwork_accepts.

(** The factor of the product: -5 by default (for every degree), 1 for False. *)
Theorem dwork_closed_form : forall (C : numClosedFieldType) (n : nat) (f : dwork_factor C) (z : seq C) psi ps patch v,
  dwork_call n f z (psi :: ps) patch = Ok v ->
  v = (if patch is Some _ then 1 else 0) + \sum_(i < size z) nth 0 z i ^+ n +
      (match f with FBool true => - (psi *+ 5) | FBool false => psi | FNum c => psi * c end) *
      \prod_(i < size z) nth 0 z i.
Proof. exact dwork_form. Qed.
Print Assumptions dwork_closed_form.

(** (1, .., 1) lies on the hypersurface for psi = n / 5: for the quintic psi = 1,
    for other degrees not. *)
Theorem dwork_all_ones : forall (C : numClosedFieldType) (n : nat) (psi : C) ps,
  dwork_call n (FBool C true) (nseq n 1) (psi :: ps) None = Ok 0 <-> psi = n%:R / 5%:R.
Proof. exact dwork_ones. Qed.
Print Assumptions dwork_all_ones.

(** A generic HomPoly with the same values on C^n agrees in every patch. *)
Theorem dwork_is_generic : forall (C : numClosedFieldType) (norm : expr C -> expr C) (P : poly C) H
    (n : nat) (f : dwork_factor C),
  norm_ok norm -> hom_ok P -> hom_init P = Ok H -> (1 < n)%N ->
  variable_indices P = dim_indices [:: n] -> size (parameters P) = 1%N ->
  (forall z psi, size z = n ->
     call_num P [:: PArr z; PArr [:: psi]] [::] = dwork_call n f z [:: psi] None) ->
  forall (hist : seq (seq Z)) z psi (p : Z),
  all (valid_patch [:: n]) hist -> (0 <= p < Z.of_nat n)%Z -> size z = n.-1 ->
  rmap fst (hom_call norm (affine_run norm H hist) [:: PArr z; PArr [:: psi]] [::] (Some [:: p])) =
  dwork_call n f z [:: psi] (Some p).
Proof. exact dwork_generic. Qed.
Print Assumptions dwork_is_generic.

Theorem fermat_scaling : forall (C : numClosedFieldType) (n : nat) (z : seq C) (l : C),
  fermat_call n (scale l z) None = rmap (fun v => l ^+ n * v) (fermat_call n z None).
Proof. exact fermat_homogeneous. Qed.
Print Assumptions fermat_scaling.

Theorem fermat_symmetric : forall (C : numClosedFieldType) (n : nat) (z z' : seq C) patch,
  perm_eq z z' -> fermat_call n z patch = fermat_call n z' patch.
Proof. exact fermat_perm. Qed.
Print Assumptions fermat_symmetric.

Theorem fermat_affine_value : forall (C : numClosedFieldType) (n : nat) (z : seq C) (p : Z),
  fermat_call n z (Some p) = fermat_call n (affine_to_hom z p) None.
Proof. exact fermat_affine. Qed.
Print Assumptions fermat_affine_value.

Theorem fermat_is_dwork : forall (C : numClosedFieldType) (n : nat) (f : dwork_factor C) (z : seq C) patch,
  fermat_call n z patch = dwork_call n f z [:: 0] patch.
Proof. exact fermat_dwork. Qed.
Print Assumptions fermat_is_dwork.

Example dwork_ex (C : numClosedFieldType) :
  dwork_call 3 (FBool C true) [:: 1; 2%:R] [:: 1] (Some 1%Z) = Ok 0.
Proof.
rewrite /dwork_call /= !big_cons !big_nil; congr Ok.
by rewrite /=; ring.
Qed.
