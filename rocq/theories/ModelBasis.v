(** Model of cyjax/donaldson.py, lines 36-293: bases of monomials and their
    evaluation.  Matrices of powers are lists of rows of natural numbers. *)
From Coq Require Import ZArith.
From mathcomp Require Import all_ssreflect all_algebra.
From mathcomp Require Import ssrZ.
From SsrMultinomials Require Import mpoly.
From Verif Require Import Base ModelUtil ModelProjective.
Delimit Scope Z_scope with Z.

Set Implicit Arguments.
Unset Strict Implicit.
Unset Printing Implicit Defensive.

Import GRing.Theory Num.Theory.

Definition powers := seq (seq nat).

(** itertools.combinations_with_replacement(pool, r) *)
Fixpoint combinations (T : Type) (r : nat) (pool : seq T) {struct r} : seq (seq T) :=
  if r is r'.+1 then
    (fix go (pool : seq T) : seq (seq T) :=
       if pool is x :: pool' then [seq x :: c | c <- combinations r' pool] ++ go pool'
       else [::]) pool
  else [:: [::]].

(** donaldson.py:36-52  monomial_basis_indices.  A negative degree is rejected
    by itertools; a dimension dim_proj < 0 is not modelled. *)
Definition monomial_basis_indices (dim_proj : nat) (degree : Z) : res (seq (seq nat)) :=
  if (degree <? 0)%Z then Err ValueError
  else Ok (combinations (Z.to_nat degree) (iota 0 dim_proj.+1)).

(** c.at[i].add(1); an index out of range is dropped. *)
Definition add_at (c : seq nat) (i : nat) : seq nat :=
  if i < size c then set_nth 0 c i (nth 0 c i).+1 else c.

(** donaldson.py:55-79  monomial_basis *)
Definition monomial_basis (dim_proj : nat) (degree : Z) : res powers :=
  if Z.eqb degree 0 then Ok [:: nseq dim_proj.+1 0] else
  do indices <- monomial_basis_indices dim_proj degree;
  Ok [seq foldl add_at (nseq dim_proj.+1 0) idc | idc <- indices].

(** donaldson.py:82-88  monomial_basis_size *)
Definition monomial_basis_size (dim_proj degree : Z) (reduced : bool) : res Z :=
  let degree_def := (dim_proj + 1)%Z in
  do basis <- binomial (dim_proj + degree) degree;
  if ~~ reduced || (degree <? degree_def)%Z then Ok basis else
  do mod_ <- binomial (dim_proj + degree - degree_def) (degree - degree_def);
  Ok (basis - mod_)%Z.

(** donaldson.py:202-264  reduced_monomial_basis.  The matrix of powers is
    rectangular with at least one row and column (anything else: OtherError). *)

(** list.remove: ValueError (None) without a match, else the first one goes. *)
Fixpoint remove_first (m : seq nat) (pows : powers) : option powers :=
  if pows is p :: pows' then
    if p == m then Some pows' else omap (cons p) (remove_first m pows')
  else None.

Definition add_rows (a b : seq nat) : seq nat := [seq ab.1 + ab.2 | ab <- zip a b].

(** The inner loop with its else branch. *)
Fixpoint remove_one (mod_element pows : powers) : res powers :=
  if mod_element is mon :: rest then
    if remove_first mon pows is Some pows' then Ok pows' else remove_one rest pows
  else Err RuntimeError.

Fixpoint reduce_loop (poly_pows pows_aux pows : powers) : res powers :=
  if pows_aux is aux :: rest then
    do pows' <- remove_one [seq add_rows row aux | row <- poly_pows] pows;
    reduce_loop poly_pows rest pows'
  else Ok pows.

Definition reduced_monomial_basis (degree : Z) (poly_pows : powers) : res powers :=
  let mod_degrees := [seq sumn row | row <- poly_pows] in
  do _ <- rassert (mod_degrees == roll mod_degrees 1);
  if poly_pows is row :: _ then
    if size row is dim_proj.+1 then
      if ~~ all (fun r => size r == size row) poly_pows then Err OtherError else
      let mod_degree := Z.of_nat (sumn row) in
      if (degree <? mod_degree)%Z then monomial_basis dim_proj degree else
      do pows_aux <- monomial_basis dim_proj (degree - mod_degree);
      do pows <- monomial_basis dim_proj degree;
      reduce_loop poly_pows pows_aux pows
    else Err OtherError
  else Err OtherError.

Local Open Scope ring_scope.

Section Evaluation.
Variable C : numClosedFieldType.
(** jnp.log and jnp.exp *)
Variables (lg ex : C -> C).

(** donaldson.py:91-95  _getpows, of one coordinate *)
Fixpoint pow_scan (z zi : C) (length : nat) : seq C :=
  if length is n.+1 then z :: pow_scan (z * zi) zi n else [:: z].
Definition getpows (zi : C) (maxpow : nat) : seq C := pow_scan 1 zi maxpow.

(** pows.T *)
Definition transpose (pows : powers) : seq (seq nat) :=
  [seq [seq nth 0%N row j | row <- pows] | j <- iota 0 (size (head [::] pows))].

(** a[i] with an index out of range brought back to the last entry *)
Definition take_at (a : seq C) (i : nat) : C := nth 0 a (minn i (size a).-1).

(** donaldson.py:98-111  _compute_monomials_index (at one point) *)
Definition compute_monomials_index (zs : seq C) (patch : option Z) (pows : powers)
    (maxdeg : nat) : res (seq C) :=
  let zp := [seq getpows z maxdeg | z <- zs] in
  do pt <- (if patch is Some p then rmap snd (pop (transpose pows) p)
            else Ok (transpose pows));
  if size zp != size pt then Err ValueError else
  let zp := [seq [seq take_at ai.1 i | i <- ai.2] | ai <- zip zp pt] in
  Ok [seq \prod_(row <- zp) nth 1 row k | k <- iota 0 (size pows)].

(** donaldson.py:114-126  _compute_monomials_log (at one point) *)
Definition compute_monomials_log (zs : seq C) (patch : option Z) (pows : powers)
    : res (seq C) :=
  let pows := if patch is Some p then [seq behead (roll row (- p)) | row <- pows] else pows in
  let zs := if patch is Some p then roll zs (- p) else zs in
  if ~~ all (fun row => size row == size zs) pows then Err TypeError else
  Ok [seq ex (\sum_(pz <- zip row [seq lg z | z <- zs]) pz.1%:R * pz.2) | row <- pows].

(** donaldson.py:170-187, 190-199, 267-293  _MonomialBasis and its subclasses:
    degree and matrix of powers. *)
Record basis := MkBasis { bdegree : nat; power_matrix : powers }.

(** donaldson.py:178-181  size *)
Definition basis_size (B : basis) : nat := size (power_matrix B).

(** donaldson.py:183-187  __call__ *)
Definition basis_call (B : basis) (zs : seq C) (patch : option Z) (precompute : bool)
    : res (seq C) :=
  if precompute then compute_monomials_index zs patch (power_matrix B) (bdegree B)
  else compute_monomials_log zs patch (power_matrix B).

(** donaldson.py:190-199  MonomialBasisFull *)
Definition basis_full (dim_proj degree : nat) : res basis :=
  rmap (MkBasis degree) (monomial_basis dim_proj (Z.of_nat degree)).

(** donaldson.py:267-293  MonomialBasisReduced.  [poly] is the defining
    polynomial with numbers for the parameters.  sympy.Poly finds the variables
    that occur in it (there must be one) and lists the terms in descending
    lexicographic order of their powers. *)
Fixpoint lexge (a b : seq nat) : bool :=
  match a, b with
  | x :: a', y :: b' => (y < x)%N || (x == y) && lexge a' b'
  | _, [::] => true
  | [::], _ => false
  end.

Section Reduced.
Variables (k : nat) (poly : {mpoly C[k]}).
Definition occurs (i : 'I_k) : bool := has (fun m : 'X_{1..k} => m i != 0%N) (msupp poly).
Definition generators : seq 'I_k := [seq i <- enum 'I_k | occurs i].
Definition poly_terms : powers :=
  sort lexge [seq [seq m i | i <- generators] | m : 'X_{1..k} <- msupp poly].
Definition basis_reduced (degree : nat) : res basis :=
  if generators is [::] then Err OtherError else
  rmap (MkBasis degree) (reduced_monomial_basis (Z.of_nat degree) poly_terms).
End Reduced.
End Evaluation.
