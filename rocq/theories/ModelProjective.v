(** Model of cyjax/projective.py.

    Complex numbers are an arbitrary [numClosedFieldType] (algC and R[i] are
    instances): arithmetic is exact.  Division by zero is 0 here and inf/NaN in
    the code; the theorems assume non-zero denominators. *)
From Coq Require Import ZArith.
From mathcomp Require Import all_ssreflect all_algebra.
From Verif Require Import Base ModelUtil.
Delimit Scope Z_scope with Z.

Set Implicit Arguments.
Unset Strict Implicit.
Unset Printing Implicit Defensive.

Import GRing.Theory Num.Theory.
Local Open Scope ring_scope.

(** projective.py:29-39  index_hom_to_affine *)
Definition index_hom_to_affine (patch hom_index : Z) : Z :=
  if Z.leb patch hom_index then (hom_index - 1)%Z else hom_index.

(** projective.py:42-52  index_affine_to_hom *)
Definition index_affine_to_hom (patch index : Z) : Z :=
  if Z.leb patch index then (index + 1)%Z else index.

(** Python: new_patch - (old_patch < new_patch), a bool counted as an int. *)
Definition bool_int (b : bool) : Z := if b then 1%Z else 0%Z.

Section Charts.
Variable F : fieldType.
Implicit Types (affine hom z : seq F).

(** projective.py:55-69  change_chart (for one point; auto_vmap maps it over
    batches, see flatten/unflatten in ModelUtil.v). *)
Definition change_chart affine (old_patch new_patch : Z) : res (seq F) :=
  do p <- pop affine (new_patch - bool_int (old_patch <? new_patch)%Z)%Z;
  let '(z0, z) := p in
  Ok (insert_1d [seq x / z0 | x <- z] [:: z0^-1]
        (old_patch - bool_int (new_patch <? old_patch)%Z)%Z).

(** projective.py:72-99  hom_to_affine with a given patch. *)
Definition hom_to_affine hom (patch : Z) : res (seq F) :=
  do p <- pop hom patch;
  let '(z0, z) := p in Ok [seq x / z0 | x <- z].

(** projective.py:102-116  affine_to_hom *)
Definition affine_to_hom affine (patch : Z) : seq F :=
  insert_1d affine [:: 1] patch.
End Charts.

Section Argmax.
Variable R : numDomainType.
(** jnp.argmax of a 1-d array: the first index of a largest entry (raises on an
    empty array). *)
Fixpoint argmax_from (best : R) (ibest i : nat) (s : seq R) : nat :=
  if s is x :: s' then
    if best < x then argmax_from x i i.+1 s' else argmax_from best ibest i.+1 s'
  else ibest.

Definition argmax (s : seq R) : res nat :=
  if s is x :: s' then Ok (argmax_from x 0 1 s') else Err ValueError.
End Argmax.

Section Auto.
Variable C : numClosedFieldType.

(** projective.py:88-99  hom_to_affine without patch: coordinates and patch. *)
Definition hom_to_affine_auto (hom : seq C) : res (seq C * nat) :=
  do p <- argmax [seq `|x| | x <- hom];
  do z <- hom_to_affine hom (Z.of_nat p);
  Ok (z, p).
End Auto.

Section FubiniStudy.
Variable C : numClosedFieldType.
Variable n : nat.
Implicit Types z zc : 'rV[C]_n.

(** projective.py:119-123  _fs_metric; 1-d arrays of length n are row
    vectors, jnp.eye(n) is the identity matrix, z_c.reshape(-1, 1) * z is the
    outer product with entries z_c[i] * z[j]. *)
Definition norm2p1 z zc : C := 1 + \sum_i z 0 i * zc 0 i.

Definition fs_metric z zc : 'M[C]_n :=
  \matrix_(i, j) (((i == j)%:R * norm2p1 z zc - zc 0 i * z 0 j)
                  / norm2p1 z zc ^+ 2).

(** projective.py:126-154 (conjugate computed when not given). *)
Definition conj_row z : 'rV[C]_n := \row_i (z 0 i)^*.
Definition fs_metric_real z : 'M[C]_n := fs_metric z (conj_row z).

(** projective.py:157-197  fs_potential, with jnp.log as an
    arbitrary function [log]. *)
Definition fs_potential (log : C -> C) z zc : C := log (norm2p1 z zc).
Definition fs_potential_hom (log : C -> C) z zc : C :=
  log (\sum_i z 0 i * zc 0 i).
End FubiniStudy.
