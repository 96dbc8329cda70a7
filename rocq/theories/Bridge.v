(** Passing between 1-d arrays as lists (the model of array code) and as row
    vectors (used for differentiation and matrices). *)
From Coq Require Import ZArith Lia.
From mathcomp Require Import all_ssreflect all_algebra.
From mathcomp Require Import zify ring.
From Verif Require Import Base ModelUtil ModelProjective ProofUtil ProofProjective.
Delimit Scope Z_scope with Z.

Set Implicit Arguments.
Unset Strict Implicit.
Unset Printing Implicit Defensive.

Import GRing.Theory.
Local Open Scope ring_scope.

Section Bridge.
Variable F : fieldType.

(** The array holding the entries of a row vector, and back. *)
Definition row_seq n (z : 'rV[F]_n) : seq F := [seq z 0 i | i <- enum 'I_n].
Definition seq_row n (s : seq F) : 'rV[F]_n := \row_i nth 0 s i.
Definition res_row n (r : res (seq F)) : 'rV[F]_n :=
  if r is Ok s then seq_row n s else 0.

Lemma size_row_seq n (z : 'rV[F]_n) : size (row_seq z) = n.
Proof. by rewrite size_map size_enum_ord. Qed.

Lemma nth_row_seq n (z : 'rV[F]_n) (i : 'I_n) : nth 0 (row_seq z) i = z 0 i.
Proof. by rewrite (nth_map i) ?size_enum_ord // nth_ord_enum. Qed.

Lemma row_seqK n (z : 'rV[F]_n) : seq_row n (row_seq z) = z.
Proof. by apply/rowP => i; rewrite mxE nth_row_seq. Qed.

Lemma seq_rowK n s : size s = n -> row_seq (seq_row n s) = s.
Proof.
move=> sz; apply: (@eq_from_nth _ 0); first by rewrite size_row_seq.
rewrite size_row_seq => i Hi; by rewrite (nth_row_seq _ (Ordinal Hi)) mxE.
Qed.

Lemma row_seq_eq n (z : 'rV[F]_n) s : size s = n ->
  (forall i : 'I_n, nth 0 s i = z 0 i) -> s = row_seq z.
Proof.
move=> sz H; rewrite -[LHS](seq_rowK sz); congr row_seq.
by apply/rowP => i; rewrite mxE H.
Qed.

(** Homogeneous coordinates of affine ones: 1 at the patch. *)
Definition homr n (p : 'I_n.+1) (z : 'rV[F]_n) : 'rV[F]_n.+1 :=
  locked (\row_m (if unlift p m is Some a then z 0 a else 1)).

Lemma homr_patch n (p : 'I_n.+1) z : homr p z 0 p = 1.
Proof. by rewrite /homr -lock mxE unlift_none. Qed.
Lemma homr_lift n (p : 'I_n.+1) z a : homr p z 0 (lift p a) = z 0 a.
Proof. by rewrite /homr -lock mxE liftK. Qed.

Lemma homr_seq n (p : 'I_n.+1) z :
  affine_to_hom (row_seq z) (Z.of_nat p) = row_seq (homr p z).
Proof.
have pn : (p <= size (row_seq z))%N by rewrite size_row_seq -ltnS.
rewrite affine_to_homE //; apply: row_seq_eq => [|m].
  by rewrite size_ins // size_row_seq.
rewrite nth_ins //; case: (unliftP p m) => [a ->|->]; last first.
  by rewrite ltnn eqxx homr_patch.
rewrite homr_lift /= /bump.
case: (leqP p a) => pa; last by rewrite add0n pa nth_row_seq.
have -> : (1 + a < p)%N = false by lia.
have -> : ((1 + a)%N == p) = false by lia.
by rewrite add1n /= nth_row_seq.
Qed.

(** change_chart between distinct patches, as a map of row vectors. *)
Definition chart n (i j : 'I_n.+1) (z : 'rV[F]_n) : 'rV[F]_n :=
  \row_k (homr i z 0 (lift j k) / homr i z 0 j).

Lemma hom_to_affine_seq n (j : 'I_n.+1) (h : 'rV[F]_n.+1) :
  hom_to_affine (row_seq h) (Z.of_nat j) =
  Ok (row_seq (\row_(k < n) (h 0 (lift j k) / h 0 j))).
Proof.
have jn : (j < size (row_seq h))%N by rewrite size_row_seq.
rewrite hom_to_affineE //; congr Ok; apply: row_seq_eq => [|k].
  by rewrite size_map size_del // size_row_seq.
rewrite nth_div nth_del // !mxE nth_row_seq; congr (_ / _).
rewrite -nth_row_seq; congr (nth _ _ _); rewrite /= /bump.
by case: ltnP; lia.
Qed.

Lemma chart_seq n (i j : 'I_n.+1) z : i != j ->
  change_chart (row_seq z) (Z.of_nat i) (Z.of_nat j) = Ok (row_seq (chart i j z)).
Proof.
move=> ij; rewrite change_chartE ?size_row_seq; last first.
- by move=> e; case/eqP: ij; apply: val_inj.
- by rewrite -ltnS.
- by rewrite -ltnS.
by rewrite homr_seq hom_to_affine_seq.
Qed.
End Bridge.
