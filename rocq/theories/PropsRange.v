(** Property C143: patches out of range. *)
From Coq Require Import ZArith.
From mathcomp Require Import all_ssreflect all_algebra.
From mathcomp Require Import ssrZ.
From Verif Require Import Base ModelStr ModelUtil ModelProjective ModelExpr ModelPoly ModelHom SpecPoly SpecHom PropsHom ProofRange.
Delimit Scope Z_scope with Z.

Set Implicit Arguments.
Unset Strict Implicit.
Unset Printing Implicit Defensive.

Import GRing.Theory Num.Theory.
Local Open Scope ring_scope.

(** hom_to_affine reduces the patch modulo the number of coordinates, and rotates
    the result by the quotient. *)
Theorem hom_to_affine_any_patch : forall (F : fieldType) (h : seq F) (p : Z), size h != 0%N ->
  let n := Z.of_nat (size h) in
  exists w, hom_to_affine h (p mod n)%Z = Ok w /\ hom_to_affine h p = Ok (roll w (p / n)%Z).
Proof. exact hom_any. Qed.
Print Assumptions hom_to_affine_any_patch.

Theorem affine_to_hom_any_patch : forall (F : fieldType) (z : seq F) (p : Z),
  let n := Z.of_nat (size z).+1 in let k := (p / n)%Z in
  affine_to_hom z p = affine_to_hom (roll z (- (if (p <? 0)%Z then k + 1 else k))%Z) (p mod n)%Z.
Proof. exact affine_any. Qed.
Print Assumptions affine_to_hom_any_patch.

(** So the round trip does not notice patches which are too large ... *)
Theorem affine_hom_affine_any_patch : forall (F : fieldType) (z : seq F) (p : Z), (0 <= p)%Z ->
  hom_to_affine (affine_to_hom z p) p = Ok z.
Proof. exact round_any. Qed.
Print Assumptions affine_hom_affine_any_patch.

(** ... but the compiled equation takes the nearest valid patch (C37), which is another
    one: x y + a w^2 at (0, 0) in "patch 7" of CP^2. *)
Theorem patch_out_of_range_refuted : forall (C : numClosedFieldType) (a : C),
  exists2 H, hom_init (quadric C [:: 0; 1; 2]%Z) = Ok H &
    transform_eval id H [:: PArr [:: 0; 0]; PArr [:: a]] [::] (Some [:: 7%Z]) = Ok a /\
    call_num (quadric C [:: 0; 1; 2]%Z) [:: PArr (affine_to_hom [:: 0; 0] 7%Z); PArr [:: a]] [::] = Ok 0.
Proof.
move=> C a; eexists; first by rewrite /hom_init /= /hp_dims /= big_seq1.
split; last by congr Ok; rewrite /= mul0r expr0n mulr0 !addr0.
by transitivity (Ok (0 + 0 * 0 + a * 1 ^+ 2) : res C); last by rewrite mulr0 expr1n mulr1 !add0r.
Qed.
Print Assumptions patch_out_of_range_refuted.

Example range_ex : affine_to_hom [:: 5%:R; 7%:R : rat] 3 = [:: 1; 7%:R; 5%:R] /\
  hom_to_affine [:: 1; 7%:R; 5%:R : rat] 3 = Ok [:: 5%:R; 7%:R] /\
  affine_to_hom [:: 5%:R; 7%:R : rat] (-4) = [:: 7%:R; 5%:R; 1].
Proof. by split=> //; split=> //; congr Ok; apply/eqP. Qed.
