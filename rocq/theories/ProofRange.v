(** Patches out of range. *)
From Coq Require Import ZArith Lia.
From mathcomp Require Import all_ssreflect all_algebra.
From mathcomp Require Import zify ssrZ.
From Verif Require Import Base ModelStr ModelUtil ModelProjective ModelExpr ModelPoly ModelHom ProofUtil ProofProjective.
Delimit Scope Z_scope with Z.

Set Implicit Arguments.
Unset Strict Implicit.
Unset Printing Implicit Defensive.

Import GRing.Theory.
Local Open Scope ring_scope.

Section Range.
Variable F : fieldType.
Implicit Types (h z : seq F) (p : Z).

Lemma hom_any h p : size h != 0%N -> let n := Z.of_nat (size h) in
  exists w, hom_to_affine h (p mod n)%Z = Ok w /\ hom_to_affine h p = Ok (roll w (p / n)%Z).
Proof.
move=> n0 n; have B : (0 <= p mod n < n)%Z by apply: Z.mod_pos_bound; move: n0; rewrite /n; lia.
rewrite /hom_to_affine !(pop_gen 0) // -/n Zmod_mod (Z.div_small _ _ B) roll0 /=.
by eexists; split; first by []; rewrite map_roll.
Qed.

Lemma roll_shift z a b (c : Z) : (a = b + c * Z.of_nat (size z))%Z -> roll z a = roll z b.
Proof. by move=> ->; apply: roll_eqmod; exact: Z_mod_plus_full. Qed.

Lemma affine_any z p : let n := Z.of_nat (size z).+1 in let k := (p / n)%Z in
  affine_to_hom z p = affine_to_hom (roll z (- (if (p <? 0)%Z then k + 1 else k))%Z) (p mod n)%Z.
Proof.
move=> n k; have n0 : (0 < n)%Z by rewrite /n; lia.
have B : (0 <= p mod n < n)%Z by exact: Z.mod_pos_bound.
have Ep : p = (n * k + p mod n)%Z by exact: Z_div_mod_eq_full.
have q0 : (p mod n <? 0)%Z = false by apply/Z.ltb_ge; lia.
have En : n = (Z.of_nat (size z) + 1)%Z by rewrite /n; lia.
rewrite /affine_to_hom /insert_1d q0 /= roll_roll.
have st (s : seq F) : Z.of_nat (size (roll z 0 ++ s)) = (Z.of_nat (size z) + Z.of_nat (size s))%Z.
  by rewrite size_cat size_roll; lia.
case: ifP => p0.
- rewrite (@roll_shift z (- (p + 1)) (- (k + 1) + - (p mod n))%Z (- k)); last by rewrite {1}Ep En; lia.
  apply: (@roll_shift _ _ _ k); rewrite size_cat size_roll /= {1}Ep En; lia.
rewrite (@roll_shift z (- p) (- k + - (p mod n))%Z (- k)); last by rewrite {1}Ep En; lia.
apply: (@roll_shift _ _ _ k); rewrite size_cat size_roll /= {1}Ep En; lia.
Qed.

Lemma round_any z p : (0 <= p)%Z -> hom_to_affine (affine_to_hom z p) p = Ok z.
Proof.
move=> p0; set n := Z.of_nat (size z).+1; set k := (p / n)%Z; set q := (p mod n)%Z.
have n0 : (0 < n)%Z by rewrite /n; lia.
have B : (0 <= q < n)%Z by exact: Z.mod_pos_bound.
have Eh : affine_to_hom z p = affine_to_hom (roll z (- k)) q.
  by rewrite affine_any (_ : (p <? 0)%Z = false) //; apply/Z.ltb_ge.
have Eq : q = Z.of_nat (Z.to_nat q) by rewrite Z2Nat.id; lia.
have qz : (Z.to_nat q <= size z)%N by rewrite /n in B; lia.
have qs : (Z.to_nat q <= size (roll z (- k)))%N by rewrite size_roll.
have sz : Z.of_nat (size (affine_to_hom z p)) = n.
  by rewrite Eh Eq /affine_to_hom insert_1d_pos // !size_cat /= size_take size_drop size_roll; case: ifP; rewrite /n; lia.
have [|w []] := @hom_any (affine_to_hom z p) p; first by move: sz; rewrite /n; lia.
rewrite sz -/q -/k Eh {1 2}Eq round1 // => -[<-] ->.
by rewrite roll_roll (_ : - k + k = 0)%Z ?roll0 //; lia.
Qed.
End Range.
