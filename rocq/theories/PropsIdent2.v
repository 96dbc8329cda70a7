(** Property C162: the metric of the ambient space determines H up to a positive factor. *)
From Coq Require Import ZArith.
From mathcomp Require Import all_ssreflect all_algebra.
From mathcomp Require Import ssrZ ring.
From SsrMultinomials Require Import mpoly.
From Verif Require Import Base ModelUtil ModelProjective ModelBasis ModelGeom SpecPatch Bridge Herm ProofIdent8.
Delimit Scope Z_scope with Z.

Set Implicit Arguments.
Unset Strict Implicit.
Unset Printing Implicit Defensive.

Import GRing.Theory Num.Theory.
Local Open Scope ring_scope.

(** *** C162: g_proj agrees on one patch exactly for proportional H *)
Theorem metric_determines_h : forall (C : numClosedFieldType) (m k : nat) (B : basis), basis_full m.+1 k = Ok B -> (0 < k)%N ->
  forall (pi : C) (P : {mpoly C[m.+2]}) (p : 'I_m.+2) (d : 'I_m.+1) (H H' : 'M[C]_(size (power_matrix B))),
  pi != 0 -> hermitian H -> posdef H -> hermitian H' -> posdef H' ->
  (forall z i j, ob_g_proj pi (on_patch k H P p d z) i j = ob_g_proj pi (on_patch k H' P p d z) i j) <->
  exists2 r, 0 < r & H' = r *: H.
Proof. exact metric_h. Qed.
Print Assumptions metric_determines_h.

(** On a curve and in degree one: diag(1, 3) and diag(3, 1) have the same metric at z = 1,
    3 / (16 pi), though they are not proportional. *)
Example same_metric_at_a_point (C : numClosedFieldType) (pi : C) :
  let s (i : 'I_2) : C := 1 in let s1 (i : 'I_2) (_ : 'I_1) : C := (i == 1)%:R in
  let g (a b : C) := let h := HVec (\row_(i < 2) (if i == 0 then a else b)) in let ph := psi_h h s1 (s_c s) in
    g_proj pi (psi h s (s_c s)) ph (psi_a ph) (psi_ha h s1 (s_1_c s1)) 1 0 0 in
  g 1 3%:R = 3%:R / (16%:R * pi) /\ g 3%:R 1 = 3%:R / (16%:R * pi).
Proof.
have n2 : (2%:R : C) != 0 by rewrite pnatr_eq0.
rewrite /g_proj /psi /psi_h /psi_a /psi_ha /s_c /s_1_c /= !big_ord_recl !big_ord0 !mxE /= !(cjE, mulr1, mul1r, mul0r, mulr0, add0r, addr0, mulr0n, mulr1n).
rewrite ?mulr1 ?mul1r.
have e4 : 1 + 3%:R = 4%:R :> C by rewrite -(natrD _ 1 3).
have n4 : (4%:R : C) != 0 by rewrite pnatr_eq0.
have [->|p0] := eqVneq pi 0; first by rewrite !(mulr0, mul0r, invr0).
rewrite [3%:R + 1]addrC e4; split; field; rewrite ?p0 ?pnatr_eq0 //.
Qed.
