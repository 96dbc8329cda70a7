(** Properties C160-C161: the Kaehler potential determines H, and the Fubini-Study matrix
    is the only H which no unitary change of the coordinates alters. *)
From Coq Require Import ZArith.
From mathcomp Require Import all_ssreflect all_algebra.
From mathcomp Require Import ssrZ.
From Verif Require Import Base ModelUtil ModelProjective ModelExpr ModelPoly ModelVariety ModelBasis ModelGeom ModelAlg ModelPipe ModelMC ModelML.
From Verif Require Import SpecAlg SpecPipe SpecFubini Bridge Herm SpecLinear ComplexR ProofIdent2 ProofIdent3 ProofIdent4.
Delimit Scope Z_scope with Z.

Set Implicit Arguments.
Unset Strict Implicit.
Unset Printing Implicit Defensive.

Import GRing.Theory Num.Theory.
Local Open Scope ring_scope.

(** *** C160: the values of kahler_potential on one patch, up to a constant *)
Theorem kahler_determines_h : forall (C : numClosedFieldType) (lg ex : C -> C),
  (forall u v, 0 < u -> 0 < v -> lg (u * v) = lg u + lg v) -> (forall u v, 0 < u -> 0 < v -> lg u = lg v -> u = v) ->
  forall (pi : C) (m k : nat) (V : variety C) (B : basis), pi != 0 -> v_coordinates V = Ok m.+2 ->
  basis_full m.+1 k = Ok B -> (0 < k)%N ->
  forall (p : 'I_m.+2) (H H' : 'M[C]_(size (power_matrix B))), posdef H -> posdef H' -> forall c : C,
  (forall zs a, size zs = m.+1 -> alg_kahler lg ex pi m V (HMat H) zs (Some (Z.of_nat p)) = Ok a ->
     alg_kahler lg ex pi m V (HMat H') zs (Some (Z.of_nat p)) = Ok (a + c)) ->
  exists r, [/\ 0 < r, H' = r *: H, c = lg r / (pi * k%:R) & c = 0 -> H' = H].
Proof. exact kahler_h. Qed.
Print Assumptions kahler_determines_h.

(** Hence different Cholesky parameters with positive diagonal give different potentials. *)
Theorem kahler_determines_parameters : forall (C : numClosedFieldType) (lg ex : C -> C),
  (forall u v, 0 < u -> 0 < v -> lg (u * v) = lg u + lg v) -> (forall u v, 0 < u -> 0 < v -> lg u = lg v -> u = v) ->
  forall (pi : C) (m k : nat) (V : variety C) (B : basis), pi != 0 -> v_coordinates V = Ok m.+2 ->
  basis_full m.+1 k = Ok B -> (0 < k)%N ->
  forall (p : 'I_m.+2) (H H' : 'M[C]_(size (power_matrix B))) (t t' : seq C), let N := size (power_matrix B) in
  size t = (N ^ 2)%N -> size t' = (N ^ 2)%N ->
  all (fun x => x \is Num.real) t -> all (fun x => x \is Num.real) t' ->
  all (fun x => 0 < x) (take N t) -> all (fun x => 0 < x) (take N t') ->
  cholesky_from_param t = Ok (SqMx H) -> cholesky_from_param t' = Ok (SqMx H') ->
  (forall zs, size zs = m.+1 -> alg_kahler lg ex pi m V (HMat H) zs (Some (Z.of_nat p)) =
    alg_kahler lg ex pi m V (HMat H') zs (Some (Z.of_nat p))) -> t = t'.
Proof. exact params_of_kahler. Qed.
Print Assumptions kahler_determines_parameters.

(** The assumptions on the logarithm hold for the complex numbers. *)
Example complex_log : (forall u v : CR, 0 < u -> 0 < v -> clog (u * v) = clog u + clog v) /\
  (forall u v : CR, 0 < u -> 0 < v -> clog u = clog v -> u = v).
Proof. exact: clog_pos. Qed.

(** At one point the values do not suffice: in degree one on two coordinates, at (1 : 1),
    the matrices diag(1, 3) and diag(2, 2) have the same psi. *)
Example one_point_is_not_enough (C : numClosedFieldType) : let s (i : 'I_2) : C := 1 in
  psi (HVec (\row_i (if i == 0 then 1 else 3%:R))) s (s_c s) = psi (HVec (\row_i 2%:R)) s (s_c s).
Proof.
by rewrite /psi /s_c /= !big_ord_recl !big_ord0 !mxE /= !conjC1 !mulr1 !mul1r !addr0 -[1]/(1%:R) -!natrD.
Qed.

(** *** C161: the Fubini-Study matrix and unitary changes of the coordinates *)
Theorem fubini_unitary : forall (C : numClosedFieldType) (m k : nat) (B : basis), basis_full m.+1 k = Ok B ->
  forall (A : 'M[C]_m.+2) (R : 'M[C]_(size (power_matrix B))), unitary A -> lin_sections A R ->
  R *m diag_mx (fubini_h C B) *m adjm R = diag_mx (fubini_h C B).
Proof. exact fub_unitary. Qed.
Print Assumptions fubini_unitary.

Theorem fubini_only_invariant : forall (C : numClosedFieldType) (m k : nat) (B : basis), basis_full m.+1 k = Ok B ->
  forall M : 'M[C]_(size (power_matrix B)),
  (forall (A : 'M[C]_m.+2) (R : 'M[C]_(size (power_matrix B))), unitary A -> lin_sections A R -> R *m M *m adjm R = M) ->
  exists c, M = c *: diag_mx (fubini_h C B).
Proof. exact fub_only. Qed.
Print Assumptions fubini_only_invariant.

(** For quadrics in two coordinates the identity is not invariant. *)
Example identity_not_invariant (C : numClosedFieldType) : exists2 B, basis_full 1 2 = Ok B &
  ~ (forall (A : 'M[C]_2) (R : 'M[C]_(size (power_matrix B))), unitary A -> lin_sections A R -> R *m 1%:M *m adjm R = 1%:M).
Proof. exact: id_not_invariant. Qed.
