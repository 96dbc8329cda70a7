(** Notions used in the statements about GeometricObjects. *)
From Coq Require Import ZArith.
From mathcomp Require Import all_ssreflect all_algebra.
From Verif Require Import Base ModelUtil ModelGeom Deriv Wirtinger.
Delimit Scope Z_scope with Z.

Set Implicit Arguments.
Unset Strict Implicit.
Unset Printing Implicit Defensive.

Import GRing.Theory Num.Theory.
Local Open Scope ring_scope.

Section Contract.
Variables (C : numClosedFieldType) (N m : nat).
(** The objects as functions of the affine coordinates. *)
Variable o : 'rV[C]_m.+1 -> objects C N m.
Variable z : 'rV[C]_m.+1.

(** What is asked of JAX and of the sections: near [z], s_1 is the derivative
    of s and s_2 that of s_1, the sections are three times differentiable and
    their second derivatives are symmetric.  H and the degree are fixed. *)
Definition sections_contract (M : 'M[C]_N) (k : nat) : Prop :=
  (forall y, o_h (o y) = HMat M /\ o_degree (o y) = k) /\
  exists2 r : C, 0 < r & forall y, norm1 (y - z) < r -> forall s : 'I_N,
    [/\ is_grad (fun x => o_s (o x) s) y (\row_i o_s1 (o y) s i),
        forall i, is_grad (fun x => o_s1 (o x) s i) y (\row_j o_s2 (o y) s i j),
        forall i j, o_s2 (o y) s i j = o_s2 (o y) s j i &
        forall i j, exists t, is_grad (fun x => o_s2 (o x) s i j) y t].

(** The gradient is differentiable, the dependent coordinate is fixed and its
    entry of the gradient nonzero; jac_h is the derivative of the Jacobian of the
    embedding and differentiable. *)
Definition res_mx p q (x : res 'M[C]_(p, q)) : 'M[C]_(p, q) := if x is Ok A then A else 0.

Definition embedding_contract (d : 'I_m.+1) : Prop :=
  (forall y, o_dep (o y) = Some (Z.of_nat d)) /\
  exists2 r : C, 0 < r & forall y, norm1 (y - z) < r ->
    [/\ o_grad (o y) 0 d != 0,
        forall i, exists t, is_grad (fun x => o_grad (o x) 0 i) y t,
        forall q i, is_grad (fun x => res_mx (ob_jac (o x)) q i) y (\row_a o_jach (o y) q i a) &
        forall q i a, exists t, is_grad (fun x => o_jach (o x) q i a) y t].
End Contract.

(** [log] has derivative 1/x around the point. *)
Definition log_near (C : numClosedFieldType) (log : C -> C) (x : C) : Prop :=
  exists2 r, 0 < r & forall y, `|y - x| < r -> is_deriv log y y^-1.

(** [phi] is differentiable and parametrises the zero set of [Q] near [x] by the
    coordinates other than [d]; [G] is the gradient of [Q]. *)
Definition local_parametrisation (C : numClosedFieldType) m (Q : 'rV[C]_m.+1 -> C)
    (G : 'rV[C]_m.+1 -> 'rV[C]_m.+1) (d : 'I_m.+1) (phi : 'rV[C]_m -> 'rV[C]_m.+1) (x : 'rV[C]_m) : Prop :=
  exists2 r : C, 0 < r &
    [/\ forall z, norm1 (z - phi x) < r -> is_grad Q z (G z),
        forall y a, phi y 0 (lift d a) = y 0 a &
        forall y, norm1 (y - x) < r -> Q (phi y) = 0 /\ exists J, is_jac phi y J].

(** The same objects for another H. *)
Definition with_h (C : numClosedFieldType) N m (h : hvalue C N) (o : objects C N m) : objects C N m :=
  Objects h (o_degree o) (o_s o) (o_s1 o) (o_s2 o) (o_grad o) (o_dep o) (o_jach o).

(** The same objects for another dependent coordinate. *)
Definition with_dep (C : numClosedFieldType) N m (d : option Z) (o : objects C N m) : objects C N m :=
  Objects (o_h o) (o_degree o) (o_s o) (o_s1 o) (o_s2 o) (o_grad o) d (o_jach o).

Definition scale_h (C : numClosedFieldType) N (c : C) (h : hvalue C N) : hvalue C N :=
  match h with HMat M => HMat (c *: M) | HVec v => HVec (c *: v) end.
