(** Property C29: evaluation and mutable inputs (cyjax/polynomial.py, cyjax/util.py). *)
From mathcomp Require Import all_ssreflect all_algebra.
From mathcomp Require Import ring.
From Coq Require Import Ascii String.
From Verif Require Import Base ModelStr ModelExpr ModelStore SpecStore ProofStore.

Set Implicit Arguments.
Unset Strict Implicit.
Unset Printing Implicit Defensive.

Import GRing.Theory Num.Theory.
Local Open Scope ring_scope.

(** ** C29 *)
(** Immutable inputs: the store is untouched and the value is that of the
    expression. *)
Theorem evaluation_preserves_store : forall (C : numClosedFieldType) (env : sym -> obj C) (e : expr C)
    (h : store C),
  (forall s, s \in esyms e -> exists c, env s = Imm c) ->
  exists o, eval_store env e h = (o, h) /\ deref h o = sem (fun s => deref h (env s)) e.
Proof. exact eval_immutable. Qed.
Print Assumptions evaluation_preserves_store.

(** Mutable inputs are safe as long as none of them is the first of several
    factors of a product. *)
Theorem evaluation_mutable_safe : forall (C : numClosedFieldType) (env : sym -> obj C) (e : expr C)
    (h : store C),
  no_mutable_head env e ->
  exists o, eval_store env e h = (o, h) /\ deref h o = sem (fun s => deref h (env s)) e.
Proof. exact eval_preserved. Qed.
Print Assumptions evaluation_mutable_safe.

(** Otherwise the input is overwritten by the product. *)
Theorem evaluation_overwrites_refuted : forall (C : numClosedFieldType) (env : sym -> obj C) (s : sym)
    (l : nat) (fs : seq (expr C)) (h : store C),
  env s = Ref C l -> all (no_mutable_head env) fs ->
  (forall f s, List.In f fs -> s \in esyms f -> env s <> Ref C l) ->
  exists h', eval_store env (EMul (ESym s :: fs)) h = (Ref C l, h') /\
    forall k, h' k = if k == l then sem (fun s => deref h (env s)) (EMul (ESym s :: fs)) else h k.
Proof. exact eval_overwrites. Qed.
Print Assumptions evaluation_overwrites_refuted.

(** x*y + x*z with mutable x gives x*y + x*y*z. *)
Theorem evaluation_history_refuted : forall (C : numClosedFieldType) (x y z : C) (h : store C),
  let env s := if s == lit "x" then Ref C 0 else if s == lit "y" then Imm y else Imm z in
  h 0%N = x ->
  (eval_store env (EAdd [:: EMul [:: ESym (lit "x"); ESym (lit "y")];
                            EMul [:: ESym (lit "x"); ESym (lit "z")]]) h).1 = Imm (x * y + x * y * z).
Proof. exact eval_history. Qed.
Print Assumptions evaluation_history_refuted.

(** x**2*y + x with mutable x is evaluated correctly. *)
Example store_safe_ex (C : numClosedFieldType) :
  no_mutable_head (fun=> Ref C 0) (EAdd [:: EMul [:: EPow (ESym (lit "x")) 2; ESym (lit "y")];
                                            ESym (lit "x")]).
Proof. by []. Qed.
Example store_overwrite_ex (C : numClosedFieldType) (h : store C) :
  let env s := if s == lit "x" then Ref C 0 else Imm 3%:R in
  h 0%N = 2%:R -> (eval_store env (EMul [:: ESym (lit "x"); ESym (lit "y")]) h).2 0%N = 2%:R * 3%:R.
Proof. by move=> env /= ->. Qed.
