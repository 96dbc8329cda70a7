(** Notions used to state which names and points are accepted. *)
From Coq Require Import ZArith Ascii String.
From mathcomp Require Import all_ssreflect all_algebra.
From mathcomp Require Import ssrZ.
From Verif Require Import Base ModelStr ModelExpr ModelPoly.
Delimit Scope Z_scope with Z.

Set Implicit Arguments.
Unset Strict Implicit.
Unset Printing Implicit Defensive.

(** A (Latin) letter, digit or underscore. *)
Definition word_char (c : ascii) : Prop :=
  let k := nat_of_ascii c in
  (48 <= k <= 57)%N \/ (65 <= k <= 90)%N \/ (97 <= k <= 122)%N \/ k = 95%N.

(** A Python identifier: made of such characters, the first one not a digit. *)
Definition identifier (s : sym) : Prop :=
  [/\ s <> [::], forall c, List.In c s -> word_char c &
      forall c, List.head s = Some c -> ~ (48 <= nat_of_ascii c <= 57)%N].

(** A Python integer as an integer of mathcomp. *)
Definition int_of (p : Z) : int :=
  match p with Z0 => 0%:Z | Zpos q => (Pos.to_nat q)%:Z | Zneg q => - (Pos.to_nat q)%:Z end%R.

(** Inputs with too few coordinates: of each vector only the first [keep]. *)
Section Short.
Variable C : numClosedFieldType.
Implicit Types (P : poly C) (rho : sym -> C) (keep : sym -> nat).

Definition short_input rho keep (ni : sym * option (seq Z)) : pyval C :=
  if ni.2 is Some l then PArr (take (keep ni.1) [seq rho (merge_subscript ni.1 i) | i <- l])
  else PNum (rho ni.1).
Definition short_inputs P rho keep : seq (pyval C) :=
  map (short_input rho keep) (zip (variable_names P) (variable_indices P)).

(** A coordinate which occurs in the expression [e] is missing. *)
Definition missing P keep (e : expr C) : Prop :=
  exists n l k, [/\ (n, Some l) \in zip (variable_names P) (variable_indices P), (keep n <= k < size l)%N &
    merge_subscript n (nth 0%Z l k) \in esyms e].
End Short.
