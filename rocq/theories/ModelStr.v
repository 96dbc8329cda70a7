(** Model of the handling of variable names in cyjax/polynomial.py.

    Names and sympy symbols are ASCII strings (lists of characters); two sympy
    symbols are equal iff their names are (no assumptions, no dummies). *)
From Coq Require Import ZArith Ascii String.
From mathcomp Require Import all_ssreflect.
From mathcomp Require Import ssrZ.
From Verif Require Import Base.
Delimit Scope Z_scope with Z.

Set Implicit Arguments.
Unset Strict Implicit.
Unset Printing Implicit Defensive.

Lemma ascii_eqP : Equality.axiom Ascii.eqb.
Proof. exact: Ascii.eqb_spec. Qed.
Canonical ascii_eqMixin := EqMixin ascii_eqP.
Canonical ascii_eqType := Eval hnf in EqType ascii ascii_eqMixin.

Definition sym := seq ascii.
Definition lit (s : string) : sym := list_ascii_of_string s.

Definition code (c : ascii) : nat := nat_of_ascii c.
Definition is_digit (c : ascii) : bool := (48 <= code c <= 57).
Definition is_letter (c : ascii) : bool :=
  (65 <= code c <= 90) || (97 <= code c <= 122).
Definition is_space (c : ascii) : bool := (code c == 32) || (9 <= code c <= 13).

(** str.strip(ch) and str.strip() *)
Definition strip (p : pred ascii) (s : sym) : sym :=
  let s := drop (find (predC p) s) s in
  rev (drop (find (predC p) (rev s)) (rev s)).

(** int(s) for a string without underscores; None stands for ValueError. *)
Definition digits_val (s : sym) : Z :=
  foldl (fun a c => 10 * a + (Z.of_nat (code c) - 48))%Z 0%Z s.

Definition py_int (s : sym) : option Z :=
  let s := strip is_space s in
  let '(sg, ds) := match s with
    | "-"%char :: t => ((-1)%Z, t)
    | "+"%char :: t => (1%Z, t)
    | _ => (1%Z, s) end in
  if (ds != [::]) && all is_digit ds then Some (sg * digits_val ds)%Z else None.

(** str(i) for an integer. *)
Fixpoint nat_digits (fuel n : nat) : sym :=
  if fuel is f.+1 then
    let d := ascii_of_nat (48 + n %% 10) in
    if n < 10 then [:: d] else rcons (nat_digits f (n %/ 10)) d
  else [::].

Definition str_nat (n : nat) : sym := nat_digits n.+1 n.
Definition str_int (i : Z) : sym :=
  if (i <? 0)%Z then "-"%char :: str_nat (Z.to_nat (- i)) else str_nat (Z.to_nat i).

(** sympy.printing.conventions.split_super_sub (external, ASCII names): the text
    is cut before every '^', '_' or '__' other than at its start; trailing
    digits of an alphabetic main part are the first subscript. *)
Definition is_delim (c : ascii) : bool := (c == "^"%char) || (c == "_"%char).
Definition starts (p s : sym) : bool := take (size p) s == p.

Fixpoint text_parts (fuel : nat) (text : sym) : seq sym :=
  if fuel is f.+1 then
    if text is [::] then [::] else
    let start := if starts (lit "__") text then 2 else 1 in
    let k := start + find is_delim (drop start text) in
    take k text :: text_parts f (drop k text)
  else [::].

Definition part_super (part : sym) : seq sym :=
  if starts (lit "^") part then [:: drop 1 part]
  else if starts (lit "__") part then [:: drop 2 part] else [::].
Definition part_sub (part : sym) : seq sym :=
  if starts (lit "^") part then [::]
  else if starts (lit "__") part then [::] else [:: drop 1 part].

Definition name_digits (name : sym) : option (sym * sym) :=
  let l := find (predC is_letter) name in
  if (0 < l) && (drop l name != [::]) && all is_digit (drop l name)
  then Some (take l name, drop l name) else None.

Definition split_super_sub (text : sym) : sym * seq sym * seq sym :=
  match text_parts (size text) text with
  | [::] => (text, [::], [::])
  | name :: ps =>
    let supers := flatten (map part_super ps) in
    let subs := flatten (map part_sub ps) in
    if name_digits name is Some (n, d) then (n, supers, d :: subs)
    else (name, supers, subs)
  end.

(** polynomial.py:62-90  split_subscript (the superscript warning is not
    modelled; the superscript is discarded). *)
Definition split_subscript (var : sym) : res (sym * option Z) :=
  let '(name, sup, sub) := split_super_sub var in
  match sub with
  | [::] => Ok (name, None)
  | [:: s] =>
    let s := strip (pred1 "}"%char) (strip (pred1 "{"%char) s) in
    if py_int s is Some i then Ok (name, Some i) else Err ValueError
  | _ => Err RuntimeError
  end.

(** polynomial.py:93-99  merge_subscript *)
Definition merge_subscript (name : sym) (sub : Z) : sym := name ++ str_int sub.
