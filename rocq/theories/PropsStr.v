(** Property C22: variable names and subscripts (cyjax/polynomial.py). *)
From Coq Require Import ZArith Ascii String.
From mathcomp Require Import all_ssreflect.
From Verif Require Import Base ModelStr ProofStr.
Delimit Scope Z_scope with Z.

Set Implicit Arguments.
Unset Strict Implicit.
Unset Printing Implicit Defensive.

(** C22: a subscript written by merge_subscript is read back. *)
Theorem merge_split_subscript : forall (n : sym) (i : Z),
  n != [::] -> all is_letter n -> (0 <= i)%Z ->
  split_subscript (merge_subscript n i) = Ok (n, Some i).
Proof. exact merge_split. Qed.
Print Assumptions merge_split_subscript.

Example merge_split_ex :
  merge_subscript (lit "zeta") 120 = lit "zeta120" /\
  split_subscript (lit "zeta120") = Ok (lit "zeta", Some 120%Z).
Proof. by []. Qed.

(** C22: names without subscript. *)
Theorem split_subscript_plain : forall (n : sym),
  n != [::] -> all is_letter n -> split_subscript n = Ok (n, None).
Proof. exact split_plain. Qed.
Print Assumptions split_subscript_plain.

Example split_plain_ex : split_subscript (lit "psi") = Ok (lit "psi", None).
Proof. by []. Qed.

(** C22: the spellings n12, n_12 and n_{12} are read as the same name and
    number, for every string of digits (also with leading zeros). *)
Theorem split_subscript_spellings : forall (n d : sym),
  n != [::] -> all is_letter n -> d != [::] -> all is_digit d ->
  [/\ split_subscript (n ++ d) = Ok (n, Some (digits_val d)),
      split_subscript (n ++ "_"%char :: d) = Ok (n, Some (digits_val d)) &
      split_subscript (n ++ "_"%char :: "{"%char :: rcons d "}"%char)
        = Ok (n, Some (digits_val d))].
Proof. exact split_spellings. Qed.
Print Assumptions split_subscript_spellings.

Example split_spellings_ex :
  [/\ split_subscript (lit "z12") = Ok (lit "z", Some 12%Z),
      split_subscript (lit "z_12") = Ok (lit "z", Some 12%Z) &
      split_subscript (lit "z_{12}") = Ok (lit "z", Some 12%Z)].
Proof. by []. Qed.

(** C22: two subscripts raise, in either spelling. *)
Theorem split_subscript_two : forall (n d u v : sym),
  n != [::] -> all is_letter n -> all is_digit d ->
  all (predC is_delim) u -> u != [::] -> all (predC is_delim) v ->
  split_subscript (n ++ d ++ "_"%char :: u ++ "_"%char :: v) = Err RuntimeError.
Proof. exact split_two. Qed.
Print Assumptions split_subscript_two.

Theorem split_subscript_digits_and_sub : forall (n d u : sym),
  n != [::] -> all is_letter n -> d != [::] -> all is_digit d -> all (predC is_delim) u ->
  split_subscript (n ++ d ++ "_"%char :: u) = Err RuntimeError.
Proof. exact split_digit_sub. Qed.
Print Assumptions split_subscript_digits_and_sub.

Example split_two_ex :
  split_subscript (lit "z_1_2") = Err RuntimeError /\
  split_subscript (lit "z1_2") = Err RuntimeError.
Proof. by []. Qed.

(** C22: a subscript that is not an integer raises ValueError. *)
Theorem split_subscript_not_integer : forall (n u : sym),
  n != [::] -> all is_letter n -> all is_letter u ->
  split_subscript (n ++ "_"%char :: u) = Err ValueError.
Proof. exact split_letters_sub. Qed.
Print Assumptions split_subscript_not_integer.

Example split_not_integer_ex :
  split_subscript (lit "z_a") = Err ValueError /\ split_subscript (lit "z_") = Err ValueError.
Proof. by []. Qed.

(** C22, limits: reading back fails for every negative subscript, and for every
    name with a digit between letters. *)
Theorem merge_split_negative_refuted : forall (n : sym) (i : Z),
  n != [::] -> all is_letter n -> (i < 0)%Z ->
  split_subscript (merge_subscript n i) = Ok (merge_subscript n i, None).
Proof. exact split_negative. Qed.
Print Assumptions merge_split_negative_refuted.

Theorem merge_split_inner_digit_refuted : forall (n d m : sym) (i : Z),
  n != [::] -> all is_letter n -> d != [::] -> all is_digit d ->
  m != [::] -> all is_letter m -> (0 <= i)%Z ->
  split_subscript (merge_subscript (n ++ d ++ m) i)
    = Ok (merge_subscript (n ++ d ++ m) i, None).
Proof. exact split_inner. Qed.
Print Assumptions merge_split_inner_digit_refuted.

Example merge_split_limits_ex :
  [/\ split_subscript (lit "z_-1") = Ok (lit "z", Some (-1)%Z),
      split_subscript (merge_subscript (lit "z") (-1)) = Ok (lit "z-1", None) &
      split_subscript (merge_subscript (lit "x2y") 3) = Ok (lit "x2y3", None)].
Proof. by []. Qed.
