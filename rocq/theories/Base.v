(** Shared conventions of the model: Python exceptions as values.

    Not a model of a particular file of /repo: [res] is how every other file
    writes "this Python call may raise". *)
From Coq Require Import ZArith List String.
From mathcomp Require Import all_ssreflect.

Set Implicit Arguments.
Unset Strict Implicit.
Unset Printing Implicit Defensive.

(** The exceptions raised by the modelled code (or by the libraries it calls
    directly); the message texts are not modelled. *)
Inductive exn : Type :=
  | IndexError | ValueError | KeyError | TypeError
  | AssertionError | RuntimeError | NotImplemented | OtherError.

Inductive res (A : Type) : Type :=
  | Ok of A
  | Err of exn.
Arguments Ok {A} _.
Arguments Err {A} _.

Definition rbind (A B : Type) (x : res A) (f : A -> res B) : res B :=
  match x with Ok a => f a | Err e => Err e end.

Definition rmap (A B : Type) (f : A -> B) (x : res A) : res B :=
  match x with Ok a => Ok (f a) | Err e => Err e end.

(** Sequential evaluation of a list of computations that may raise
    (a Python list comprehension): the first exception wins. *)
Fixpoint rseq (A : Type) (s : seq (res A)) : res (seq A) :=
  match s with
  | [::] => Ok [::]
  | x :: s' => rbind x (fun a => rmap (cons a) (rseq s'))
  end.

Definition is_ok (A : Type) (x : res A) : bool :=
  if x is Ok _ then true else false.

(** [assert b] of Python. *)
Definition rassert (b : bool) : res unit :=
  if b then Ok tt else Err AssertionError.

Notation "'do' x <- a ; b" := (rbind a (fun x => b))
  (at level 200, x name, a at level 100, b at level 200).
