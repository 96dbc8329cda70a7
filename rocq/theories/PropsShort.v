(** Property C134: patches with fewer numbers than variables. *)
From Coq Require Import ZArith Ascii String.
From mathcomp Require Import all_ssreflect all_algebra.
From mathcomp Require Import ssrZ.
From Verif Require Import Base ModelStr ModelExpr ModelPoly SpecPoly ModelHom SpecHom SpecShort ProofShort.
Delimit Scope Z_scope with Z.

Set Implicit Arguments.
Unset Strict Implicit.
Unset Printing Implicit Defensive.

Import GRing.Theory Num.Theory.
Local Open Scope ring_scope.

(** ** C134: an integer patch for several variables *)
(** Zeros at the end make no difference to the number of a patch. *)
Theorem short_patch_number : forall (dims : seq nat) (ps : seq Z) (m : nat),
  unique_patch_index dims (ps ++ nseq m 0%Z) = unique_patch_index dims ps.
Proof. exact upi_short. Qed.
Print Assumptions short_patch_number.

(** So the short patch is accepted and takes the place of the full one: from then
    on, whatever else is requested, calls at the full patch and compiled
    evaluation at any patch raise. *)
Theorem short_patch_refuted : forall (C : numClosedFieldType) (norm : expr C -> expr C),
  norm_ok norm -> forall (P : poly C) H (ps : seq Z) (m : nat) (hist later : seq (seq Z)),
  let full := ps ++ nseq m 0%Z in
  hom_ok P -> hom_init P = Ok H -> valid_patch (hp_dims P) full ->
  depends P ps -> all (valid_patch (hp_dims P)) hist -> full \notin hist ->
  let H1 := affine_run norm H (hist ++ ps :: later) in
  [/\ affine_poly norm H1 full = Ok (affine_build norm P ps, H1),
      (forall args kw, is_ok (hom_call norm H1 args kw (Some full)) = false) &
      forall args kw q, is_ok (transform_eval norm H1 args kw (Some q)) = false].
Proof. exact short_patch. Qed.
Print Assumptions short_patch_refuted.

(** x0 y0 + x1 y1 *)
Definition pairing (C : numClosedFieldType) : poly C :=
  MkPoly [:: lit "x"; lit "y"] [:: Some [:: 0; 1]%Z; Some [:: 0; 1]%Z] [::]
    (SPoly [:: lit "x0"; lit "x1"; lit "y0"; lit "y1"]
       (EAdd [:: EMul [:: ESym (lit "x0"); ESym (lit "y0")]; EMul [:: ESym (lit "x1"); ESym (lit "y1")]])).

Example pairing_ok (C : numClosedFieldType) :
  [/\ hom_ok (pairing C), valid_patch (hp_dims (pairing C)) ([:: 1%Z] ++ nseq 1 0%Z) &
      depends (pairing C) [:: 1%Z]].
Proof.
split=> //.
- split=> //; split=> //.
  by do 2 eexists; split=> // s; rewrite /= !inE => /or4P[] /eqP ->.
- exists (fun=> 0), (fun s => (s == lit "y1")%:R); split=> [|s].
    rewrite /value /patch_syms /= !(big_cons, big_nil) /set1 /=.
    by rewrite !mulr1 !mul1r !mul0r !add0r !addr0 => /eqP; rewrite eq_sym oner_eq0.
  case: eqP => [->|_] //= _; exists (lit "y") => //; by exists (Some 1%Z).
Qed.

(** With and without the request for patch 1. *)
Example short_patch_ex (C : numClosedFieldType) (a b : C) :
  exists2 H, hom_init (pairing C) = Ok H &
    let call hist := rmap fst (hom_call id (affine_run id H hist)
                      [:: PArr [:: a]; PArr [:: b]; PArr [::]] [::] (Some [:: 1; 0]%Z)) in
    call [::] = Ok (0 + a * 1 + 1 * b) /\ call [:: [:: 1]]%Z = Err KeyError.
Proof.
eexists; first by rewrite /hom_init /= /hp_dims /= !big_cons big_nil.
by [].
Qed.
