(** The real numbers of the standard library as a real closed field of
    mathcomp.  Only axioms of the standard library are used: those of the reals,
    functional extensionality and the epsilon operator. *)
From Coq Require Import Reals Lra Epsilon FunctionalExtensionality.
From mathcomp Require Import all_ssreflect all_algebra.

Set Implicit Arguments.
Unset Strict Implicit.
Unset Printing Implicit Defensive.

Local Open Scope R_scope.

Definition R_eqb (x y : R) : bool := if Req_EM_T x y then true else false.
Lemma R_eqP : Equality.axiom R_eqb.
Proof. by move=> x y; rewrite /R_eqb; case: Req_EM_T => h; constructor. Qed.
Canonical R_eqMixin := EqMixin R_eqP.
Canonical R_eqType := Eval hnf in EqType R R_eqMixin.

Definition R_pick (P : pred R) (n : nat) : option R :=
  let x := epsilon (inhabits 0) (fun y => is_true (P y)) in if P x then Some x else None.
Fact R_pick_some P n x : R_pick P n = Some x -> P x.
Proof. by rewrite /R_pick; case: ifP => // h [<-]. Qed.
Fact R_pick_ex (P : pred R) : (exists x, P x) -> exists n, R_pick P n.
Proof. by move=> h; exists 0%N; rewrite /R_pick (epsilon_spec (inhabits 0) (fun y => is_true (P y)) h). Qed.
Fact R_pick_ext (P Q : pred R) : P =1 Q -> R_pick P =1 R_pick Q.
Proof. by move=> h n; have -> : P = Q by apply: functional_extensionality. Qed.
Definition R_choiceMixin : choiceMixin R := Choice.Mixin R_pick_some R_pick_ex R_pick_ext.
Canonical R_choiceType := Eval hnf in ChoiceType R R_choiceMixin.

Fact R_addA : associative Rplus. Proof. by move=> x y z; rewrite Rplus_assoc. Qed.
Definition R_zmodMixin := ZmodMixin R_addA Rplus_comm Rplus_0_l Rplus_opp_l.
Canonical R_zmodType := Eval hnf in ZmodType R R_zmodMixin.

Fact R_mulA : associative Rmult. Proof. by move=> x y z; rewrite Rmult_assoc. Qed.
Fact R_mulDl : left_distributive Rmult Rplus. Proof. exact: Rmult_plus_distr_r. Qed.
Fact R_one_neq0 : R1 != R0 :> R. Proof. by apply/eqP; exact: R1_neq_R0. Qed.
Definition R_ringMixin := ComRingMixin R_mulA Rmult_comm Rmult_1_l R_mulDl R_one_neq0.
Canonical R_ringType := Eval hnf in RingType R R_ringMixin.
Canonical R_comRingType := Eval hnf in ComRingType R Rmult_comm.

Definition R_inv (x : R) : R := if x == R0 then R0 else Rinv x.
Fact R_mulV : forall x : R, x != R0 -> R_inv x * x = R1.
Proof. by move=> x x0; rewrite /R_inv (negbTE x0) Rinv_l //; apply/eqP. Qed.
Fact R_inv0 : R_inv R0 = R0. Proof. by rewrite /R_inv eqxx. Qed.
Definition R_unitRingMixin := FieldUnitMixin R_mulV R_inv0.
Canonical R_unitRingType := Eval hnf in UnitRingType R R_unitRingMixin.
Canonical R_comUnitRingType := Eval hnf in [comUnitRingType of R].
Fact R_field : GRing.Field.mixin_of [unitRingType of R]. Proof. by []. Qed.
Definition R_idomainMixin := FieldIdomainMixin R_field.
Canonical R_idomainType := Eval hnf in IdomainType R R_idomainMixin.
Canonical R_fieldType := FieldType R R_field.

Definition R_leb (x y : R) : bool := if Rle_dec x y then true else false.
Definition R_ltb (x y : R) : bool := if Rlt_dec x y then true else false.
Lemma R_leP x y : reflect (x <= y) (R_leb x y).
Proof. by rewrite /R_leb; case: Rle_dec => h; constructor. Qed.
Lemma R_ltP x y : reflect (x < y) (R_ltb x y).
Proof. by rewrite /R_ltb; case: Rlt_dec => h; constructor. Qed.

Fact R_le0_add x y : R_leb 0 x -> R_leb 0 y -> R_leb 0 (x + y).
Proof. by move=> /R_leP hx /R_leP hy; apply/R_leP; lra. Qed.
Fact R_le0_mul x y : R_leb 0 x -> R_leb 0 y -> R_leb 0 (x * y).
Proof. by move=> /R_leP hx /R_leP hy; apply/R_leP; apply: Rmult_le_pos. Qed.
Fact R_le0_anti x : R_leb 0 x -> R_leb x 0 -> x = 0.
Proof. by move=> /R_leP hx /R_leP hy; lra. Qed.
Fact R_sub_ge0 x y : R_leb 0 (y - x) = R_leb x y.
Proof. by apply/R_leP/R_leP => h; lra. Qed.
Fact R_le0_total x : R_leb 0 x || R_leb x 0.
Proof. by apply/orP; have [h|h] := Rle_dec 0 x; [left|right]; apply/R_leP; lra. Qed.
Fact R_ge0_norm x : R_leb 0 x -> Rabs x = x.
Proof. by move=> /R_leP h; apply: Rabs_pos_eq. Qed.
Fact R_lt_def x y : R_ltb x y = (y != x) && R_leb x y.
Proof.
apply/R_ltP/andP => [h|[/eqP h /R_leP h']]; last lra.
by split; [apply/eqP; lra | apply/R_leP; lra].
Qed.
Definition R_leMixin : realLeMixin [idomainType of R] :=
  RealLeMixin R_le0_add R_le0_mul R_le0_anti R_sub_ge0 R_le0_total Rabs_Ropp R_ge0_norm R_lt_def.
Canonical R_porderType := POrderType ring_display R R_leMixin.
Canonical R_latticeType := LatticeType R R_leMixin.
Canonical R_distrLatticeType := DistrLatticeType R R_leMixin.
Canonical R_orderType := OrderType R R_leMixin.
Canonical R_numDomainType := NumDomainType R R_leMixin.
Canonical R_normedZmodType := NormedZmodType R R R_leMixin.
Canonical R_numFieldType := [numFieldType of R].
Canonical R_realDomainType := [realDomainType of R].
Canonical R_realFieldType := [realFieldType of R].


Import GRing.Theory Num.Theory Order.POrderTheory.
Local Open Scope ring_scope.
Lemma RplusE (x y : R) : Rplus x y = x + y. Proof. by []. Qed.
Lemma RminusE (x y : R) : Rminus x y = x - y. Proof. by []. Qed.
Lemma RoppE (x : R) : Ropp x = - x. Proof. by []. Qed.
Lemma RmultE (x y : R) : Rmult x y = x * y. Proof. by []. Qed.
Lemma RabsE (x : R) : Rabs x = `|x|. Proof. by []. Qed.
Lemma RinvE (x : R) : x != 0 -> Rinv x = x^-1.
Proof. by move=> x0; rewrite /GRing.inv /= /R_inv (negbTE x0). Qed.
Lemma RdivE (x y : R) : y != 0 -> Rdiv x y = x / y.
Proof. by move=> y0; rewrite /Rdiv RinvE. Qed.
Lemma RleP (x y : R) : reflect (Rle x y) (x <= y). Proof. exact: R_leP. Qed.
Lemma RltP (x y : R) : reflect (Rlt x y) (x < y). Proof. exact: R_ltP. Qed.
Lemma R0E : IZR 0 = 0. Proof. by []. Qed.
Lemma R1E : IZR 1 = 1. Proof. by []. Qed.
Lemma RpowE (x : R) n : pow x n = x ^+ n.
Proof. by elim: n => //= n ->; rewrite exprS. Qed.
Lemma INRE n : INR n = n%:R.
Proof. by elim: n => // n IH; rewrite S_INR IH RplusE -addn1 natrD. Qed.

Lemma continuity_horner (p : {poly R}) : continuity (fun x => p.[x]).
Proof.
elim/poly_ind: p => [|p c IH] x.
  have -> : (fun x => (0 : {poly R}).[x]) = fct_cte 0.
    by apply: functional_extensionality => y; rewrite horner0.
  exact: continuity_pt_const.
have -> : (fun x => (p * 'X + c%:P).[x]) = plus_fct (mult_fct (fun x => p.[x]) id) (fct_cte c).
  by apply: functional_extensionality => y; rewrite !hornerE.
apply: continuity_pt_plus; last exact: continuity_pt_const.
apply: continuity_pt_mult; first exact: IH.
exact: derivable_continuous_pt (derivable_pt_id x).
Qed.

Fact R_real_closed : Num.real_closed_axiom [numDomainType of R].
Proof.
move=> p a b; rewrite le_eqVlt => /predU1P[<-|/RltP ab].
  by move=> pa; exists a; rewrite ?lexx // /root eq_le.
case/andP=> pa pb; have [ha|ha] := eqVneq p.[a] 0.
  by exists a; rewrite ?lexx /= ?ltW //; [exact/RltP | apply/eqP].
have [hb|hb] := eqVneq p.[b] 0.
  by exists b; rewrite ?lexx /= ?andbT ?ltW //; [exact/RltP | apply/eqP].
have [||x [xab px]] := IVT (fun x => p.[x]) a b (@continuity_horner p) ab.
- by apply/RltP; rewrite R0E lt_neqAle ha.
- by apply/RltP; rewrite R0E lt_def hb.
exists x; last exact/eqP.
by case: xab => /RleP -> /RleP ->.
Qed.
Canonical R_rcfType := RcfType R R_real_closed.
