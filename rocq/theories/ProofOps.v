(** Derivatives of polynomials. *)
From Coq Require Import ZArith Lia Ascii String.
From mathcomp Require Import all_ssreflect all_algebra.
From mathcomp Require Import zify ssrZ ring.
From Verif Require Import Base ModelStr ModelUtil ModelExpr ModelPoly ModelHom ModelVariety ModelPipe ModelOps.
From Verif Require Import SpecPoly SpecVariety SpecOps ProofStr ProofPoly ProofPoly2 ProofPoly3 ProofVariety2.
Delimit Scope Z_scope with Z.

Set Implicit Arguments.
Unset Strict Implicit.
Unset Printing Implicit Defensive.

Import GRing.Theory Num.Theory.
Local Open Scope ring_scope.

Section Diff.
Variable C : numClosedFieldType.
Variable norm : expr C -> expr C.
Hypothesis nk : norm_ok norm.
Notation expr := (expr C).

(** The polynomial in one variable got by putting polynomials for the symbols *)
Fixpoint epoly (a : sym -> {poly C}) (e : expr) : {poly C} :=
  match e with
  | ENum c => c%:P
  | EI => 'i%:P
  | ESym s => a s
  | EAdd es => \sum_(v <- map (epoly a) es) v
  | EMul es => \prod_(v <- map (epoly a) es) v
  | EPow e n => epoly a e ^+ n
  end.

Lemma epoly_horner a (e : expr) x : (epoly a e).[x] = sem (fun s => (a s).[x]) e.
Proof.
elim/expr_nest_ind: e => [c||s|es IH|es IH|e k IH] //=; rewrite ?hornerC ?horner_exp ?IH //.
- elim: es IH => [|e es IHe] IH; first by rewrite !big_nil horner0.
  rewrite !big_cons hornerD IH ?IHe //; last by left.
  by move=> f fi; apply: IH; right.
elim: es IH => [|e es IHe] IH; first by rewrite !big_nil hornerC.
rewrite !big_cons hornerM IH ?IHe //; last by left.
by move=> f fi; apply: IH; right.
Qed.

(** Chain rule *)
Lemma epoly_deriv a (S : seq sym) (e : expr) x : uniq S -> {subset esyms e <= S} ->
  (epoly a e)^`().[x] = \sum_(v <- S) (a v)^`().[x] * sem (fun s => (a s).[x]) (ediff v e).
Proof.
move=> uS; elim/expr_nest_ind: e => [c||s|es IH|es IH|e k IH] /= sub.
- by rewrite derivC horner0 big1_seq // => v _; rewrite mulr0.
- by rewrite derivC horner0 big1_seq // => v _; rewrite mulr0.
- have sS : s \in S by apply: sub; rewrite inE.
  rewrite (bigD1_seq s) //= eqxx mulr1 big1_seq ?addr0 // => v /andP[nv _].
  by rewrite eq_sym (negbTE nv) mulr0.
- elim: es IH sub => [|e es IHe] IH sub.
    by rewrite /= big_nil derivC horner0 big1_seq // => v _; rewrite big_nil mulr0.
  rewrite /= big_cons derivD hornerD IHe.
  + rewrite IH; first last.
    * by move=> s si; apply: sub; rewrite /= mem_cat si.
    * by left.
    rewrite -big_split /=; apply: eq_bigr => v _; by rewrite big_cons mulrDr.
  + by move=> f fi; apply: IH; right.
  by move=> s si; apply: sub; rewrite /= mem_cat si orbT.
- elim: es IH sub => [|e es IHe] IH sub.
    by rewrite /= big_nil derivC horner0 big1_seq // => v _; rewrite mulr0.
  rewrite /= big_cons derivM hornerD !hornerM IHe.
  + rewrite IH; first last.
    * by move=> s si; apply: sub; rewrite /= mem_cat si.
    * by left.
    rewrite mulr_suml mulr_sumr -big_split /=; apply: eq_bigr => v _.
    rewrite !big_cons !big_nil /= addr0 mulr1 mulrDr; congr (_ + _).
      rewrite mulrA; congr (_ * _).
      have -> : \prod_(j <- [seq epoly a i | i <- es]) j = epoly a (EMul es) by [].
      by rewrite epoly_horner.
    by rewrite epoly_horner mulrCA.
  + by move=> f fi; apply: IH; right.
  by move=> s si; apply: sub; rewrite /= mem_cat si orbT.
rewrite deriv_exp hornerMn hornerM horner_exp epoly_horner IH // mulr_suml -sumrMnl; apply: eq_bigr => v _.
rewrite !big_cons big_nil mulr1 /=; move: (sem _ e ^+ _) (sem _ (ediff _ _)) (_.[x]) => Se De A; rewrite -mulr_natl; ring.
Qed.

(** Symbols and the imaginary unit *)
Lemma ediff_syms v (e : expr) : {subset esyms (ediff v e) <= esyms e}.
Proof.
elim/expr_nest_ind: e => [c||s|es IH|es IH|e k IH] //=.
- elim: es IH => [//|e es IHe] IH s /=; rewrite !mem_cat => /orP[/IH ->//|/IHe -> //]; first by left.
    by rewrite orbT.
  by move=> f fi; apply: IH; right.
- elim: es IH => [//|e es IHe] IH s /=; rewrite !mem_cat in_nil !orbF => /orP[/orP[/IH ->//|->]|/orP[->//|/IHe -> //]].
  + by left.
  + by rewrite orbT.
  + by rewrite orbT.
  by move=> f fi; apply: IH; right.
by move=> s; rewrite !mem_cat in_nil orbF => /orP[//|/IH].
Qed.

Lemma ediff_no_I v (e : expr) : no_I e -> no_I (ediff v e).
Proof.
elim/expr_nest_ind: e => [c||s|es IH|es IH|e k IH] //=.
- elim: es IH => [//|e es IHe] IH /= /andP[n1 n2]; rewrite IH ?IHe //; last by left.
  by move=> f fi; apply: IH; right.
- elim: es IH => [//|e es IHe] IH /= /andP[n1 n2]; rewrite n1 n2 IH ?IHe //; last by left.
  by move=> f fi; apply: IH; right.
by move=> ni; rewrite ni IH.
Qed.

Lemma diff_upd rho v (e : expr) (p : {poly C}) : (forall x, sem (upd rho v x) e = p.[x]) ->
  sem rho (ediff v e) = p^`().[rho v].
Proof.
move=> H; pose a s : {poly C} := if s == v then 'X else (rho s)%:P.
have -> : p = epoly a e.
  apply: horner_inj => x; rewrite epoly_horner -H; apply: eq_sem => s _.
  by rewrite /upd /a; case: ifP; rewrite ?hornerX ?hornerC.
rewrite (@epoly_deriv a (undup (v :: esyms e))) ?undup_uniq //; last first.
  by move=> s; rewrite mem_undup inE => ->; rewrite orbT.
rewrite (bigD1_seq v) ?undup_uniq ?mem_undup ?mem_head //= /a eqxx derivX hornerC mul1r big1 ?addr0 => [|s ns].
  by apply: eq_sem => s _; case: eqP => [->|_]; rewrite ?hornerX ?hornerC.
by rewrite (negbTE ns) derivC horner0 mul0r.
Qed.

Lemma upd_poly rho v (e : expr) : exists p : {poly C}, forall x, sem (upd rho v x) e = p.[x].
Proof.
exists (epoly (fun s => if s == v then 'X else (rho s)%:P) e) => x; rewrite epoly_horner; apply: eq_sem => s _.
by rewrite /upd; case: ifP; rewrite ?hornerX ?hornerC.
Qed.

(** diff of polynomial objects *)
Lemma poly_diff_main (P : poly C) v g e : sympy_poly P = SPoly g e -> v \in g ->
  check_signature [::] (variable_names P) = Ok tt ->
  exists P', [/\ poly_diff norm P v = Ok P',
    [/\ variable_names P' = variable_names P, variable_indices P' = variable_indices P, parameters P' = parameters P &
        sp_gens (sympy_poly P') = g],
    wf_poly P -> wf_poly P' &
    forall rho (p : {poly C}), (forall x, value P (upd rho v x) = p.[x]) -> value P' rho = p^`().[rho v]].
Proof.
move=> EP vg cs; have [n1 n2 n3] := nk; eexists; split.
- by rewrite /poly_diff EP /= vg /= cs.
- by [].
- case=> wv wp [g' [e' [E1 E2 E3]]]; split=> //=; exists g, (norm (ediff v e)); split=> //.
    move: E1; rewrite EP => -[_ Ee]; move=> s /n2 /ediff_syms; rewrite Ee; exact: E2.
  by move: E1; rewrite EP => -[_ Ee]; apply/n3/ediff_no_I; rewrite Ee.
move=> rho p H; rewrite /value /= n1; apply: diff_upd => x; rewrite -H /value EP; exact: eq_sem.
Qed.

(** Homogeneous polynomials *)
Lemma poly_diff_value (P P' : poly C) v rho : poly_diff norm P v = Ok P' ->
  exists g e, [/\ sympy_poly P = SPoly g e, v \in g,
    variable_names P' = variable_names P /\ variable_indices P' = variable_indices P & value P' rho = sem rho (ediff v e)].
Proof.
have [n1 _ _] := nk; rewrite /poly_diff; case: sympy_poly => [g e|//] /=; case: ifP => //= vg; case: check_signature => //= _ [<-].
by exists g, e; split=> //; rewrite /value /= n1.
Qed.

Let sc (P : poly C) (l : C) (rho : sym -> C) : sym -> C :=
  fun s => if s \in var_symbols (variable_names P) (variable_indices P) then l * rho s else rho s.

Lemma poly_diff_hom (P P' : poly C) v d : homogeneous P d.+1 ->
  v \in var_symbols (variable_names P) (variable_indices P) -> poly_diff norm P v = Ok P' -> homogeneous P' d.
Proof.
move=> hP vv EP' rho l.
have [g [e [EP _ [En Ei] Ev]]] := poly_diff_value rho EP'.
have Ev' r : value P' r = sem r (ediff v e).
  by have [g' [e' [EP2 _ _ ->]]] := poly_diff_value r EP'; move: EP2; rewrite EP => -[_ ->].
have vE r : value P r = sem r e by rewrite /value EP.
rewrite En Ei -/(sc P l rho) !Ev'.
pose a s : {poly C} := if s \in var_symbols (variable_names P) (variable_indices P) then rho s *: 'X else (rho s)%:P.
have Ea x : sem (sc P x rho) (ediff v e) = (epoly a (ediff v e)).[x].
  rewrite epoly_horner; apply: eq_sem => s _; rewrite /sc /a; case: ifP => _; last by rewrite hornerC.
  by rewrite hornerZ hornerX mulrC.
rewrite Ea; suff -> : epoly a (ediff v e) = sem rho (ediff v e) *: 'X^d.
  by rewrite hornerZ hornerXn mulrC.
apply: poly_eq_nz => x x0; rewrite -Ea hornerZ hornerXn.
have [p Hp] := upd_poly rho v e.
rewrite (diff_upd Hp) (@diff_upd _ _ _ (x ^+ d.+1 *: (p \Po (x^-1 *: 'X)))) => [|y].
  rewrite derivZ deriv_comp derivZ derivX !hornerE horner_comp hornerZ hornerX /sc vv mulKf // exprS.
  move: (p^`().[_]) (x ^+ d) => A B; rewrite -[LHS]/(x * B * A / x) (_ : x * B * A = A * B * x); last by ring.
  exact: mulfK.
rewrite hornerZ horner_comp hornerZ hornerX -Hp -!vE -(hP _ x) !vE; apply: eq_sem => s _.
rewrite /upd /sc; case: (s =P v) => [->|//]; by rewrite vv mulVKf.
Qed.

Lemma euler (P : poly C) (Ps : sym -> poly C) d rho : homogeneous P d -> uniq (all_symbols P) ->
  (forall v, v \in var_symbols (variable_names P) (variable_indices P) -> poly_diff norm P v = Ok (Ps v)) ->
  (exists g e, sympy_poly P = SPoly g e) ->
  \sum_(v <- var_symbols (variable_names P) (variable_indices P)) rho v * value (Ps v) rho = d%:R * value P rho.
Proof.
move=> hP uP Hd [g [e EP]]; set vs := var_symbols _ _ in Hd *.
have uv : uniq vs by move: uP; rewrite /all_symbols cat_uniq => /and3P[].
have vE r : value P r = sem r e by rewrite /value EP.
pose a s : {poly C} := if s \in vs then rho s *: 'X else (rho s)%:P.
have Ea : epoly a e = value P rho *: 'X^d.
  apply: horner_inj => x; rewrite epoly_horner hornerZ hornerXn mulrC -(hP rho x) vE; apply: eq_sem => s _.
  by rewrite /a -/vs; case: ifP => _; rewrite ?hornerC // hornerZ hornerX mulrC.
have := @epoly_deriv a (undup (vs ++ esyms e)) e 1 (undup_uniq _).
rewrite Ea derivZ derivXn hornerZ hornerMn hornerXn expr1n mulrC => ->; last first.
  by move=> s si; rewrite mem_undup mem_cat si orbT.
rewrite [RHS](bigID (mem vs)) /= [X in _ + X]big1_seq ?addr0 => [|s /andP[ns _]]; last first.
  by rewrite /a (negbTE ns) derivC horner0 mul0r.
rewrite -[RHS]big_filter [RHS](perm_big vs) /=; last first.
  apply: uniq_perm => // [|s]; first by rewrite filter_uniq ?undup_uniq.
  by rewrite mem_filter mem_undup mem_cat /mem /=; case: (s \in vs).
apply: eq_big_seq => s sv; have [g' [e' [E1 _ _ ->]]] := poly_diff_value rho (Hd _ sv).
move: E1; rewrite EP => -[_ <-]; rewrite {1}/a sv derivZ derivX hornerZ hornerC mulr1; congr (_ * _).
by apply: eq_sem => t _; rewrite /a; case: ifP; rewrite ?hornerC // hornerZ hornerX mulr1.
Qed.
Lemma poly_diff_bad (P : poly C) v : v \notin sp_gens (sympy_poly P) -> poly_diff norm P v = Err OtherError.
Proof. by rewrite /poly_diff; case: sympy_poly => [g e|e] //= /negbTE ->. Qed.
End Diff.
