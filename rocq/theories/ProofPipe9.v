(** Dwork with a factor which is not real: no points are drawn. *)
From Coq Require Import ZArith Lia Ascii String.
From mathcomp Require Import all_ssreflect all_algebra.
From mathcomp Require Import zify ssrZ ring.
From SsrMultinomials Require Import mpoly.
From Verif Require Import Base ModelStr ModelUtil ModelExpr ModelPoly ModelHom ModelVariety ModelAlg ModelPipe.
From Verif Require Import SpecPoly SpecUniv SpecHom SpecVariety SpecAlg SpecPipe.
From Verif Require Import Bridge ProofStr ProofPoly ProofPoly2 ProofPoly3 ProofPoly4 ProofPoly5 ProofUniv ProofVariety ProofVariety2 ProofAlg5 ProofPipe6.
Delimit Scope Z_scope with Z.

Set Implicit Arguments.
Unset Strict Implicit.
Unset Printing Implicit Defensive.

Import GRing.Theory Num.Theory Order.POrderTheory.
Local Open Scope ring_scope.

Section Complex.
Variable C : numClosedFieldType.
Variable norm : expr C -> expr C.
Variable visit : expr C -> seq sym.
Variable terms : poly C -> sym -> seq (nat * expr C).
Variable roots : seq C -> seq C.
Hypotheses (nk : norm_ok norm) (ok_visit : visit_ok visit).
Hypothesis nnum : forall e, sympy_numbers e -> sympy_numbers (norm e).

Lemma rseq_all_ok (A B : Type) (f : A -> res B) s ys : rseq (map f s) = Ok ys -> forall x, List.In x s -> exists y, f x = Ok y.
Proof.
elim: s ys => [//|a s IH] ys /=; case E: (f a) => [y|//] /=; case Es: rseq => [ys'|//] _ x [<-|xs]; first by exists y.
exact: IH Es _ xs.
Qed.

Lemma eval_no_I vn ir pp (e : expr C) fn : eval_sympy vn ir pp e = Ok fn -> no_I e.
Proof.
elim/expr_nest_ind: e fn => [c||s|es IH|es IH|e k IH] //= fn.
- case E: rseq => [fs|//] _; have := rseq_all_ok E.
  elim: es IH {E} => [//|e es IHe] IH H /=; rewrite IHe ?andbT => [|x xi|x xi].
  + by have [|f Ef] := H e; [left|apply: IH Ef; left].
  + by apply: IH; right.
  by apply: H; right.
- case E: rseq => [fs|//] _; have := rseq_all_ok E.
  elim: es IH {E} => [//|e es IHe] IH H /=; rewrite IHe ?andbT => [|x xi|x xi].
  + by have [|f Ef] := H e; [left|apply: IH Ef; left].
  + by apply: IH; right.
  by apply: H; right.
by case E: eval_sympy => [f|//] _; exact: IH E.
Qed.

Lemma no_I_real (e : expr C) : sympy_numbers e -> no_I e -> real_numbers e.
Proof.
elim/expr_nest_ind: e => [c||s|es IH|es IH|e k IH] //=.
- elim: es IH => [//|e es IHe] IH /= /andP[a1 a2] /andP[b1 b2]; rewrite IH ?IHe //; last by left.
  by move=> x xi; apply: IH; right.
elim: es IH => [//|e es IHe] IH /= /andP[a1 a2] /andP[b1 b2]; rewrite IH ?IHe //; last by left.
by move=> x xi; apply: IH; right.
Qed.

Lemma numbers_ren f (e : expr C) : sympy_numbers (esubst (fun s => ESym (f s)) e) = sympy_numbers e.
Proof.
elim/expr_nest_ind: e => [c||s|es IH|es IH|e k IH] //=.
- elim: es IH => [//|e es IHe] IH /=; rewrite IH ?IHe //; last by left.
  by move=> x xi; apply: IH; right.
elim: es IH => [//|e es IHe] IH /=; rewrite IH ?IHe //; last by left.
by move=> x xi; apply: IH; right.
Qed.

Lemma real_sem rho (e : expr C) : (forall s, rho s \is Num.real) -> real_numbers e -> sem rho e \is Num.real.
Proof.
move=> rr /(sem_conj rho) E; apply/CrealP; rewrite -E; apply: eq_sem => s _; exact/CrealP.
Qed.

(** All symbols one, but for the parameter *)
Definition at_psi (x : C) : sym -> C := fun s => if s == lit "psi" then x else 1.

Lemma last_str_nat c n : last c (str_nat n) = ascii_of_nat (48 + n %% 10).
Proof. by rewrite /str_nat /=; case: ifP => // _; rewrite last_rcons. Qed.

Lemma last_str_int c i : exists2 k, (k < 10)%N & last c (str_int i) = ascii_of_nat (48 + k).
Proof.
rewrite /str_int; case: ifP => _ /=; rewrite last_str_nat; eexists; try reflexivity; exact: ltn_pmod.
Qed.

Lemma merge_not_psi n i : merge_subscript n i != lit "psi".
Proof.
apply/eqP => /(congr1 (last "0"%char)); rewrite /merge_subscript last_cat.
have [k lk ->] := last_str_int (last "0"%char n) i.
by do 10 (case: k lk => [|k] lk //).
Qed.

Lemma at_canonical names params x s : at_psi x (canonical names params s) = at_psi x s \/ s = lit "psi".
Proof.
rewrite /canonical; case: ifP => _; first by left.
case: split_subscript => [[n [i|]]|]; try by left.
case: ifP => _; last by left.
rewrite /at_psi (negbTE (merge_not_psi n i)); have [->|_] := eqVneq s (lit "psi"); by [right|left].
Qed.

Lemma at_canonical_psi names x s : at_psi x (canonical names [:: lit "psi"] s) = at_psi x s.
Proof. by case: (at_canonical names [:: lit "psi"] x s) => // ->; rewrite /canonical mem_head. Qed.

(** A coefficient polynomial which can be called has a real value. *)
Lemma coeff_real e arrays Q args kw v (x : C) : sympy_numbers e -> x \is Num.real ->
  from_symarrays norm e (visit e) arrays (Some [:: lit "psi"]) = Ok Q -> call_num Q args kw = Ok v ->
  sem (at_psi x) e \is Num.real.
Proof.
move=> ne xr; rewrite /from_symarrays; case: rassert => //= _; case: rseq => //= names; case: rseq => //= inds EQ.
have [us es] := ok_visit e.
have [_ _ _ _ [_ _ Esp _]] := from_sympy_result us es EQ.
have Ev := from_sympy_value (at_psi x) nk us es EQ.
rewrite /call_num; case: sort_var_args => //= -[vars pp].
rewrite Esp /=; case E: eval_sympy => [fn|//] _.
have := real_sem (rho := at_psi x) _ (no_I_real _ (eval_no_I E)).
move: Ev; rewrite /value Esp => ->.
rewrite (@eq_sem _ _ (at_psi x)) => [|s _]; last exact: at_canonical_psi.
apply; first by move=> s; rewrite /at_psi; case: ifP => // _; exact: real1.
by apply: nnum; rewrite numbers_ren.
Qed.

Variable key : Type.
Variable lines : key -> nat -> nat -> seq (seq C * seq C).
Variable m : nat.
Let n := m.+2.

Lemma sem_num rho (a : C) : sem rho (num_expr a) = a.
Proof.
rewrite /num_expr; case: ifP => [//|_]; rewrite sem_add !big_cons big_nil sem_mul !big_cons big_nil /= addr0 mulr1 [RHS]Crect.
by rewrite [_ * 'i]mulrC.
Qed.

Lemma num_syms (a : C) : esyms (num_expr a) = [::].
Proof. by rewrite /num_expr; case: ifP. Qed.

Lemma dict_in (A : Type) (d : seq (nat * A)) k x : uniq (map fst d) -> List.In (k, x) d -> dict_get d k = Some x.
Proof.
elim: d => [//|[k' y] d IH] /= /andP[kd ud] [[<- <-]|xi].
  have -> : dict_get d k' = None; last by rewrite eqxx.
  elim: d kd {IH ud} => [//|[k2 z] d IH] /=; rewrite inE negb_or => /andP[k2n kd].
  by rewrite IH // (negbTE k2n).
by rewrite IH.
Qed.

(** In a polynomial whose coefficients can all be called the imaginary part
    does not depend on the parameter. *)
Lemma im_psi L cs args x y : parameters L = [:: lit "psi"] -> x \is Num.real -> y \is Num.real ->
  uniq (map fst (terms L (lit "t"))) -> all (fun t => sympy_numbers t.2) (terms L (lit "t")) ->
  (forall rho, value L rho = \sum_(t <- terms L (lit "t")) sem rho t.2 * rho (lit "t") ^+ t.1) ->
  univariate_coefficients norm L (lit "t") (terms L (lit "t")) visit = Ok cs ->
  (forall Q, List.In (UPoly Q) cs -> exists v, call_num Q args [::] = Ok v) ->
  'Im (value L (at_psi x)) = 'Im (value L (at_psi y)).
Proof.
move=> Lp xr yr ut nt Ev; rewrite /univariate_coefficients; case: rassert => //= _.
set f := fun t : nat * expr C => _.
case E: rseq => [co|//] [Ecs] cl.
have Ek : map fst co = map fst (terms L (lit "t")).
  elim: (terms _ _) co E {ut nt Ev Ecs cl} => [|t ts IH] co /=; first by move=> [<-].
  case Et: (f t) => [c|//] /=; case Es: rseq => [cs'|//] [<-] /=; rewrite (IH _ Es); congr (_ :: _).
  by move: Et; rewrite /f; case: ifP => _; [move=> [<-]|case: from_symarrays => //= Q [<-]].
suff H t : List.In t (terms L (lit "t")) -> 'Im (sem (at_psi x) t.2) = 'Im (sem (at_psi y) t.2).
  rewrite !Ev !raddf_sum; elim: (terms L (lit "t")) H => [|t ts IH] H; first by rewrite !big_nil.
  rewrite !big_cons; congr (_ + _); last by apply: IH => u ui; apply: H; right.
  by rewrite /at_psi /= !expr1n !mulr1; apply: H; left.
move=> ti; have [c Ec] := rseq_all_ok E ti.
have ct : List.In c co.
  elim: (terms _ _) co E ti {ut nt Ev Ecs cl Ek} => [//|u ts IH] co /=.
  case Eu: (f u) => [c'|//] /=; case Es: rseq => [cs'|//] [<-] [Eut|tin]; first by left; move: Eu; rewrite Eut Ec => -[].
  by right; exact: IH Es tin.
move: Ec; rewrite /f; case: ifP => [/nilP en _|ne].
  by congr ('Im _); apply: eq_sem => s; rewrite en.
case EQ: from_symarrays => [Q|//] [Ec].
have [|v Ev'] := cl Q.
  rewrite -Ecs -Ec in ct *.
  have Ed := dict_in _ ct; rewrite Ek in Ed; have {}Ed := Ed ut.
  have tm : t.1 \in rev (iota 0 (\max_(t <- terms L (lit "t")) t.1).+1).
    rewrite mem_rev mem_iota /= add0n ltnS.
    elim: (terms L (lit "t")) ti {E ut nt Ev cl Ek Ecs ct Ed} => [//|u ts IH] /= [->|tin]; rewrite big_cons ?leq_maxl //.
    by rewrite leq_max IH ?orbT.
  elim: (rev _) tm => [//|i l IH]; rewrite inE => /orP[/eqP <-|il] /=; first by left; rewrite Ed.
  by right; exact: IH.
rewrite Lp in EQ.
have nt' : sympy_numbers t.2 by elim: (terms _ _) nt ti {ut Ev E Ecs cl Ek} => [//|u ts IH] /= /andP[h1 h2] [<-//|]; exact: IH.
have h1 := coeff_real nt' xr EQ Ev'; have h2 := coeff_real nt' yr EQ Ev'.
by move/Creal_ImP: h1 => ->; move/Creal_ImP: h2 => ->.
Qed.

Lemma complex_draw (f : dwork_factor C) ps e k count : dwork_factor_value f \isn't Num.real ->
  dwork_sym n f (line_exprs C n) [:: ESym (lit "psi")] = Ok e ->
  (forall L, line_poly_of norm visit n e [:: lit "psi"] = Ok L ->
     [/\ uniq (map fst (terms L (lit "t"))), all (fun t => sympy_numbers t.2) (terms L (lit "t")) &
         forall rho, value L rho = \sum_(t <- terms L (lit "t")) sem rho t.2 * rho (lit "t") ^+ t.1]) ->
  lines k (sample_count count n) n <> [::] ->
  exists x, dwork_draw norm visit terms roots lines m f k ps count = Err x.
Proof.
move=> fr; rewrite /dwork_draw => Ee ht ln; rewrite Ee; cbn [rbind].
set a := dwork_factor_value f in fr.
have {}Ee : e = EAdd [:: EAdd [seq EPow x n | x <- line_exprs C n]; EMul [:: num_expr a; ESym (lit "psi"); EMul (line_exprs C n)]].
  by move: Ee; rewrite /dwork_sym; move: (line_exprs C n) (size_exprs C n) => z ->; rewrite eqxx => -[<-].
pose G (z : seq (expr C)) : expr C := EAdd [:: EAdd [seq EPow x n | x <- z]; EMul [:: ENum a; ESym (lit "psi"); EMul z]].
pose g (z ps : seq C) : C := \sum_(x <- z) x ^+ n + a * nth 0 ps 0 * \prod_(x <- z) x.
have Gsem rho es : sem rho (G es) = g (map (sem rho) es) (map rho [:: lit "psi"]).
  rewrite /G sem_add !big_cons big_nil sem_mul !big_cons big_nil sem_mul addr0 mulr1 /g /= !big_map mulrA.
  by congr (_ + _).
have Gsyms es : {subset esyms (G es) <= [:: lit "psi"] ++ flatten (map (@esyms C) es)}.
  move=> s; rewrite /G /= -!map_comp !cats0 inE mem_cat.
  rewrite in_cons /= => /orP[->|/orP[->//|->]]; by rewrite orbT.
have GI es : all (@no_I C) es -> no_I (G es).
  move=> al; rewrite /G /= al !andbT; by elim: es al => [//|x es IH] /= /andP[-> /IH].
have Ghom x z qs : size z = n -> g (scale x z) qs = x ^+ n * g z qs.
  by move=> sz; rewrite /g pow_scale prod_scale sz mulrDr; congr (_ + _); ring.
have w1 : wf_params line_names [:: lit "psi"] by exact: psi_wf.
have w2 : wf_params [:: lit "z"] [:: lit "psi"] by exact: psi_wf.
have [||L [EL E1 E2 E3 [_ E5]]] := @former_line C norm visit nk ok_visit m [:: lit "psi"] G g isT w1 w2 Gsem Gsyms GI e.
- rewrite Ee; move: (line_exprs C n) => z; rewrite /= num_syms -!map_comp !cats0 => s; rewrite inE mem_cat.
  rewrite in_cons /= => /orP[->|/orP[->//|->]]; by rewrite orbT.
- move=> rho; rewrite Ee Gsem; move: (line_exprs C n) => z; rewrite sem_add !big_cons big_nil sem_mul !big_cons big_nil sem_mul sem_num addr0 mulr1 /g mulrA.
  by rewrite !big_map; congr (_ + _); rewrite /= !big_map.
rewrite EL; cbn [rbind]; rewrite /sample_line; case Ec: univariate_coefficients => [cs|x]; last by exists x.
cbn [rbind]; case El: (lines _ _ _) ln => [//|pq ls] _.
case Er: rseq => [pts|x]; last by exists x.
have [|pt] := @rseq_all_ok _ _ _ _ _ Er pq; first by left.
rewrite /solve_intersect; case Es: rseq => [vs|//] _.
have [ut nt Ev] := ht _ EL.
have H : forall Q, List.In (UPoly Q) cs -> exists v, call_num Q [:: PArr pq.1; PArr pq.2; PArr ps] [::] = Ok v.
  by move=> Q Qi; have [v Ev'] := rseq_all_ok Es Qi; exists v.
have := im_psi E3 (real0 C) (real1 C) ut nt Ev Ec H.
rewrite !E5.
have FE x : F (MkPoly [:: lit "z"] [:: Some (line_range n)] [:: lit "psi"]
    (SPoly [seq merge_subscript (lit "z") i | i <- line_range n] (G [seq ESym s | s <- [seq merge_subscript (lit "z") i | i <- line_range n]])))
   (lit "z") (line_range n)
   [seq at_psi x (merge_subscript (lit "p") i) + at_psi x (lit "t") * at_psi x (merge_subscript (lit "q") i) | i <- line_range n]
   [seq at_psi x i | i <- [:: lit "psi"]] = n%:R * 2%:R ^+ n + a * x * 2%:R ^+ n.
  have E i : at_psi x (merge_subscript (lit "p") i) + at_psi x (lit "t") * at_psi x (merge_subscript (lit "q") i) = 2%:R.
    by rewrite /at_psi /= !(negbTE (merge_not_psi _ _)) mulr1.
  rewrite (eq_map E) (@former_F C m [:: lit "psi"] G g isT w2 Gsem) // ?size_map ?size_iota // /g !big_map !big_const_seq !count_predT ?size_map size_iota.
  by rewrite !iter_addr_0 iter_mulr_1 -mulr_natl.
rewrite !FE mulr0 mul0r addr0 mulr1.
have r2 k' : 2%:R ^+ k' \is @Num.real C by rewrite rpredX // realn.
have rn : n%:R * 2%:R ^+ n \is @Num.real C by rewrite rpredM // realn.
rewrite raddfD /= (Creal_ImP _ rn) add0r => /esym /Creal_ImP ar.
case/negP: fr; have -> : a = a * 2%:R ^+ n / 2%:R ^+ n by rewrite mulfK // expf_neq0 // pnatr_eq0.
by rewrite rpred_div.
Qed.

Lemma complex_sample (f : dwork_factor C) ps e k count : dwork_factor_value f \isn't Num.real ->
  dwork_sym n f (line_exprs C n) [:: ESym (lit "psi")] = Ok e ->
  (forall L, line_poly_of norm visit n e [:: lit "psi"] = Ok L ->
     [/\ uniq (map fst (terms L (lit "t"))), all (fun t => sympy_numbers t.2) (terms L (lit "t")) &
         forall rho, value L rho = \sum_(t <- terms L (lit "t")) sem rho t.2 * rho (lit "t") ^+ t.1]) ->
  lines k (sample_count count n) n <> [::] ->
  forall D pi affine want_weights, exists x,
    sample_intersect D pi m (dwork_variety m f) (dwork_draw norm visit terms roots lines m f) k ps count affine want_weights = Err x.
Proof.
move=> fr Ee ht ln D pi affine ww; have [x Ex] := complex_draw ps fr Ee ht ln.
by exists x; rewrite /sample_intersect Ex.
Qed.
End Complex.
