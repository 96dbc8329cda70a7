(** Reduced monomials are a basis modulo the polynomial. *)
From Coq Require Import ZArith Lia.
From mathcomp Require Import all_ssreflect all_algebra.
From mathcomp Require Import zify ssrZ ring.
From SsrMultinomials Require Import mpoly.
From Verif Require Import Base ModelUtil ModelProjective ProofUtil ProofProjective.
From Verif Require Import SpecMon ModelBasis SpecBasis ProofBasis ProofBasis2.
Delimit Scope Z_scope with Z.

Set Implicit Arguments.
Unset Strict Implicit.
Unset Printing Implicit Defensive.

Import Order.DefaultSeqLexiOrder Order.TTheory GRing.Theory Num.Theory.
Local Open Scope ring_scope.

(** Exponents as lists *)
Lemma mnm_mons n d (m : 'X_{1..n}) : ((m : seq nat) \in mons n d) = (mdeg m == d).
Proof. by rewrite mem_mons size_tuple eqxx /= sumnE. Qed.

Lemma mnm_divides n (a b : 'X_{1..n}) : divides (a : seq nat) b = (a <= b)%MM.
Proof.
have E k : (k < n)%N -> nth (0, 0)%N (zip a b) k = (nth 0%N a k, nth 0%N b k).
  by move=> _; rewrite nth_zip ?size_tuple.
have sz : size (zip a b) = n by rewrite size_zip !size_tuple minnn.
apply/allP/mnm_lepP => [h i|h p].
  have := h (nth (0, 0)%N (zip a b) i); rewrite E ?ltn_ord //= -!(mnm_nth 0%N); apply.
  by rewrite !(mnm_nth 0%N) -E ?ltn_ord //; apply: mem_nth; rewrite sz.
case/(nthP (0, 0)%N) => i; rewrite sz => hi <-; rewrite E //=.
by have := h (Ordinal hi); rewrite !(mnm_nth 0%N).
Qed.

Section Division.
Variables (F : fieldType) (n d : nat).
Variable P : {mpoly F[n]}.
Hypothesis P0 : P != 0.
Variable m : nat.
Hypothesis Ph : P \is m.-homog.

Let B := [seq p <- mons n d | ~~ divides (mlead P : seq nat) p].

Lemma memB (u : 'X_{1..n}) : ((u : seq nat) \in B) = (mdeg u == d) && ~~ (mlead P <= u)%MM.
Proof. by rewrite mem_filter mnm_mons mnm_divides andbC. Qed.

Lemma lead_drop (f g : {mpoly F[n]}) : mlead g = mlead f -> mleadc g = mleadc f ->
  f - g != 0 -> (mlead (f - g) < mlead f)%O.
Proof.
move=> El Ec ne; rewrite lt_neqAle; apply/andP; split; last first.
  by have := mleadB_le f g; rewrite El joinxx.
apply/eqP => E; have := mleadc_eq0 (f - g); rewrite E mcoeffB -{2}El Ec subrr eqxx (negbTE ne).
by [].
Qed.

Lemma reduce_exists (f : {mpoly F[n]}) : f \is d.-homog ->
  exists2 r, supported B r & congruent P f r.
Proof.
move: f; apply: mleadrect => f IH fh.
have [->|f0] := eqVneq f 0.
  by exists 0 => [u|]; [rewrite msupp0 | exists 0; rewrite mul0r addr0].
pose step g := (mlead g = mlead f /\ mleadc g = mleadc f) /\ g \is d.-homog.
have hstep g : step g -> exists2 r, supported B r & congruent P (f - g) r.
  case=> [[El Ec] gh]; have [->|ne] := eqVneq (f - g) 0.
    by exists 0 => [u|]; [rewrite msupp0 | exists 0; rewrite mul0r addr0].
  by apply: IH; [apply: lead_drop | apply: rpredB].
have fd : mdeg (mlead f) = d by move/dhomogP: fh; apply; apply: mlead_supp.
have fl0 : mleadc f != 0 by rewrite mleadc_eq0.
case: (boolP (mlead P <= mlead f)%MM) => hdiv.
  have Pl0 : mleadc P != 0 by rewrite mleadc_eq0.
  pose q := (mleadc f / mleadc P) *: 'X_[(mlead f - mlead P)%MM].
  have c0 : mleadc f / mleadc P != 0 by rewrite mulf_neq0 // invr_eq0.
  have X0 : 'X_[(mlead f - mlead P)%MM] != 0 :> {mpoly F[n]}.
    by rewrite -msupp_eq0 msuppX.
  have q0 : q != 0 by rewrite scaler_eq0 negb_or c0.
  have lq : mlead q = (mlead f - mlead P)%MM by rewrite mleadZ // mleadXm.
  have [|r sr [q' Er]] := hstep (q * P).
    have El : mlead (q * P) = mlead f by rewrite mleadM // lq submK.
    split; last first.
      have -> : d = (mdeg (mlead f - mlead P)%MM + m)%N.
        have Pm : mdeg (mlead P) = m by move/dhomogP: Ph; apply; apply: mlead_supp.
        by rewrite -fd -[in LHS](submK hdiv) mdegD Pm.
      by apply: dhomogM => //; apply: rpredZ; rewrite dhomogX.
    split=> //; rewrite El -[in LHS](submK hdiv) -{1}lq mleadcM /q mleadcZE mleadXm mcoeffX eqxx mulr1.
    by rewrite mulfVK.
  exists r => //; exists (q + q'); rewrite mulrDl -addrA -Er; ring.
have [|r sr [q Er]] := hstep (mleadc f *: 'X_[mlead f]).
  split; last by apply: rpredZ; rewrite dhomogX; apply/eqP.
  by rewrite mleadZ // mleadXm; split=> //; rewrite mcoeffZ mcoeffX eqxx mulr1.
exists (mleadc f *: 'X_[mlead f] + r); last first.
  by exists q; rewrite addrCA -Er; ring.
move=> u /msuppD_le; rewrite mem_cat => /orP[/msuppZ_le|/sr //].
by rewrite msuppX inE => /eqP ->; rewrite memB fd eqxx hdiv.
Qed.

Lemma reduce_unique (f r r' : {mpoly F[n]}) : supported B r -> supported B r' ->
  congruent P f r -> congruent P f r' -> r' = r.
Proof.
move=> sr sr' [q E] [q' E'].
have Er : r' - r = (q - q') * P.
  have : q * P + r = q' * P + r' by rewrite -E -E'.
  move=> /eqP; rewrite -subr_eq0 => /eqP h; apply/eqP; rewrite -subr_eq0 -oppr_eq0 -h; apply/eqP; ring.
have [q0|q0] := eqVneq (q - q') 0.
  by apply/eqP; rewrite -subr_eq0 Er q0 mul0r.
have rr0 : r' - r != 0 by rewrite Er mulf_neq0.
have : mlead (r' - r) \in msupp (r' - r) by apply: mlead_supp.
move/msuppB_le; rewrite mem_cat => h.
have : (mlead (r' - r) : seq nat) \in B by case/orP: h => [/sr'|/sr].
by rewrite memB Er mleadM // lem_addl andbF.
Qed.

Lemma reduced_basis_modulo : basis_modulo d P B.
Proof.
move=> f fh; have [r sr cr] := reduce_exists fh.
by exists r => // r' sr' cr'; apply: reduce_unique cr cr'.
Qed.
End Division.

(** Order of the terms *)
Lemma lexge_refl : reflexive lexge.
Proof. by elim=> //= x a IH; rewrite eqxx IH orbT. Qed.

Lemma lexge_total : total lexge.
Proof.
elim=> [|x a IH] [|y b] //=.
by case: ltngtP => //= _; exact: IH.
Qed.

Lemma lexge_trans : transitive lexge.
Proof.
elim=> [|x a IH] [|y b] [|z c] //= H1 H2.
have [ltxy|[Exy h1]] : (x < y)%N \/ x = y /\ lexge b a.
  by case/orP: H1 => [->|/andP[/eqP -> ->]]; [left | right].
- have : (z <= x)%N by case/orP: H2 => [/ltnW //|/andP[/eqP -> _]].
  by move=> h; rewrite (leq_ltn_trans h ltxy).
- case/orP: H2 => [h|/andP[/eqP Ez h2]]; first by rewrite -Exy h.
  by rewrite -Exy Ez eqxx (IH _ _ h1 h2) orbT.
Qed.

Lemma lexge_anti a b : size a = size b -> lexge a b -> lexge b a -> a = b.
Proof.
elim: a b => [|x a IH] [|y b] //= [sab].
by case: ltngtP => //= -> h1 h2; rewrite (IH b).
Qed.

Lemma lexge_lexi (a b : seq nat) : size a = size b -> lexge a b = (b <= a)%O.
Proof.
elim: a b => [|x a IH] [|y b] //= [sab].
by rewrite lexi_cons leEnat -IH //; case: ltngtP.
Qed.

Lemma lexge_le n (a b : 'X_{1..n}) : mdeg a = mdeg b -> lexge a b = (b <= a)%O.
Proof.
by move=> E; rewrite leEmnm E lexi_cons lexx /= -lexge_lexi // !size_tuple.
Qed.

Section Terms.
Variables (C : numClosedFieldType) (n : nat).
Variable P : {mpoly C[n]}.

Lemma occursP i : reflect (variable_occurs P i) (occurs P i).
Proof.
by apply: (iffP hasP) => [[m hm /eqP h]|[m hm /eqP h]]; exists m.
Qed.

Lemma gens_all : (forall i, variable_occurs P i) -> generators P = enum 'I_n.
Proof.
move=> h; rewrite /generators (eq_filter (a2 := predT)) ?filter_predT // => i.
by have /occursP -> := h i.
Qed.

Lemma mnm_enum (m : 'X_{1..n}) : [seq m i | i <- enum 'I_n] = m.
Proof.
apply: (@eq_from_nth _ 0%N); first by rewrite size_map size_enum_ord size_tuple.
rewrite size_map size_enum_ord => i hi.
by rewrite (nth_map (Ordinal hi)) ?size_enum_ord // (mnm_nth 0%N) nth_enum_ord.
Qed.

Lemma terms_all : (forall i, variable_occurs P i) ->
  poly_terms P = sort lexge [seq (u : seq nat) | u : 'X_{1..n} <- msupp P].
Proof.
by move=> h; rewrite /poly_terms gens_all //; congr sort; apply: eq_map => m; exact: mnm_enum.
Qed.

Variable m : nat.
Hypothesis P0 : P != 0.
Hypothesis Ph : P \is m.-homog.
Hypothesis occ : forall i, variable_occurs P i.

Lemma mem_terms v : v \in poly_terms P -> exists2 u : 'X_{1..n}, u \in msupp P & v = u.
Proof. by rewrite terms_all // mem_sort => /mapP[u hu ->]; exists u. Qed.

Lemma terms_head : exists rest, poly_terms P = (mlead P : seq nat) :: rest.
Proof.
have hin : (mlead P : seq nat) \in poly_terms P.
  by rewrite terms_all // mem_sort; apply/mapP; exists (mlead P) => //; apply: mlead_supp.
have sorted_terms : sorted lexge (poly_terms P) by rewrite /poly_terms sort_sorted //; exact: lexge_total.
case E : (poly_terms P) hin sorted_terms => [|v rest] // hin hs.
have hv : v \in poly_terms P by rewrite E mem_head.
have [u hu Ev] := mem_terms hv.
have h1 : lexge v (mlead P).
  move: hin; rewrite inE => /orP[/eqP <-|h]; first exact: lexge_refl.
  by move: hs; rewrite /= (path_sortedE lexge_trans) => /andP[/allP /(_ _ h)].
have /dhomogP hd := Ph.
have hdu : mdeg u = mdeg (mlead P) by rewrite [LHS]hd // [RHS]hd // mlead_supp.
have h2 : lexge (mlead P) v by rewrite Ev lexge_le //; apply: msupp_le_mlead.
by exists rest; congr cons; apply: lexge_anti; rewrite // Ev !size_tuple.
Qed.
End Terms.

Lemma reduced_class (C : numClosedFieldType) n (P : {mpoly C[n.+1]}) m d :
  P != 0 -> P \is m.-homog -> (forall i, variable_occurs P i) ->
  basis_reduced P d =
  Ok (MkBasis d [seq p <- mons n.+1 d | ~~ divides (mlead P : seq nat) p]).
Proof.
move=> P0 Ph occ; rewrite /basis_reduced.
case Eg : (generators P) => [|g gs]; first by move: (gens_all occ); rewrite Eg => /esym/(congr1 size); rewrite size_enum_ord.
have [rest E] := terms_head P0 Ph occ.
rewrite E (@reducedE n) // -E; apply/allP => v /(mem_terms occ)[u hu ->].
have /dhomogP hd := Ph.
have su (w : 'X_{1..n.+1}) : w \in msupp P -> sumn w = m by move=> /hd <-; rewrite sumnE.
by rewrite size_tuple eqxx /= !su // mlead_supp.
Qed.

(** A variable that does not occur *)
Section Missing.
Variables (C : numClosedFieldType) (n : nat).
Variable P : {mpoly C[n]}.
Variable m : nat.
Hypothesis P0 : P != 0.
Hypothesis Ph : P \is m.+1.-homog.

Lemma sumn_gens (u : 'X_{1..n}) : u \in msupp P -> sumn [seq u i | i <- generators P] = m.+1.
Proof.
move=> hu; have /dhomogP hd := Ph; have <- : mdeg u = m.+1 by apply: hd.
rewrite mdegE sumnE big_map big_filter big_enum_cond /= [RHS](bigID (occurs P)) /=.
rewrite [X in (_ + X)%N]big1 ?addn0 // => i hi; apply/eqP; apply: contraR hi => h.
by apply/hasP; exists u.
Qed.

Lemma gens_neq0 : generators P != [::].
Proof.
apply/eqP => E; have := sumn_gens (mlead_supp P0); by rewrite E.
Qed.

Lemma gens_short i : ~ variable_occurs P i -> (size (generators P) < n)%N.
Proof.
move=> no; rewrite -[X in (_ < X)%N](size_enum_ord n) size_filter.
rewrite -[X in (_ < X)%N](count_predC (occurs P)) -[X in (X < _)%N]addn0 ltn_add2l -has_count.
apply/hasP; exists i; first by rewrite mem_enum.
by apply/negP => /occursP.
Qed.

Lemma reduced_gens d : exists rest, basis_reduced P d =
  Ok (MkBasis d [seq p <- mons (size (generators P)) d | ~~ divides rest p]).
Proof.
rewrite /basis_reduced; have := gens_neq0; case Eg : (generators P) => [|g gs] // _.
have hrow v : v \in poly_terms P -> size v = (size gs).+1 /\ sumn v = m.+1.
  rewrite mem_sort => /mapP[u hu ->]; rewrite size_map Eg /=; split=> //.
  by rewrite -(sumn_gens hu) Eg.
have : poly_terms P != [::].
  by rewrite -size_eq0 size_sort size_map size_eq0 msupp_eq0.
case E : (poly_terms P) => [|row rows] // _; exists row.
have hr : row \in poly_terms P by rewrite E mem_head.
rewrite (@reducedE (size gs)) // -E; apply/allP => v /hrow [-> ->]; rewrite eqxx /=.
by have [_ ->] := hrow _ hr.
Qed.

Lemma size_transpose_le (pows : powers) r : all (fun p => size p == r) pows ->
  size (transpose pows) = r \/ size (transpose pows) = 0%N.
Proof.
rewrite /transpose size_map size_iota; case: pows => [|p pows] /=; first by right.
by case/andP=> /eqP -> _; left.
Qed.

Lemma missing_err d i : ~ variable_occurs P i -> exists B, basis_reduced P d = Ok B /\
  forall lg ex : C -> C, forall zs,
  (size zs = n -> basis_call lg ex B zs None true = Err ValueError) /\
  (size zs = n.-1 -> forall p : nat, exists e, basis_call lg ex B zs (Some (Z.of_nat p)) true = Err e).
Proof.
move=> no; have hs := gens_short no; have [row E] := reduced_gens d.
eexists; split; first exact: E.
move=> lg ex zs; rewrite /basis_call /= /compute_monomials_index.
set pows := filter _ _.
have hp : all (fun p => size p == size (generators P)) pows.
  by apply/allP => v; rewrite mem_filter mem_mons => /and3P[].
have hg : (0 < size (generators P))%N by rewrite lt0n size_eq0 gens_neq0.
split=> [sz|sz p].
  rewrite /= size_map sz; case: (size_transpose_le hp) => ->.
    by rewrite gtn_eqF.
  by rewrite gtn_eqF //; lia.
case: (size_transpose_le hp) => st; last by move/size0nil: st => ->; exists IndexError.
case Ep : (pop (transpose pows) (Z.of_nat p)) => [[x rest]|e]; last by exists e.
exists ValueError; rewrite /= size_map sz.
have -> : size rest = (size (generators P)).-1.
  move: Ep; rewrite /pop; case Er : (roll _ _) => [|y t] // [_ <-].
  by rewrite size_roll; move/(congr1 size): Er; rewrite size_roll st => ->.
by rewrite gtn_eqF //; lia.
Qed.
End Missing.

(** Span on the variety *)
Section Span.
Variables (C : numClosedFieldType) (n : nat).

Definition mn (v : seq nat) : 'X_{1..n} := [multinom nth 0%N v i | i < n].

Lemma mnK (v : seq nat) : size v = n -> (mn v : seq nat) = v.
Proof.
move=> sv; apply: (@eq_from_nth _ 0%N); rewrite size_tuple ?sv // => i hi.
by rewrite -(mnm_nth 0%N _ (Ordinal hi)) mnmE.
Qed.

Lemma mnmK (u : 'X_{1..n}) : mn u = u.
Proof. by apply/mnmP => i; rewrite mnmE -mnm_nth. Qed.

Lemma supported_sum (B : powers) (r : {mpoly C[n]}) : uniq B -> all (fun v => size v == n) B ->
  supported B r -> r = \sum_(v <- B) r@_(mn v) *: 'X_[mn v].
Proof.
move=> uB sB sr; apply/mpolyP => u; rewrite linear_sum /=.
under eq_bigr do rewrite mcoeffZ mcoeffX.
case: (boolP ((u : seq nat) \in B)) => hu.
  rewrite (bigD1_seq (u : seq nat)) //= mnmK eqxx mulr1 big1_seq ?addr0 // => v /andP[ne hv].
  have -> : (mn v == u) = false; last by rewrite mulr0.
  apply/negbTE; apply: contra ne => /eqP <-; rewrite mnK ?eqxx //.
  exact/eqP/(allP sB).
rewrite big1_seq => [|v /andP[_ hv]].
  by apply/eqP; rewrite mcoeff_eq0; apply: contra hu; apply: sr.
have -> : (mn v == u) = false; last by rewrite mulr0.
apply/negbTE; apply: contra hu => /eqP <-; rewrite mnK //.
exact/eqP/(allP sB).
Qed.

Lemma meval_mn (zs : seq C) v : size zs = n ->
  ('X_[mn v] : {mpoly C[n]}).@[fun i => nth 0 zs i] = monomial_at zs v.
Proof.
move=> sz; rewrite mevalX /monomial_at sz; apply: eq_bigr => i _; by rewrite mnmE.
Qed.
End Span.

Lemma reduced_good n (P : seq nat) d : good n d [seq p <- mons n d | ~~ divides P p].
Proof. by apply/allP => v; rewrite mem_filter => /andP[_]; apply: (allP (mons_good n d)). Qed.

Lemma span_lemma (C : numClosedFieldType) n (P : {mpoly C[n.+1]}) m d :
  P != 0 -> P \is m.-homog -> (forall i, variable_occurs P i) ->
  exists B, basis_reduced P d = Ok B /\
  forall f : {mpoly C[n.+1]}, f \is d.-homog -> exists c : seq C,
  size c = basis_size B /\
  forall (lg ex : C -> C) zs, size zs = n.+1 -> P.@[fun i => nth 0 zs i] = 0 -> power_matrix B != [::] ->
  exists2 s, basis_call lg ex B zs None true = Ok s &
    f.@[fun i => nth 0 zs i] = \sum_(k < size s) nth 0 c k * nth 0 s k.
Proof.
move=> P0 Ph occ; eexists; split; first exact: (reduced_class d P0 Ph occ).
move=> f fh; have [r [sr [q E]] _] := reduced_basis_modulo P0 Ph fh.
set B := filter _ _ in sr *.
exists [seq r@_(mn n.+1 v) | v <- B]; split; first by rewrite size_map.
move=> lg ex zs sz Pz Bn; exists [seq monomial_at zs v | v <- B].
  by rewrite /basis_call /= index_none // sz reduced_good.
rewrite E mevalD mevalM Pz mulr0 add0r.
have uB : uniq B by rewrite filter_uniq ?uniq_mons.
have sB : all (fun v => size v == n.+1) B.
  by apply/allP => v; rewrite mem_filter mem_mons => /and3P[].
rewrite [in LHS](supported_sum uB sB sr) raddf_sum /= size_map.
rewrite (big_nth [::]) big_mkord; apply: eq_bigr => k _.
by rewrite mevalZ meval_mn // !(nth_map [::]).
Qed.

(** Another order of the terms *)
Section Order.
Variable C : numClosedFieldType.
Let x : {mpoly C[2]} := 'X_ord0.
Let y : {mpoly C[2]} := 'X_ord_max.
Definition mixed_poly : {mpoly C[2]} := x * y + x ^+ 2 + y ^+ 2.

Lemma mn2 (u : 'X_{1..2}) : (u : seq nat) = [:: u ord0; u ord_max].
Proof.
apply: (@eq_from_nth _ 0%N); rewrite size_tuple // => -[|[|i]] // _.
  by rewrite -(mnm_nth 0%N _ ord0).
by rewrite -(mnm_nth 0%N _ ord_max).
Qed.

Lemma order_wrong : ~ basis_modulo 3 mixed_poly [:: [:: 3; 0]; [:: 0; 3]]%N.
Proof.
have Xx : x ^+ 3 = 'X_[U_(ord0) *+ 3] by rewrite /x -mpolyXn.
have Xy : y ^+ 3 = 'X_[U_(ord_max) *+ 3] by rewrite /y -mpolyXn.
move=> /(_ (x ^+ 3 - y ^+ 3)) H.
have fh : x ^+ 3 - y ^+ 3 \is 3.-homog.
  by rewrite Xx Xy; apply: rpredB; rewrite dhomogX /= mdegMn mdeg1.
have [r _ hu] := H fh.
have s1 : supported [:: [:: 3; 0]; [:: 0; 3]]%N (x ^+ 3 - y ^+ 3).
  move=> u /msuppB_le; rewrite Xx Xy !msuppX !inE => /orP[] /eqP ->; rewrite mn2 !mulmnE !mnm1E //.
have c1 : congruent mixed_poly (x ^+ 3 - y ^+ 3) (x ^+ 3 - y ^+ 3).
  by exists 0; rewrite mul0r add0r.
have s2 : supported [:: [:: 3; 0]; [:: 0; 3]]%N (0 : {mpoly C[2]}).
  by move=> u; rewrite msupp0.
have c2 : congruent mixed_poly (x ^+ 3 - y ^+ 3) 0.
  by exists (x - y); rewrite /mixed_poly; ring.
have := hu _ s1 c1; rewrite -(hu _ s2 c2) => /(congr1 (mcoeff (U_(ord0) *+ 3)%MM)).
rewrite mcoeffB Xx Xy !mcoeffX eqxx mcoeff0.
have -> : ((U_(ord_max) *+ 3)%MM == (U_(ord0) *+ 3)%MM :> 'X_{1..2}) = false.
  by apply/negbTE/eqP => /(congr1 (fun u : 'X_{1..2} => u ord0)); rewrite !mulmnE !mnm1E.
by rewrite subr0 => /eqP; rewrite oner_eq0.
Qed.
End Order.

(** Forms used in the statements *)
Lemma sumn_ord (v : seq nat) n : size v = n -> sumn v = (\sum_(j < n) nth 0 v j)%N.
Proof. by move=> <-; rewrite sumnE (big_nth 0%N) big_mkord. Qed.

Lemma is_monomialP n d v : is_monomial n d v <-> v \in mons n d.
Proof.
rewrite mem_mons; split=> [[sv dv]|/andP[/eqP sv /eqP dv]].
  by rewrite sv eqxx (sumn_ord sv) dv eqxx.
by split=> //; rewrite -(sumn_ord sv).
Qed.

Lemma divisible_byP n a b : size a = n -> size b = n -> divisible_by a b <-> divides a b.
Proof.
move=> sa sb.
have E k : nth (0, 0)%N (zip a b) k = (nth 0%N a k, nth 0%N b k) by rewrite nth_zip ?sa ?sb.
split=> [h|/allP h j].
  by apply/allP => p /(nthP (0, 0)%N)[k _ <-]; rewrite E; exact: h.
case: (ltnP j n) => hj; last by rewrite nth_default ?sa.
have := h (nth (0, 0)%N (zip a b) j); rewrite E; apply; rewrite -E; apply: mem_nth.
by rewrite size_zip sa sb minnn.
Qed.

Lemma basis_lemma (n d : nat) : exists B,
  [/\ monomial_basis n (Z.of_nat d) = Ok B, uniq B, forall v, v \in B <-> is_monomial n.+1 d v &
      monomial_basis_size (Z.of_nat n) (Z.of_nat d) false = Ok (Z.of_nat (size B))].
Proof.
exists (mons n.+1 d); split; [exact: basisE | exact: uniq_mons | | exact: basis_size_ok].
by move=> v; split=> /is_monomialP.
Qed.

Lemma monomial_expo (C : numClosedFieldType) n (c : seq nat) (zs : seq C) : size zs = n ->
  all (fun i => i < n)%N c -> \prod_(i <- c) nth 0 zs i = monomial_at zs (expo n c).
Proof.
move=> sz hc; rewrite /monomial_at sz.
under [RHS]eq_bigr do rewrite nth_expo //.
elim: c hc => [|i c IH] /= => [_|/andP[hi hc]]; first by rewrite big_nil big1.
rewrite big_cons IH // (bigD1 (Ordinal hi)) //= [RHS](bigD1 (Ordinal hi)) //= eqxx add1n exprS -mulrA.
congr (_ * (_ * _)); apply: eq_bigr => j /negbTE; rewrite -val_eqE /= eq_sym => ->.
by rewrite add0n.
Qed.

Lemma indices_lemma (n d : nat) : exists I B,
  [/\ monomial_basis_indices n (Z.of_nat d) = Ok I, monomial_basis n (Z.of_nat d) = Ok B,
      size I = size B, all (fun c => (size c == d) && sorted leq c) I &
      forall (C : numClosedFieldType) (zs : seq C) k, size zs = n.+1 -> (k < size B)%N ->
      \prod_(i <- nth [::] I k) nth 0 zs i = monomial_at zs (nth [::] B k)].
Proof.
exists (combinations d (iota 0 n.+1)), (mons n.+1 d); split.
- have h0 : (Z.of_nat d <? 0)%Z = false by lia.
  by rewrite /monomial_basis_indices h0 Nat2Z.id.
- exact: basisE.
- by rewrite size_map.
- by apply/allP => c; rewrite mem_comb => /and3P[-> h _]; rewrite (path_sorted h).
move=> C zs k sz; rewrite size_map => hk; rewrite (nth_map [::]) //; apply: monomial_expo => //.
by have := mem_nth [::] hk; rewrite mem_comb add0n => /and3P[].
Qed.

Lemma reduced_lemma (n d m : nat) row rows :
  (forall r, r \in row :: rows -> is_monomial n.+1 m r) ->
  exists B full, [/\ reduced_monomial_basis (Z.of_nat d) (row :: rows) = Ok B,
    monomial_basis n (Z.of_nat d) = Ok full, subseq B full &
    forall v, v \in B <-> v \in full /\ ~ divisible_by row v].
Proof.
move=> h; have hr : row \in row :: rows by rewrite mem_head.
have hall : all (fun r => (size r == n.+1) && (sumn r == sumn row)) (row :: rows).
  have : row \in mons n.+1 m by apply/is_monomialP/h.
  rewrite mem_mons => /andP[_ /eqP ->].
  by apply/allP => r /h /is_monomialP; rewrite mem_mons.
have /andP[/andP[/eqP sr _] _] := hall.
exists [seq p <- mons n.+1 d | ~~ divides row p], (mons n.+1 d); split.
- exact: reducedE.
- exact: basisE.
- exact: filter_subseq.
move=> v; rewrite mem_filter; split=> [/andP[hd hv]|[hv hd]].
  split=> // hdv; move/negP: hd; apply; apply/(divisible_byP sr) => //.
  by move: hv; rewrite mem_mons => /andP[/eqP].
apply/andP; split=> //; apply/negP => hdv; apply: hd.
by apply/(divisible_byP sr) => //; move: hv; rewrite mem_mons => /andP[/eqP].
Qed.

Lemma reduced_size_lemma (n d : nat) row rows :
  (forall r, r \in row :: rows -> is_monomial n.+1 n.+1 r) ->
  exists2 B, reduced_monomial_basis (Z.of_nat d) (row :: rows) = Ok B &
    monomial_basis_size (Z.of_nat n) (Z.of_nat d) true = Ok (Z.of_nat (size B)).
Proof.
move=> h; have hall : all (fun r => (size r == n.+1) && (sumn r == sumn row)) (row :: rows).
  have : row \in mons n.+1 n.+1 by apply/is_monomialP/h; rewrite mem_head.
  rewrite mem_mons => /andP[_ /eqP ->].
  by apply/allP => r /h /is_monomialP; rewrite mem_mons.
have : row \in mons n.+1 n.+1 by apply/is_monomialP/h; rewrite mem_head.
rewrite mem_mons => /andP[/eqP sr /eqP dr].
eexists; first exact: (reducedE d hall).
rewrite basis_size_reduced; congr Ok; case: ltnP => hd.
  by have := @reduced_size n d row sr; rewrite dr => /(_ hd) <-; rewrite Nat2Z.inj_add; lia.
rewrite Z.sub_0_r; congr (Z.of_nat (size _)); rewrite (eq_in_filter (a2 := predT)) ?filter_predT // => v.
rewrite mem_mons => /andP[/eqP sv /eqP dv]; apply/negP => /dividesP[|c sc E]; first by rewrite sv sr.
by move: dv; rewrite E sumn_add_rows // dr; lia.
Qed.

Lemma roll1 (T : Type) (x : T) t : roll (x :: t) 1 = last x t :: belast x t.
Proof.
rewrite lastI -cats1 -[1%Z]/(Z.of_nat (size [:: last x t])) roll_cat_l //.
Qed.

Lemma shift_const (T : eqType) (x y : T) t : x :: t = y :: belast x t -> all (pred1 y) (x :: t).
Proof.
elim: t x => [|z t IH] x; first by case=> ->; rewrite /= eqxx.
rewrite [belast _ _]/= => -[Ex Ez Et]; rewrite [all _ _]/= Ex eqxx; apply: (IH z).
by rewrite -Et Ez Ex.
Qed.

Lemma reduced_assert d (rows : powers) a b : a \in rows -> b \in rows -> sumn a <> sumn b ->
  reduced_monomial_basis d rows = Err AssertionError.
Proof.
case: rows => // row rows ha hb ne; rewrite /reduced_monomial_basis.
case: eqP => // E; case: ne.
have : all (pred1 (last (sumn row) (map sumn rows))) (map sumn (row :: rows)).
  by apply: shift_const; move: E; rewrite /= roll1.
move=> /allP h; have /eqP -> := h _ (map_f sumn ha); by have /eqP -> := h _ (map_f sumn hb).
Qed.

(** Sections *)
Section Sections.
Variable C : numClosedFieldType.
Variables (lg ex : C -> C).
Variables (n : nat) (B : basis).
Hypothesis B0 : power_matrix B <> [::].
Hypothesis hB : forall v, v \in power_matrix B -> is_monomial n.+1 (bdegree B) v.

Lemma good_basis : good n.+1 (bdegree B) (power_matrix B).
Proof.
by apply/allP => v /hB /is_monomialP hv; apply: (allP (mons_good _ _)).
Qed.

Lemma sections_hom zs precompute : size zs = n.+1 ->
  (~~ precompute -> exp_log_ok lg ex /\ forall z, z \in zs -> z != 0) ->
  basis_call lg ex B zs None precompute = Ok [seq monomial_at zs v | v <- power_matrix B].
Proof.
move=> sz; rewrite /basis_call; case: precompute => /= H.
  by apply: index_none; [apply/eqP | rewrite sz good_basis].
have [el hz] := H isT; apply: log_none => //; first by rewrite sz; apply: good_size good_basis.
exact/allP.
Qed.

Lemma sections_affine zs (p : nat) precompute : size zs = n -> (p <= n)%N ->
  (~~ precompute -> exp_log_ok lg ex /\ forall z, z \in zs -> z != 0) ->
  basis_call lg ex B zs (Some (Z.of_nat p)) precompute =
  Ok [seq monomial_at (affine_to_hom zs (Z.of_nat p)) v | v <- power_matrix B].
Proof.
move=> sz hp; rewrite /basis_call; case: precompute => /= H.
  by apply: index_some; [apply/eqP | rewrite sz good_basis | rewrite sz].
have [el hz] := H isT; apply: log_some => //; [by rewrite sz; apply: good_size good_basis | | by rewrite sz].
exact/allP.
Qed.

Lemma monomial_scale (zs : seq C) c v : is_monomial (size zs) (bdegree B) v ->
  monomial_at [seq c * z | z <- zs] v = c ^+ bdegree B * monomial_at zs v.
Proof.
move=> [_ <-]; rewrite /monomial_at size_map -prodrXr -big_split /=; apply: eq_bigr => j _.
by rewrite (nth_map 0) // exprMn.
Qed.

Lemma sections_scale zs c : size zs = n.+1 ->
  basis_call lg ex B [seq c * z | z <- zs] None true =
  rmap (map (fun s => c ^+ bdegree B * s)) (basis_call lg ex B zs None true).
Proof.
move=> sz; rewrite !sections_hom ?size_map //= -map_comp; congr Ok.
by apply/eq_in_map => v hv; rewrite /= monomial_scale // sz; exact: hB.
Qed.

Lemma sections_patch hom (p : nat) : size hom = n.+1 -> (p <= n)%N -> nth 0 hom p != 0 ->
  (do z <- hom_to_affine hom (Z.of_nat p); basis_call lg ex B z (Some (Z.of_nat p)) true) =
  rmap (map (fun s => s / nth 0 hom p ^+ bdegree B)) (basis_call lg ex B hom None true).
Proof.
move=> sz hp nz; have hp' : (p < size hom)%N by rewrite sz.
have := round2 hp' nz; case Ea : (hom_to_affine _ _) => [z|//] [Ez]; rewrite [rbind _ _]/=.
have szz : size z = n.
  by move: Ea; rewrite hom_to_affineE // => -[<-]; rewrite size_map size_del // sz.
rewrite -[LHS]/(basis_call lg ex B z (Some (Z.of_nat p)) true) sections_affine // sections_hom //= -map_comp; congr Ok; apply/eq_in_map => v hv /=.
have -> : affine_to_hom z (Z.of_nat p) = [seq (nth 0 hom p)^-1 * x | x <- hom].
  by rewrite Ez; apply: eq_map => x; rewrite mulrC.
by rewrite monomial_scale ?sz; [rewrite exprVn mulrC | exact: hB].
Qed.
End Sections.

Lemma full_class (n d : nat) : exists B, [/\ basis_full n d = Ok B, bdegree B = d,
  power_matrix B <> [::], basis_size B = 'C(n + d, d) &
  forall v, v \in power_matrix B <-> is_monomial n.+1 d v].
Proof.
exists (MkBasis d (mons n.+1 d)); rewrite /basis_full basisE; split=> //=.
- exact/eqP/mons_neq0.
- exact: size_mons.
by move=> v; split=> /is_monomialP.
Qed.

Lemma reduced_class_lemma (C : numClosedFieldType) n (P : {mpoly C[n.+1]}) m d :
  P != 0 -> P \is m.-homog -> (forall i, variable_occurs P i) ->
  exists B, [/\ basis_reduced P d = Ok B, bdegree B = d, uniq (power_matrix B),
    forall v, v \in power_matrix B -> is_monomial n.+1 d v & basis_modulo d P (power_matrix B)].
Proof.
move=> P0 Ph occ; eexists; split; first exact: (reduced_class d P0 Ph occ).
- by [].
- by rewrite /= filter_uniq ?uniq_mons.
- by move=> v /=; rewrite mem_filter => /andP[_ /is_monomialP].
exact: (reduced_basis_modulo P0 Ph).
Qed.

Lemma order_lemma (C : numClosedFieldType) : exists B,
  [/\ reduced_monomial_basis 3 [:: [:: 1; 1]; [:: 2; 0]; [:: 0; 2]]%N = Ok B,
      perm_eq [:: [:: 1; 1]; [:: 2; 0]; [:: 0; 2]]%N
        [seq (m : seq nat) | m : 'X_{1..2} <- msupp (mixed_poly C)] &
      ~ basis_modulo 3 (mixed_poly C) B].
Proof.
exists [:: [:: 3; 0]; [:: 0; 3]]%N; split; [by vm_compute | | exact: order_wrong].
pose a : 'X_{1..2} := (U_(ord0) + U_(ord_max))%MM.
pose b : 'X_{1..2} := (U_(ord0) *+ 2)%MM.
pose c : 'X_{1..2} := (U_(ord_max) *+ 2)%MM.
have -> : [:: [:: 1; 1]; [:: 2; 0]; [:: 0; 2]]%N = [seq (m : seq nat) | m : 'X_{1..2} <- [:: a; b; c]].
  have E (u : 'X_{1..2}) i j : u ord0 = i -> u ord_max = j -> [:: i; j] = u :> seq nat.
    by move=> <- <-; rewrite mn2.
  congr [:: _; _; _]; apply: E; rewrite /a /b /c ?mnmDE ?mulmnE !mnm1E //.
apply: perm_map; apply: uniq_perm; [ | exact: msupp_uniq | ].
  rewrite /= !inE !andbT; apply/andP; split; last first.
    by apply/eqP => /(congr1 (fun u : 'X_{1..2} => u ord0)); rewrite !mulmnE !mnm1E.
  apply/norP; split; apply/eqP => /(congr1 (fun u : 'X_{1..2} => u ord0)); by rewrite mnmDE !mulmnE !mnm1E.
move=> u; rewrite mcoeff_msupp !mcoeffD.
have -> : 'X_ord0 * 'X_ord_max = 'X_[a] :> {mpoly C[2]} by rewrite mpolyXD.
have -> : 'X_ord0 ^+ 2 = 'X_[b] :> {mpoly C[2]} by rewrite mpolyXn.
have -> : 'X_ord_max ^+ 2 = 'X_[c] :> {mpoly C[2]} by rewrite mpolyXn.
rewrite !mcoeffX !inE [a == u]eq_sym [b == u]eq_sym [c == u]eq_sym -!natrD pnatr_eq0.
by case: (u == a); case: (u == b); case: (u == c).
Qed.

(** The same polynomial through the class: the first row is the leading one. *)
Lemma lexge_antisym : antisymmetric lexge.
Proof.
elim=> [|x a IH] [|y b] //=.
by case: ltngtP => //= -> h; rewrite (IH b).
Qed.

Lemma mixed_class (C : numClosedFieldType) :
  [/\ mixed_poly C != 0, mixed_poly C \is 2.-homog, forall i, variable_occurs (mixed_poly C) i &
      basis_reduced (mixed_poly C) 3 = Ok (MkBasis 3 [:: [:: 1; 2]; [:: 0; 3]]%N)].
Proof.
have [_ [_ h _]] := order_lemma C.
have m2 : mixed_poly C \is 2.-homog.
  apply/dhomogP => u hu; have : (u : seq nat) \in [:: [:: 1; 1]; [:: 2; 0]; [:: 0; 2]]%N.
    by rewrite (perm_mem h); apply/mapP; exists u.
  move=> hin; apply/eqP; rewrite -[_ == _]/(mdeg u == 2%N) -(mnm_mons 2).
  by move: hin; rewrite !inE => /or3P[] /eqP ->.
have sup : exists2 u : 'X_{1..2}, u \in msupp (mixed_poly C) & (u : seq nat) = [:: 1; 1]%N.
  have : [:: 1; 1]%N \in [:: [:: 1; 1]; [:: 2; 0]; [:: 0; 2]]%N by [].
  by rewrite (perm_mem h) => /mapP[u hu E]; exists u.
have occ i : variable_occurs (mixed_poly C) i.
  have [u hu E] := sup; exists u => //; rewrite (mnm_nth 0%N) E.
  by case: i => [[|[|i]] hi].
have n0 : mixed_poly C != 0 by have [u hu _] := sup; apply/eqP => E; rewrite E msupp0 in hu.
split=> //; rewrite /basis_reduced.
have -> : poly_terms (mixed_poly C) = [:: [:: 2; 0]; [:: 1; 1]; [:: 0; 2]]%N.
  rewrite terms_all //.
  have /perm_sortP := h; move/(_ lexge lexge_total lexge_trans lexge_antisym) => <-.
  by vm_compute.
rewrite gens_all // enum_ordS /=.
by congr Ok.
Qed.
