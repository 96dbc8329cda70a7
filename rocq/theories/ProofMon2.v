(** Tables of coefficients and powers. *)
From Coq Require Import ZArith Lia Ascii String.
From mathcomp Require Import all_ssreflect all_algebra.
From mathcomp Require Import zify ssrZ ring.
From Verif Require Import Base ModelStr ModelExpr ModelPoly ModelMon SpecPoly SpecMon ProofPoly ProofMon.
Delimit Scope Z_scope with Z.

Set Implicit Arguments.
Unset Strict Implicit.
Unset Printing Implicit Defensive.

Import GRing.Theory Num.Theory.
Local Open Scope ring_scope.

Section Extract.
Variable C : numClosedFieldType.
Implicit Types (rho : sym -> C) (e : expr C).

Lemma add_coeffs_ok params fs (c0 : C) ps0 :
  all (fun f : expr C => is_param params f || is_unit_number f) fs ->
  (count (@is_unit_number C) fs <= (c0 == 1%R :> C))%N -> all (fun s => s \in params) ps0 ->
  exists c ps, [/\ add_coeffs params (c0, ps0) fs = Ok (c, ps), all (fun s => s \in params) ps &
    forall rho, c * \prod_(s <- ps) rho s = c0 * (\prod_(s <- ps0) rho s) * \prod_(f <- fs) sem rho f].
Proof.
elim: fs c0 ps0 => [|f fs IH] c0 ps0 /=.
  by move=> _ _ al; exists c0, ps0; split=> // rho; rewrite big_nil mulr1.
case/andP=> hf hfs cnt al.
case: f hf cnt => [c||s|es|es|e n] //=.
- rewrite add1n => _; case: eqP => //= -> cnt; have {}cnt : count (@is_unit_number C) fs = 0%N by lia.
  have [|c' [ps [E a H]]] := IH c ps0 hfs _ al; first by rewrite cnt.
  by exists c', ps; split=> // rho; rewrite H big_cons /=; ring.
- rewrite add1n => _; case: eqP => //= -> cnt; have {}cnt : count (@is_unit_number C) fs = 0%N by lia.
  have [|c' [ps [E a H]]] := IH 'i ps0 hfs _ al; first by rewrite cnt.
  by exists c', ps; split=> // rho; rewrite H big_cons /=; ring.
rewrite orbF => sp cnt; rewrite sp /=.
have [||c' [ps [E a H]]] := IH c0 (rcons ps0 s) hfs; first by rewrite add0n in cnt.
  by rewrite all_rcons sp.
exists c', ps; split=> // rho; rewrite H big_cons -cats1 big_cat /= big_seq1; ring.
Qed.

Lemma sem_factors rho e : sem rho e = \prod_(f <- factors e) sem rho f.
Proof. by case: e => [c||s|es|es|e n]; rewrite /factors /summands ?big_seq1 //= big_map. Qed.
Lemma sem_summands rho e : sem rho e = \sum_(f <- summands e) sem rho f.
Proof. by case: e => [c||s|es|es|e n]; rewrite /factors /summands ?big_seq1 //= big_map. Qed.

Lemma simple_coeff_summands params e : simple_coeff params e = all (simple_product params) (summands e).
Proof. by case: e => *; rewrite /= ?andbT. Qed.

Variables (gens : seq sym) (vars : seq (seq sym)).
Hypotheses (ug : uniq gens) (uv : uniq (flatten vars)) (sub : {subset gens <= flatten vars}).

Definition pe (pows : seq nat) (v : sym) : nat :=
  if v \in gens then nth 0%N pows (index v gens) else 0%N.

Lemma power_entry_ok pows v : size pows = size gens -> power_entry gens pows v = Ok (pe pows v).
Proof.
rewrite /power_entry /pe => sz; case: ifP => // vg.
by rewrite /item (drop_nth 0%N) // sz index_mem.
Qed.

Lemma prod_pe rho pows : \prod_(var <- vars) \prod_(v <- var) rho v ^+ pe pows v =
  \prod_(j < size gens) rho (nth [::] gens j) ^+ nth 0%N pows j.
Proof.
rewrite -big_flatten /=.
rewrite (bigID (fun v => v \in gens)) /= [X in _ * X]big1 ?mulr1; last first.
  by move=> v /negbTE vg; rewrite /pe vg expr0.
rewrite -big_filter (perm_big gens); last first.
  apply: uniq_perm => //; first exact: filter_uniq.
  move=> v; rewrite mem_filter; case vg: (v \in gens) => //=; exact: sub.
rewrite (big_nth [::]) big_mkord; apply: eq_bigr => j _.
by rewrite /pe mem_nth // index_uniq.
Qed.

Lemma factor_none_if_zero rho i var (ts : seq (seq nat)) : (i < size ts)%N ->
  factor_value i (Some (map rho var), none_if_zero [seq [seq pe t v | v <- var] | t <- ts]) =
  \prod_(v <- var) rho v ^+ pe (nth [::] ts i) v.
Proof.
move=> ni; rewrite /none_if_zero; case: ifP => [al|_] /=.
  rewrite big_seq big1 // => v vv.
  have : all (pred1 0%N) [seq pe (nth [::] ts i) v | v <- var].
    by apply: (allP al); apply: map_f; apply: mem_nth.
  by move/allP/(_ _ (map_f _ vv))/eqP->; rewrite expr0.
rewrite size_map (nth_map [::]) // [RHS](big_nth [::]) big_mkord.
by apply: eq_bigr => j _; rewrite (nth_map [::]) // (nth_map [::]).
Qed.

Variables (P : poly C) (terms : seq (term C)).
Hypothesis Ev : vars = [seq symbols_of ni.1 ni.2 | ni <- zip (variable_names P) (variable_indices P)].
Hypothesis tsz : all (fun t : term C => size t.1 == size gens) terms.
Hypothesis tsimple : all (fun t : term C => simple_coeff (parameters P) t.2) terms.

Let ts := split_terms terms.

Lemma split_all : all (fun t => (size t.1 == size gens) && simple_product (parameters P) t.2) ts.
Proof.
rewrite /ts /split_terms; move: tsz tsimple; elim: terms => //= t l IH /andP[s1 s2] /andP[c1 c2].
rewrite all_cat IH // andbT all_map.
by move: c1; rewrite simple_coeff_summands; apply: sub_all => e /= ->; rewrite s1.
Qed.

Let cf (t : term C) : C * seq sym :=
  if add_coeffs (parameters P) (1, [::]) (factors t.2) is Ok r then r else (1, [::]).

Lemma cf_ok (t : term C) : simple_product (parameters P) t.2 ->
  [/\ add_coeffs (parameters P) (1, [::]) (factors t.2) = Ok (cf t),
      all (fun s => s \in parameters P) (cf t).2 &
      forall rho, (cf t).1 * \prod_(s <- (cf t).2) rho s = sem rho t.2].
Proof.
rewrite /simple_product => /andP[al cnt].
have [|//|c [ps [E a H]]] := @add_coeffs_ok (parameters P) (factors t.2) 1 [::] al; first by rewrite eqxx.
rewrite /cf E; split=> // rho; rewrite H big_nil !mul1r; exact/esym/sem_factors.
Qed.

Lemma all_In (T : Type) (p : pred T) s x : all p s -> List.In x s -> p x.
Proof. by elim: s => //= a s IH /andP[pa ps] [<-|] //; apply: IH. Qed.

Definition row_table (ts : seq (term C)) (var : seq sym) : ptable :=
  [seq [seq pe t v | v <- var] | t <- map fst ts].

Lemma term_powers_ok var : term_powers gens var ts = Ok (row_table ts var).
Proof.
rewrite /term_powers /row_table -map_comp; apply: rseq_map_ok => t tt.
have /andP[/eqP sz _] := all_In split_all tt.
by apply: rseq_map_ok => v _; rewrite power_entry_ok.
Qed.

Lemma to_coeffs_ok : to_coeffs_and_powers P gens terms =
  Ok (map fst (map cf ts), map snd (map cf ts), [seq none_if_zero (row_table ts var) | var <- vars]).
Proof.
rewrite /to_coeffs_and_powers -/ts.
rewrite (@rseq_map_ok _ _ _ cf) => [|t tt]; last first.
  by have /andP[_ sp] := all_In split_all tt; have [-> _ _] := cf_ok sp.
rewrite /= (@rseq_map_ok _ _ _ (fun ni => row_table ts (symbols_of ni.1 ni.2))).
  by rewrite /= Ev -!map_comp.
by move=> ni _; rewrite term_powers_ok.
Qed.

Lemma zip_map_self (A B : Type) (f : A -> B) s : zip s (map f s) = [seq (x, f x) | x <- s].
Proof. by elim: s => //= x s ->. Qed.

Lemma sum_split (F : term C -> C) :
  \sum_(t <- ts) F t = \sum_(t <- terms) \sum_(e <- summands t.2) F (t.1, e).
Proof.
rewrite /ts /split_terms big_flatten /= big_map; apply: eq_bigr => t _.
by rewrite big_map.
Qed.

Lemma to_coeffs_value rho :
  tables_value rho vars (map fst (map cf ts)) (map snd (map cf ts))
    [seq none_if_zero (row_table ts var) | var <- vars] = terms_value rho gens terms.
Proof.
rewrite /tables_value /terms_value !size_map.
have -> : \sum_(t <- terms) sem rho t.2 * \prod_(j < size gens) rho (nth [::] gens j) ^+ nth 0%N t.1 j
  = \sum_(t <- ts) sem rho t.2 * \prod_(j < size gens) rho (nth [::] gens j) ^+ nth 0%N t.1 j.
  by rewrite sum_split; apply: eq_bigr => t _; rewrite {1}sem_summands mulr_suml.
rewrite [RHS](big_nth ([::], ENum 0)) big_mkord; apply: eq_bigr => i _.
rewrite -!map_comp (nth_map ([::], ENum 0)) // (nth_map ([::], ENum 0)) //=.
have /andP[_ sp] : (size (nth ([::], ENum 0) ts i).1 == size gens) &&
    simple_product (parameters P) (nth ([::], ENum 0) ts i).2.
  by apply: (all_nthP _ split_all).
have [_ _ ->] := cf_ok sp; congr (_ * _).
rewrite zip_map_self big_map -prod_pe; apply: eq_bigr => var _.
have H := @factor_none_if_zero rho i var (map fst ts); rewrite size_map in H.
apply: etrans (H (ltn_ord i)) _.
apply: eq_bigr => v _.
by rewrite (nth_map ([::], ENum 0)).
Qed.

Lemma to_coeffs_tables rho : all (table_ok (size ts))
  (zip [seq Some (map rho var) | var <- vars] [seq none_if_zero (row_table ts var) | var <- vars]).
Proof.
elim: (vars) => //= var vs ->; rewrite andbT /none_if_zero; case: ifP => //= _.
rewrite !size_map eqxx /= /row_table !all_map; elim: (ts) => //= t l ->.
by rewrite !size_map eqxx.
Qed.
End Extract.

(** Rejected coefficients. *)
Section Reject.
Variable C : numClosedFieldType.

Lemma add_coeffs_bad params acc (fs : seq (expr C)) :
  all (fun f => is_param params f || is_unit_number f) fs = false ->
  is_ok (add_coeffs params acc fs) = false.
Proof.
elim: fs acc => //= f fs IH acc.
case: f => [c||s|es|es|e n] //= H; try exact: IH.
by case sp: (s \in params) H => //=; apply: IH.
Qed.
End Reject.
