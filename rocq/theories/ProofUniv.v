(** Coefficients with respect to one variable. *)
From Coq Require Import ZArith Lia Ascii String.
From mathcomp Require Import all_ssreflect all_algebra.
From mathcomp Require Import zify ssrZ ring.
From Verif Require Import Base ModelStr ProofStr ModelExpr
  ModelPoly SpecPoly SpecUniv ProofPoly ProofPoly2 ProofPoly3 ProofPoly4 ProofPoly5.
Delimit Scope Z_scope with Z.

Set Implicit Arguments.
Unset Strict Implicit.
Unset Printing Implicit Defensive.

Import GRing.Theory Num.Theory.
Local Open Scope ring_scope.

Section Given.
Variable C : numClosedFieldType.
Variable norm : expr C -> expr C.

Lemma canonical_var names idx params v : wf_vars names idx -> v \in var_symbols names idx ++ params ->
  canonical names params v = v.
Proof.
move=> wv; rewrite mem_cat /canonical; case: ifP => // _; rewrite orbF.
move=> /in_var_symbols[n [ind [nz sn]]]; have := wf_var_split wv nz sn.
by case: ind nz sn => [l|] nz sn; [case=> i il [-> ->]; case: ifP|case=> _ ->].
Qed.

Lemma fits_var names idx params v : wf_vars names idx -> v \in var_symbols names idx ++ params ->
  fits_idx names params true idx v.
Proof.
move=> wv; rewrite mem_cat /fits_idx orbC; case: (v \in params) => //=.
move=> /in_var_symbols[n [ind [nz sn]]]; have := wf_var_split wv nz sn.
have [un _ sz _] := wv; have [nN _] := mem_zip_both nz.
have Ei : item idx (index n names) = Ok ind.
  rewrite (item_ok None) ?index_mem //; last by rewrite -sz index_mem.
  congr Ok; have k := index_mem n names; rewrite nN in k.
  have := @index_uniq _ (n, ind) (index n names) (zip names idx).
  have [j jz Ej] : exists2 j, (j < size names)%N & nth (n, ind) (zip names idx) j = (n, ind).
    exists (index (n, ind) (zip names idx)); last exact: nth_index.
    by have := nz; rewrite -index_mem size_zip -sz minnn.
  move=> _; move: Ej; rewrite nth_zip // => -[En Ei].
  rewrite -[in LHS]En index_uniq // -[RHS]Ei; apply: set_nth_default; by rewrite -sz.
by case: ind nz sn Ei => [l|] nz sn Ei; [case=> i il [_ ->]|case=> _ ->]; rewrite nN Ei.
Qed.

Lemma from_sympy_given e syms names idx params :
  uniq syms -> syms =i esyms e -> check_signature [::] names = Ok tt ->
  wf_vars names idx -> uniq (var_symbols names idx ++ params) ->
  {subset esyms e <= var_symbols names idx ++ params} -> var_symbols names idx != [::] ->
  exists sp, from_sympy norm e syms (Some names) (Some params) (Some idx)
    = Ok (MkPoly names idx params sp).
Proof.
move=> us es ck wv ug sub ne.
pose e' := esubst (fun s => ESym (canon names params s)) e.
exists (SPoly (var_symbols names idx) (norm e')).
have sub' : {subset esyms e <= syms} by move=> s; rewrite es.
apply/(@fs_hi C norm e syms names (Some params) idx _ us sub'); split=> //=.
  by apply/allP => v; rewrite es => /sub; exact: fits_var.
exists (SPoly (var_symbols names idx) (norm e')) => //.
rewrite /sympy_Poly ne ug esyms_ren /=; case: ifP => // /negP[]; apply/allP => s /mapP[t ts ->].
by rewrite canon_canonical (canonical_var wv) //; exact: sub.
Qed.


Lemma given_call e syms names idx params P rho extra :
  norm_ok norm -> uniq syms -> syms =i esyms e ->
  wf_vars names idx -> wf_params names params -> no_I e ->
  {subset esyms e <= var_symbols names idx ++ params} ->
  from_sympy norm e syms (Some names) (Some params) (Some idx) = Ok P ->
  wf_poly P /\ call_num P (rcons (var_inputs P rho extra) (par_input P rho)) [::] = Ok (sem rho e).
Proof.
move=> nk us es wv wp eI sub H; have [_ al sz nn] := wv.
have [[En un] Ep Ei _ [_ _ Esp Hs]] := from_sympy_result us es H.
have [_ nsub nI] := nk.
have wP : wf_poly P.
  split; rewrite ?En ?(Ep _ erefl) ?(Ei _ erefl) //.
  do 2 eexists; split; first exact: Esp.
    by move=> s /nsub; rewrite esyms_ren => Hin; exact: Hs.
  by apply: nI; rewrite no_I_ren.
split=> //; rewrite call_value // (from_sympy_value rho nk us es H); congr Ok.
by apply: eq_sem => s /sub /(canonical_var wv) ->.
Qed.
End Given.

Section Univ.
Variable C : numClosedFieldType.
Variable norm : expr C -> expr C.
Hypothesis nk : norm_ok norm.
Implicit Types (P : poly C) (rho : sym -> C).

Lemma drop_var_syms var n ind k : drop_var var (n, ind) = Some k ->
  k.1 = n /\ symbols_of k.1 k.2 = [seq s <- symbols_of n ind | s != var].
Proof.
rewrite /drop_var /=; case: ifPn => // na [<-]; split=> //=.
case: ind na => [l|] /=; first by rewrite filter_map.
by rewrite andbT => ->.
Qed.

Lemma drop_var_none var n ind : drop_var var (n, ind) = None ->
  [seq s <- symbols_of n ind | s != var] = [::].
Proof.
rewrite /drop_var /=; case: ifPn => // /allP na _; apply/eqP; rewrite -[_ == _]negbK -has_filter.
by apply/hasPn => s /na /= ->.
Qed.

Section Kept.
Variables (names : seq sym) (inds : seq (option (seq Z))) (var : sym).
Hypothesis wv : wf_vars names inds.
Let kept := pmap (drop_var var) (zip names inds).

Lemma kept_consts :
  [seq [seq s <- v | s != var] | v <- [seq symbols_of ni.1 ni.2 | ni <- zip names inds]
                               & has (fun s => s != var) v] =
  [seq symbols_of ni.1 ni.2 | ni <- kept].
Proof.
rewrite /kept; elim: (zip names inds) => [//|[n ind] z IH] /=.
have -> : has (fun s => s != var) (symbols_of n ind) = isSome (drop_var var (n, ind)).
  rewrite /drop_var /=; have := has_predC (pred1 var) (symbols_of n ind).
  by rewrite /predC /= => ->; case: (all _ _).
case E: drop_var => [k|] //=; have [_ ->] := drop_var_syms E.
by rewrite IH.
Qed.

Lemma kept_mem k : k \in kept -> exists2 ind, (k.1, ind) \in zip names inds &
  drop_var var (k.1, ind) = Some k.
Proof.
rewrite mem_pmap => /mapP[[n ind] nz E]; exists ind; last by have [-> _] := drop_var_syms (esym E).
by have [-> _] := drop_var_syms (esym E).
Qed.

Lemma kept_subseq : subseq (unzip1 kept) names.
Proof.
have [_ _ sz _] := wv; move: sz; rewrite /kept.
have gen ns : forall is', size ns = size is' -> subseq (unzip1 (pmap (drop_var var) (zip ns is'))) ns.
  elim: ns => [|n ns IH] [|ind is'] //= [sz].
  case E: drop_var => [k|] /=; first by have [-> _] := drop_var_syms E; rewrite eqxx; apply: IH.
  by apply: subseq_trans (IH _ sz) (subseq_cons _ _).
exact: gen.
Qed.

Lemma zip_kept : zip (unzip1 kept) (unzip2 kept) = kept.
Proof. exact: zip_unzip. Qed.

Lemma kept_wf : wf_vars (unzip1 kept) (unzip2 kept).
Proof.
have [un al sz nn] := wv; split.
- exact: subseq_uniq kept_subseq un.
- by apply/allP => n /(mem_subseq kept_subseq) /(allP al).
- by rewrite !size_map.
apply/allP => ind /mapP[k kk ->]; have [ind0 nz E] := kept_mem kk.
have [_ i0] := mem_zip_both nz; move: E; rewrite /drop_var; case: ifP => // _ [<-] /=.
case: ind0 i0 {nz} => // l lN; apply/allP => i; rewrite mem_filter => /andP[_ il].
exact: (allP (allP nn _ lN)).
Qed.

Lemma kept_symbols : var_symbols (unzip1 kept) (unzip2 kept) =
  [seq s <- var_symbols names inds | s != var].
Proof.
rewrite /var_symbols zip_kept filter_flatten /kept; elim: (zip names inds) => [//|[n ind] z IH] /=.
case E: drop_var => [k|] /=; first by have [_ ->] := drop_var_syms E; rewrite IH.
by rewrite (drop_var_none E) IH.
Qed.

Lemma kept_nonempty k : k \in kept -> symbols_of k.1 k.2 != [::].
Proof.
move=> kk; have [ind nz E] := kept_mem kk; have [_ ->] := drop_var_syms E; rewrite -has_filter.
move: E; rewrite /drop_var; case: ifPn => // + _.
by rewrite -has_predC.
Qed.

Lemma kept_symarray_names : rseq (map symarray_name [seq symbols_of ni.1 ni.2 | ni <- kept]) =
  Ok (unzip1 kept).
Proof.
have : forall k, k \in kept -> symarray_name (symbols_of k.1 k.2) = Ok k.1.
  move=> k kk; have kz : (k.1, k.2) \in zip (unzip1 kept) (unzip2 kept) by rewrite zip_kept -surjective_pairing.
  have ne := kept_nonempty kk.
  case E: (symbols_of k.1 k.2) ne => [//|s ss] _ /=.
  have sk : s \in symbols_of k.1 k.2 by rewrite E mem_head.
  have := wf_var_split kept_wf kz sk; case: (k.2) => [l|]; first by case=> i _ [_ ->].
  by case=> _ ->.
elim: kept => [//|k ks IH] /= H; rewrite H ?mem_head //= IH // => x xk.
by apply: H; rewrite inE xk orbT.
Qed.

Lemma kept_symarray_indices : rseq (map symarray_indices [seq symbols_of ni.1 ni.2 | ni <- kept]) =
  Ok (unzip2 kept).
Proof.
have : forall k, k \in kept -> symarray_indices (symbols_of k.1 k.2) = Ok k.2.
  move=> [m ind] kk; have kz : (m, ind) \in zip (unzip1 kept) (unzip2 kept) by rewrite zip_kept.
  have := fun s => wf_var_split kept_wf kz (s := s).
  case: ind kz {kk} => [l|] kz H /=; last first.
    have [|_ E] := H m; first by rewrite inE.
    by rewrite /symarray_indices /= E.
  have Hl i : i \in l -> split_subscript (merge_subscript m i) = Ok (m, Some i).
    have [_ al _ nn] := kept_wf; have [kN lN] := mem_zip_both kz.
    move=> il; have /andP[n0 an] := allP al _ kN; rewrite merge_split //.
    by have := allP (allP nn _ lN) _ il; lia.
  rewrite /symarray_indices /symbols_of -map_comp.
  have -> : rseq [seq split_subscript (merge_subscript m i) | i <- l] = Ok [seq (m, Some i) | i <- l].
    elim: l Hl {H kz} => [//|i l IH] Hl /=; rewrite Hl ?mem_head //= IH // => j jl.
    by apply: Hl; rewrite inE jl orbT.
  rewrite /= size_map; case: ifPn => [/andP[_]|_]; first by case: l {H Hl kz} => [|i [|]].
  rewrite -map_comp; have -> : rseq [seq ((fun n : sym * option Z => if n.2 is Some i then Ok i else Err TypeError) \o
       (fun i => (m, Some i))) i | i <- l] = Ok l.
    by elim: l {H Hl kz} => //= i l ->.
  by [].
elim: kept => [//|k ks IH] /= H; rewrite H ?mem_head //= IH // => x xk.
by apply: H; rewrite inE xk orbT.
Qed.
End Kept.

Section Main.
Variables (P : poly C) (var : sym) (visit : expr C -> seq sym).
Hypotheses (wP : wf_poly P) (uP : uniq (all_symbols P)).
Hypothesis cP : check_signature [::] (variable_names P) = Ok tt.
Hypothesis vP : forall e, uniq (visit e) /\ visit e =i esyms e.

Definition good_term (t : nat * expr C) : bool :=
  [&& all (fun s => (s != var) && (s \in all_symbols P)) (esyms t.2),
      nilp (esyms t.2) || no_I t.2 &
      nilp (esyms t.2) || (other_vars P var != [::])].

Let consts := [seq [seq s <- v | s != var]
  | v <- [seq symbols_of ni.1 ni.2 | ni <- zip (variable_names P) (variable_indices P)]
  & has (fun s => s != var) v].

Definition term_coeff (t : nat * expr C) : coefficient C :=
  if nilp (esyms t.2) then UNum (sem (fun=> 0) t.2)
  else if from_symarrays norm t.2 (visit t.2) consts (Some (parameters P)) is Ok p then UPoly p
  else UNum 0.

Definition meta (c : coefficient C) : Prop :=
  if c is UPoly Q then
    [/\ wf_poly Q, variable_names Q = unzip1 (other_vars P var),
        variable_indices Q = unzip2 (other_vars P var) & parameters Q = parameters P]
  else True.

Lemma kept_check : check_signature [::] (unzip1 (other_vars P var)) = Ok tt.
Proof.
move: cP; rewrite /check_signature; case: ifP => // /andP[al un] _.
have sub := @kept_subseq _ _ var (let: And3 w _ _ := wP in w).
case: ifP => // /negP[]; apply/andP; split.
  by apply/allP => n /(mem_subseq sub) /(allP al).
by apply: subseq_uniq un; apply: cat_subseq.
Qed.

Lemma term_ok t : good_term t ->
  [/\ (if nilp (esyms t.2) then Ok (t.1, UNum (sem (fun=> 0) t.2))
       else rmap (fun p => (t.1, UPoly p))
              (from_symarrays norm t.2 (visit t.2) consts (Some (parameters P)))) = Ok (t.1, term_coeff t),
      meta (term_coeff t) &
      forall rho, coeff_eval (term_coeff t) rho = Ok (sem rho t.2)].
Proof.
case/and3P=> sub nI ne; rewrite /term_coeff; case: ifP nI ne => [/nilP E|_] /= nI ne.
  split=> // rho; congr Ok; apply: eq_sem => s; by rewrite E.
have [wv wp _] := wP; have wk := @kept_wf _ _ var wv; have [us es] := vP t.2.
have ks := kept_symbols (variable_names P) (variable_indices P) var.
rewrite -/(other_vars P var) in wk ks.
have sub' : {subset esyms t.2 <= var_symbols (unzip1 (other_vars P var)) (unzip2 (other_vars P var)) ++ parameters P}.
  move=> s /(allP sub) /andP[sv]; rewrite ks /all_symbols !mem_cat mem_filter sv.
  by [].
have Ef : from_symarrays norm t.2 (visit t.2) consts (Some (parameters P)) =
   from_sympy norm t.2 (visit t.2) (Some (unzip1 (other_vars P var))) (Some (parameters P))
     (Some (unzip2 (other_vars P var))).
  rewrite /from_symarrays /consts kept_consts kept_symarray_names // kept_symarray_indices //.
  by rewrite -/(other_vars P var); case: (other_vars P var) ne.
have [] := @from_sympy_given C norm t.2 (visit t.2) (unzip1 (other_vars P var))
  (unzip2 (other_vars P var)) (parameters P) us es kept_check wk _ sub' _.
- by rewrite ks; apply: subseq_uniq uP; apply: cat_subseq => //; exact: filter_subseq.
- have := @kept_nonempty (variable_names P) (variable_indices P) var.
  rewrite -/(other_vars P var); case: (other_vars P var) ne {ks sub' Ef wk} => // k ks' _ /(_ k (mem_head _ _)).
  by rewrite /var_symbols /=; case: symbols_of.
move=> sp E; rewrite Ef E /=.
have wp' : wf_params (unzip1 (other_vars P var)) (parameters P).
  move=> p /wp[n bn nN]; exists n => //; apply: contra nN; apply: mem_subseq.
  exact: kept_subseq.
have gc rho := given_call rho (fun=> [::]) nk us es wk wp' nI sub' E.
split=> //; first by have [] := gc (fun=> 0).
by move=> rho; have [_ ->] := gc rho.
Qed.

Lemma sum_none (ts : seq (nat * expr C)) i (f : nat * expr C -> C) : i \notin map fst ts ->
  \sum_(u <- ts | u.1 == i) f u = 0.
Proof.
elim: ts => [|u us IH] /=; first by rewrite big_nil.
by rewrite inE negb_or big_cons eq_sym => /andP[/negbTE -> /IH].
Qed.

Lemma dict_terms terms i rho : all good_term terms -> uniq (map fst terms) ->
  let c := odflt (UNum 0) (dict_get [seq (t.1, term_coeff t) | t <- terms] i) in
  meta c /\ coeff_eval c rho = Ok (\sum_(t <- terms | t.1 == i) sem rho t.2).
Proof.
elim: terms => [|t ts IH] /=; first by rewrite big_nil.
case/andP=> gt gts /andP[nt ut]; have [m E] := IH gts ut.
rewrite big_cons [t.1 == i]eq_sym; case: (i =P t.1) => [Ei|ne]; last by case: dict_get m E => [c|].
have -> : dict_get [seq (t.1, term_coeff t) | t <- ts] i = None.
  rewrite Ei; elim: ts nt {IH gts ut m E} => //= u us IH; rewrite inE negb_or => /andP[tu tus].
  by rewrite IH // (negbTE tu).
have [_ mt et] := term_ok gt; rewrite /= Ei (sum_none _ nt) addr0; by split.
Qed.

Lemma exchange terms (f : nat * expr C -> C) (x : C) n : (forall t, t \in map fst terms -> t < n)%N ->
  \sum_(i < n) (\sum_(t <- terms | t.1 == i) f t) * x ^+ i = \sum_(t <- terms) f t * x ^+ t.1.
Proof.
elim: terms => [|t ts IH] le; first by rewrite big_nil big1 // => i _; rewrite big_nil mul0r.
rewrite big_cons -IH => [|u us]; last by apply: le; rewrite inE us orbT.
have tn : (t.1 < n)%N by apply: le; rewrite mem_head.
rewrite (bigD1 (Ordinal tn)) //= [in RHS](bigD1 (Ordinal tn)) //= big_cons eqxx mulrDl -!addrA; congr (_ + (_ + _)).
apply: eq_bigr => i ni; rewrite big_cons; case: eqP => // E.
by case/negP: ni; apply/eqP/val_inj.
Qed.

Lemma univ_main terms : var \notin parameters P -> terms_ok P var terms ->
  (other_vars P var != [::]) || all (fun t => nilp (esyms t.2)) terms ->
  exists cs, [/\ univariate_coefficients norm P var terms visit = Ok cs,
    size cs = (\max_(t <- terms) t.1).+1,
    forall k Q, nth (UNum 0) cs k = UPoly Q -> meta (UPoly Q) &
    forall rho, exists vs, [/\ rseq [seq coeff_eval c rho | c <- cs] = Ok vs, size vs = size cs &
      value P rho = \sum_(k < size cs) nth 0 vs k * rho var ^+ (size cs - k.+1)]].
Proof.
move=> vn [st ut al nI Ev] ne.
have gt : all good_term terms.
  elim: terms al nI ne {st ut Ev} => //= t ts IH /andP[a1 a2] /andP[n1 n2] ne.
  rewrite {1}/good_term a1 n1 /=; case/orP: ne => [h|/andP[e1 e2]].
    by rewrite h orbT /=; apply: IH => //; rewrite h.
  by rewrite e1 /=; apply: IH => //; rewrite e2 orbT.
have Er : rseq [seq (if nilp (esyms t.2) then Ok (t.1, UNum (sem (fun=> 0) t.2))
       else rmap (fun p => (t.1, UPoly p))
              (from_symarrays norm t.2 (visit t.2) consts (Some (parameters P)))) | t <- terms] =
   Ok [seq (t.1, term_coeff t) | t <- terms].
  elim: terms gt {st ut al nI Ev ne} => //= t ts IH /andP[g1 g2]; have [-> _ _] := term_ok g1.
  by rewrite /= IH.
rewrite /univariate_coefficients vn /= -/consts Er /=.
set top := \max_(t <- terms) t.1.
set cs := [seq _ | i <- rev _]; exists cs.
have Ecs : cs = [seq odflt (UNum 0) (dict_get [seq (t.1, term_coeff t) | t <- terms] i) | i <- rev (iota 0 top.+1)].
  by apply: eq_map => i; case: dict_get.
have sz : size cs = top.+1 by rewrite Ecs size_map size_rev size_iota.
split=> //.
  move=> k Q E; case: (ltnP k (size cs)) => kc; last by rewrite nth_default in E.
  move: E; rewrite Ecs (nth_map 0%N); last by rewrite size_rev size_iota -sz.
  move=> E.
  by have [+ _] := dict_terms (nth 0%N (rev (iota 0 top.+1)) k) (fun=> 0) gt ut; rewrite E.
move=> rho; pose f i := \sum_(t <- terms | t.1 == i) sem rho t.2.
exists [seq f i | i <- rev (iota 0 top.+1)]; rewrite sz size_map size_rev size_iota; split=> //.
  rewrite Ecs -map_comp; elim: (rev _) => //= i l IH.
  by have [_ /= ->] := dict_terms i rho gt ut; rewrite /= IH.
rewrite Ev -(@exchange terms _ (rho var) top.+1); last first.
  move=> t; rewrite /top ltnS; elim: terms {Ev ut al nI gt ne Er cs Ecs sz f top st} => //= u us IH.
  rewrite inE big_cons leq_max => /orP[/eqP ->|/IH ->]; by rewrite ?leqnn ?orbT.
rewrite (reindex_inj rev_ord_inj); apply: eq_bigr => k _.
rewrite (nth_map 0%N); last by rewrite size_rev size_iota.
rewrite nth_rev ?size_iota // nth_iota; last by rewrite ltn_subrL.
by rewrite add0n.
Qed.

Lemma univ_no_consts terms : var \notin parameters P -> other_vars P var = [::] ->
  ~~ all (fun t => nilp (esyms t.2)) terms ->
  univariate_coefficients norm P var terms visit = Err AssertionError.
Proof.
move=> vn E nn; rewrite /univariate_coefficients vn /= -/consts.
have -> : consts = [::] by rewrite /consts kept_consts -/(other_vars P var) E.
have -> //= : rseq [seq (if nilp (esyms t.2) then Ok (t.1, UNum (sem (fun=> 0) t.2))
       else rmap (fun p => (t.1, UPoly p))
              (from_symarrays norm t.2 (visit t.2) [::] (Some (parameters P)))) | t <- terms] =
   Err AssertionError.
elim: terms nn => //= t ts IH; rewrite negb_and; case: ifP => //= _ /IH.
by move=> ->.
Qed.
End Main.
End Univ.
