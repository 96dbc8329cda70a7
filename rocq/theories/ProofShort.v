(** Patches with fewer numbers than there are variables. *)
From Coq Require Import ZArith Lia Ascii String.
From mathcomp Require Import all_ssreflect all_algebra.
From mathcomp Require Import zify ssrZ.
From Verif Require Import Base ModelUtil ProofUtil ModelStr ProofStr ModelExpr
  ModelPoly SpecPoly ProofPoly ProofPoly2 ProofPoly3 ProofPoly4 ModelHom SpecHom ProofHom ProofHom2 SpecShort.
Delimit Scope Z_scope with Z.

Set Implicit Arguments.
Unset Strict Implicit.
Unset Printing Implicit Defensive.

Import GRing.Theory Num.Theory.
Local Open Scope ring_scope.

Lemma upi_zeros dims m : unique_patch_index dims (nseq m 0%Z) = 0%Z.
Proof.
elim: dims m => [|d dims IH] [|m] //; rewrite [nseq _ _]/=.
  by rewrite upi_cons IH; lia.
Qed.

Lemma upi_short dims ps m : unique_patch_index dims (ps ++ nseq m 0%Z) = unique_patch_index dims ps.
Proof.
elim: dims ps => [|d dims IH] [|p ps]; rewrite ?cat0s ?upi_zeros //.
by rewrite cat_cons !upi_cons IH.
Qed.

Section Short.
Variable C : numClosedFieldType.
Variable norm : expr C -> expr C.
Hypothesis norm_spec : norm_ok norm.
Implicit Types (P A : poly C) (H : hompoly C).

Lemma rseq_fail (A B : Type) (f : A -> res B) s x : List.In x s -> is_ok (f x) = false ->
  is_ok (rseq (map f s)) = false.
Proof.
elim: s => //= a s IH [->|xs] fx; first by case: (f x) fx.
by case: (f a) => //= b; have := IH xs fx; case: rseq.
Qed.

Lemma esyms_in (s : sym) (es : seq (expr C)) : s \in flatten (map (@esyms C) es) ->
  exists2 e, List.In e es & s \in esyms e.
Proof.
elim: es => //= e es IH; rewrite mem_cat => /orP[se|/IH[e' i se]]; first by exists e => //; left.
by exists e' => //; right.
Qed.

Lemma eval_no_key names reo pari (e : expr C) s n i : s \in esyms e ->
  split_subscript s = Ok (n, i) -> n \in names -> dict_get reo n = None ->
  is_ok (eval_sympy names reo pari e) = false.
Proof.
move=> + sp nn dn; elim/expr_nest_ind: e => [c||t|es IH|es IH|e k IH] //=.
- by rewrite inE => /eqP <-; rewrite sp /= nn dn.
- case/esyms_in=> e ee se; have := rseq_fail ee (IH _ ee se).
  by case: rseq.
- case/esyms_in=> e ee se; have := rseq_fail ee (IH _ ee se).
  by case: rseq.
- by move/IH; case: eval_sympy.
Qed.

Definition spe (sp : spoly C) : expr C := match sp with SPoly _ e | SExpr e => e end.

Lemma spe_foldl sp nps rho :
  sem rho (spe (foldl (subs_one norm) sp nps)) = sem (set1 (sub_syms nps) rho) (spe sp).
Proof.
have ns e r : sem r (norm e) = sem r e by case: norm_spec.
elim: nps sp => [|np nps IH] sp /=; first by apply: eq_sem.
rewrite IH; have E e : sem (set1 (sub_syms nps) rho) (subs1 (merge_subscript np.1 np.2) (ENum 1) e) =
    sem (set1 (sub_syms (np :: nps)) rho) e.
  rewrite sem_subs1; apply: eq_sem => s _; rewrite /set1 /sub_syms /= ?inE.
  by case: eqP => //=; case: (s \in _).
by case: sp => [g e|e] /=; [case: ifP => _; [case: rem|]|]; rewrite /= ?ns E.
Qed.

Lemma short_dict P ps n : uniq (variable_names P) ->
  n \in drop (size ps) (variable_names P) ->
  dict_get (variable_index_dict (affine_build norm P ps)) n = None.
Proof.
move=> un nd; apply: dict_get_notin; rewrite /variable_index_dict /= -map_comp.
set s := zip _ _; have -> : [seq ((fun ni => ni.1) \o (fun ni : sym * option (seq Z) => (ni.1, if ni.2 is Some l then
   Some (zip l (iota 0 (size l))) else None))) i | i <- s] = map fst s by apply: eq_map.
have sub : {subset map fst s <= take (size ps) (variable_names P)}.
  have sz : (size [seq (if ip.1 is Some ind then Some [seq i <- ind | i != ip.2] else None)
       | ip <- zip (variable_indices P) ps] <= size ps)%N by rewrite size_map size_zip geq_minr.
  move: sz; rewrite /s /=; move: (map _ _) => v.
  elim: (variable_names P) v (size ps) => [|m ns IH] [|x v] [|k] //= sz.
  by move=> z; rewrite !inE => /orP[->//|/IH-> //]; rewrite orbT.
apply/negP => /sub nt; move: un; rewrite -(cat_take_drop (size ps) (variable_names P)) cat_uniq.
by case/and3P=> _ /hasPn /(_ _ nd) /negP.
Qed.

Lemma short_call P ps args kw : hom_ok P -> depends P ps ->
  is_ok (call_num (affine_build norm P ps) args kw) = false.
Proof.
move=> [[[un _ _ _] _ _] _ _ _] [r1 [r2 [ne dif]]].
pose A := affine_build norm P ps; pose e := spe (sympy_poly A).
have Ev r : value P (set1 (patch_syms P ps) r) = sem r e.
  by rewrite /e /= spe_foldl /value /patch_syms; case: (sympy_poly P).
rewrite !Ev in ne.
have /hasP[s se /eqP ds] : has (fun s => r1 s != r2 s) (esyms e).
  apply/negPn/negP => /hasPn h; apply: ne; apply: eq_sem => s /h.
  by rewrite negbK => /eqP.
have [n nd [i hb]] := dif s ds.
rewrite /call_num; case: sort_var_args => // -[v p]; rewrite {1}/rbind.
case E: (sympy_poly (affine_build norm P ps)) => [g e'|e'] //; rewrite /sp_expr {1}/rbind.
have Ee : e = e' by rewrite /e /A E.
have := eval_no_key (parameter_position A) _ hb (mem_drop nd) (short_dict un nd).
rewrite -/A => /(_ e'); rewrite -Ee => /(_ se).
by rewrite [variable_names A]/=; case: eval_sympy.
Qed.

(** A stored polynomial stays. *)
Lemma cache_persists H q k A : nth None (affine_cache H) k = Some A ->
  nth None (affine_cache (if affine_poly norm H q is Ok (_, H') then H' else H)) k = Some A.
Proof.
move=> E; rewrite /affine_poly; case: py_pos => //= j.
by case Ej: (nth None (affine_cache H) j) => [B|] //=; rewrite nth_set_nth /=; case: eqP => // K; rewrite -K E in Ej.
Qed.

Lemma cache_size H q :
  size (affine_cache H) = size (affine_cache (if affine_poly norm H q is Ok (_, H') then H' else H)) /\
  hp (if affine_poly norm H q is Ok (_, H') then H' else H) = hp H.
Proof.
rewrite /affine_poly; case E: py_pos => [j|] //=; case: nth => //=; rewrite size_set_nth; split=> //.
symmetry; apply/maxn_idPr; move: E; rewrite /py_pos; case: ifP => [h [<-]|_]; first by lia.
by case: ifP => // h [<-]; lia.
Qed.

Lemma run_cache H l : size (affine_cache (affine_run norm H l)) = size (affine_cache H) /\
  hp (affine_run norm H l) = hp H.
Proof.
elim: l H => //= q l IH H; have [s1 s2] := IH (if affine_poly norm H q is Ok (_, H') then H' else H).
by have [t1 t2] := cache_size H q; rewrite s1 s2 t2 -t1.
Qed.

Lemma run_persists H l k A : nth None (affine_cache H) k = Some A ->
  nth None (affine_cache (affine_run norm H l)) k = Some A.
Proof. by elim: l H => //= q l IH H E; apply: IH; apply: cache_persists. Qed.

Lemma run_absent H l p : cache_ok norm H -> all (valid_patch (hp_dims (hp H))) l ->
  valid_patch (hp_dims (hp H)) p -> p \notin l ->
  let k := Z.to_nat (unique_patch_index (hp_dims (hp H)) p) in
  nth None (affine_cache H) k = None -> nth None (affine_cache (affine_run norm H l)) k = None.
Proof.
move=> ok + vp + k; elim: l H ok vp @k => //= q l IH H ok vp /andP[vq vl].
rewrite inE negb_or => /andP[pq pl] N.
have [H' E [ok' EH]] := affine_poly_valid ok vq; rewrite E.
have := IH H' ok'; rewrite EH => /(_ vp vl pl); apply.
move: E; rewrite /affine_poly py_pos_in; last by rewrite ok.1; apply: upi_range.
rewrite /=; case: nth => [A [_ <-]|[<-]] //=; rewrite nth_set_nth /=; case: eqP => // K.
case/eqP: pq; apply: (upi_inj vp vq); have := upi_range vp; have := upi_range vq; lia.
Qed.

Lemma trace_fail H args kw ps p : p \in ps ->
  (forall l, is_ok (hom_call norm (affine_run norm H l) args kw (Some p)) = false) ->
  is_ok (trace_branches norm H args kw ps) = false.
Proof.
elim: ps H => //= q ps IH H; rewrite inE => /predU1P[->|pp] bad.
  by have := bad [::]; rewrite /= /hom_call; case: affine_poly => //= -[A H'] /=; case: call_num.
case E: (affine_poly norm H q) => [[A H']|] //=; case: call_num => //= v.
have := IH H' pp; case: (trace_branches norm H' args kw ps) => //= r h.
by apply: h => l; have := bad (q :: l); rewrite /= E.
Qed.

Lemma short_patch P H ps m hist later : let full := ps ++ nseq m 0%Z in
  hom_ok P -> hom_init P = Ok H -> valid_patch (hp_dims P) full ->
  depends P ps -> all (valid_patch (hp_dims P)) hist -> full \notin hist ->
  let H1 := affine_run norm H (hist ++ ps :: later) in
  [/\ affine_poly norm H1 full = Ok (affine_build norm P ps, H1),
      (forall args kw, is_ok (hom_call norm H1 args kw (Some full)) = false) &
      forall args kw q, is_ok (transform_eval norm H1 args kw (Some q)) = false].
Proof.
move=> full hP hi vf dep vh fh.
have [EH ok] := init_ok norm hi; rewrite -EH in vf vh.
pose k := Z.to_nat (unique_patch_index (hp_dims P) full).
have rg := upi_range vf; have szc := ok.1; rewrite EH in rg szc.
have cat_run G l1 l2 : affine_run norm G (l1 ++ l2) = affine_run norm (affine_run norm G l1) l2.
  by elim: l1 G => /=.
have key l : let H1 := affine_run norm H (hist ++ ps :: l) in
    affine_poly norm H1 full = Ok (affine_build norm P ps, H1).
  move=> H1; have [s1 s2] := run_cache H (hist ++ ps :: l).
  rewrite /affine_poly -/H1 in s1 s2 *; rewrite s1 s2 EH py_pos_in ?szc //=.
  suff -> : nth None (affine_cache H1) k = Some (affine_build norm P ps) by [].
  rewrite /H1 cat_run /=; apply: run_persists.
  have [t1 t2] := run_cache H hist.
  have ab := run_absent ok vh vf fh (init_fresh _ hi); rewrite EH -/k in ab.
  rewrite /affine_poly t1 t2 EH -(upi_short _ ps m) py_pos_in ?szc //= -/k ab /=.
  by rewrite nth_set_nth /= eqxx.
have bad l args kw : is_ok (hom_call norm (affine_run norm H (hist ++ ps :: l)) args kw (Some full)) = false.
  by rewrite /hom_call key /=; have := short_call args kw hP dep; case: call_num.
move=> H1; split; [exact: key|by move=> *; apply: bad|move=> args kw q]; rewrite /transform_eval.
suff : is_ok (trace_branches norm H1 args kw (all_patches (hp_dims (hp H1)))) = false by case: trace_branches.
apply: (@trace_fail _ _ _ _ full) => [|l].
  by rewrite all_patches_valid /H1 (run_cache H _).2.
by rewrite /H1 -cat_run -catA cat_cons; apply: bad.
Qed.
End Short.
