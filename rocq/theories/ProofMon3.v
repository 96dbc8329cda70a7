(** Construction of polynomials from tables, and its relation to extraction. *)
From Coq Require Import ZArith Lia Ascii String.
From mathcomp Require Import all_ssreflect all_algebra.
From mathcomp Require Import zify ssrZ ring.
From Verif Require Import Base ModelStr ModelExpr ModelPoly ModelMon SpecPoly SpecMon ProofPoly ProofMon ProofMon2.
Delimit Scope Z_scope with Z.

Set Implicit Arguments.
Unset Strict Implicit.
Unset Printing Implicit Defensive.

Import GRing.Theory Num.Theory.
Local Open Scope ring_scope.

Lemma all_flat (T : Type) (p : pred T) ss : all p (flatten ss) = all (all p) ss.
Proof. by elim: ss => //= s ss IH; rewrite all_cat IH. Qed.

Section From.
Variable C : numClosedFieldType.
Implicit Types (rho : sym -> C) (e : expr C).

Lemma sem_EMul rho es : sem rho (EMul es) = \prod_(f <- es) sem rho f.
Proof. by rewrite /= big_map. Qed.
Lemma sem_EAdd rho es : sem rho (EAdd es) = \sum_(f <- es) sem rho f.
Proof. by rewrite /= big_map. Qed.

Lemma sem_sym_prod rho v row : size row = size v ->
  sem rho (sym_prod C v row) = \prod_(j < size v) rho (nth [::] v j) ^+ nth 0%N row j.
Proof.
move=> sz; rewrite sem_EMul big_map (big_nth ([::], 0%N)) size_zip sz minnn big_mkord.
by apply: eq_bigr => j _; rewrite nth_zip.
Qed.

Lemma esyms_sym_prod v row : {subset esyms (sym_prod C v row) <= v}.
Proof.
rewrite /sym_prod; elim: v row => [|x v IH] [|k row] //= s; rewrite !inE.
by case/orP=> [->//|/IH ->]; rewrite orbT.
Qed.
Lemma no_I_sym_prod v row : no_I (sym_prod C v row).
Proof. by rewrite /sym_prod /= all_map; elim: (zip v row). Qed.

(** Symbols occurring in a list of products stay within [S]. *)
Definition within (S : seq sym) (fs : seq (expr C)) : bool :=
  all (fun e => all (fun s => s \in S) (esyms e) && no_I e) fs.

Lemma sym_loop_ok S pr vps : all (fun vp => table_ok (size pr) (Some vp.1, vp.2)) vps ->
  all (fun vp => all (fun s => s \in S) vp.1) vps -> all (within S) pr ->
  exists2 pr', sym_loop pr vps = Ok pr' & [/\ size pr' = size pr, all (within S) pr' &
    forall rho i, (i < size pr)%N -> \prod_(f <- nth [::] pr' i) sem rho f =
      (\prod_(f <- nth [::] pr i) sem rho f) *
      \prod_(vp <- vps) factor_value i (Some (map rho vp.1), vp.2)].
Proof.
elim: vps pr => [|[v [p|]] vps IH] pr /=.
- by move=> _ _ w; exists pr => //; split=> // rho i ni; rewrite big_nil mulr1.
- case/andP=> tk tks /andP[vS vsS] w; have [/eqP szp al] := andP tk.
  rewrite /fits_table tk /=.
  set pr1 := [seq _ | _ <- _].
  have s1 : size pr1 = size pr by rewrite size_map size_zip szp minnn.
  have w1 : all (within S) pr1.
    apply/(all_nthP [::]) => i; rewrite s1 => ni.
    rewrite (nth_map ([::], [::])) ?size_zip ?szp ?minnn // nth_zip //=.
    rewrite /within all_rcons -/(within S _) (all_nthP [::] w i ni) no_I_sym_prod !andbT.
    by apply/allP => s /esyms_sym_prod sv; apply: (allP vS).
  have [||pr' E' [s' w' H']] := IH pr1 _ _ w1 => //; first by rewrite s1.
  exists pr' => //; rewrite s' s1; split=> // rho i ni.
  rewrite H' ?s1 // big_cons mulrA; congr (_ * _).
  rewrite (nth_map ([::], [::])) ?size_zip ?szp ?minnn // nth_zip //= -cats1 big_cat /= big_seq1.
  congr (_ * _); rewrite sem_sym_prod; last by apply/eqP/(allP al)/mem_nth; rewrite szp.
  by rewrite size_map; apply: eq_bigr => j _; rewrite (nth_map [::]).
move=> tks /andP[vS vsS] w.
have [pr' E' [s' w' H']] := IH pr tks vsS w.
by exists pr' => //; split=> // rho i ni; rewrite H' // big_cons mul1r.
Qed.

Lemma sym_loop_err n vps : ~~ all (fun vp : seq sym * option ptable => table_ok n (Some vp.1, vp.2)) vps ->
  forall pr, size pr = n -> sym_loop pr vps = Err ValueError :> res (seq (seq (expr C))).
Proof.
elim: vps => [//|[v [p|]] vps IH] /=; last by move=> H pr sp; apply: IH.
rewrite negb_and; case tk: (_ && _) => /= H pr sp; rewrite /fits_table sp tk //=.
by apply: IH => //; rewrite size_map size_zip sp (eqP (andP tk).1) minnn.
Qed.

Variables (norm : expr C -> expr C) (pick : expr C -> seq sym) (setorder : seq sym -> seq sym).
Variables (coeffs : seq C) (cparams : seq (seq sym)) (powers : seq (option ptable)).
Variables (names : seq sym) (inds : seq (option (seq Z))) (params : seq sym).
Hypothesis sz : size cparams = size coeffs.
Hypothesis sig : check_signature [::] names = Ok tt.
Hypothesis inpar : all (fun ps => all (fun p => p \in params) ps) cparams.
Let vars := [seq symbols_of ni.1 ni.2 | ni <- zip names inds].

Lemma inpar_zip : all (fun cp : C * seq sym => all (fun p => p \in params) cp.2) (zip coeffs cparams).
Proof.
move: inpar; rewrite -{1}(unzip2_zip (s := coeffs) (t := cparams)) ?sz // /unzip2 all_map.
exact: sub_all.
Qed.

Lemma from_coeffs_err : ~~ all (fun vp => table_ok (size coeffs) (Some vp.1, vp.2)) (zip vars powers) ->
  from_coeffs_and_powers norm pick setorder coeffs powers (Some cparams) (Some names) (Some inds)
    (Some params) = Err ValueError.
Proof.
move=> H; rewrite /from_coeffs_and_powers /= sig /= inpar_zip /=.
by rewrite (sym_loop_err H) // size_nseq size_map size_zip sz minnn.
Qed.

Hypothesis tk : all (fun vp => table_ok (size coeffs) (Some vp.1, vp.2)) (zip vars powers).

Lemma all_flatten_sub (vs : seq (seq sym)) (S : seq sym) (ps : seq (option ptable)) :
  {subset flatten vs <= S} -> all (fun vp => all (fun s => s \in S) vp.1) (zip vs ps).
Proof.
elim: vs ps => [|v vs IH] [|p ps] //= H; apply/andP; split.
  by apply/allP => s sv; apply: H; rewrite mem_cat sv.
by apply: IH => s sv; apply: H; rewrite mem_cat sv orbT.
Qed.

Lemma from_coeffs_ok : exists e,
  [/\ from_coeffs_and_powers norm pick setorder coeffs powers (Some cparams) (Some names) (Some inds)
        (Some params) =
      (if nilp (pick e) then Err OtherError else Ok (MkPoly names inds params (SPoly (pick e) (norm e)))),
      forall rho, sem rho e = tables_value rho vars coeffs cparams powers,
      {subset esyms e <= flatten vars ++ params} & no_I e].
Proof.
set cs := [seq EMul (ENum cp.1 :: map (@ESym C) cp.2) | cp <- zip coeffs cparams].
have scs : size cs = size coeffs by rewrite size_map size_zip sz minnn.
have [|||pr E [spr w H]] := @sym_loop_ok (flatten vars ++ params) (nseq (size cs) [::]) (zip vars powers).
- by rewrite size_nseq scs.
- by apply: all_flatten_sub => s sv; rewrite mem_cat sv.
- by rewrite all_nseq /within orbT.
rewrite size_nseq scs in spr H.
exists (EAdd [seq EMul (cp.1 :: cp.2) | cp <- zip cs pr]); split.
- rewrite /from_coeffs_and_powers /= sig /= inpar_zip /= -/cs -/vars E /=.
  by case: (pick _).
- move=> rho; rewrite sem_EAdd big_map (big_nth (EMul [::], [::])) size_zip scs spr minnn big_mkord.
  apply: eq_bigr => i _; rewrite nth_zip ?scs //= big_cons.
  rewrite big_map H // nth_nseq ltn_ord big_nil mul1r; congr (_ * _).
  rewrite (nth_map (0, [::])) ?size_zip ?sz ?minnn // nth_zip //= -map_comp big_cons big_map.
  by congr (_ * _); rewrite big_map.
- apply/allP; rewrite /= all_flat all_map all_map.
  apply/(all_nthP (EMul [::], [::])) => i; rewrite size_zip scs spr minnn => ni.
  rewrite nth_zip ?scs //= all_cat.
  rewrite (nth_map (0, [::])) ?size_zip ?sz ?minnn // nth_zip //=.
  apply/andP; split.
    rewrite -map_comp; apply/allP => s /flatten_mapP[q qi]; rewrite inE => /eqP->.
    rewrite mem_cat; have := allP inpar (nth [::] cparams i).
    rewrite mem_nth ?sz // => /(_ isT) /allP/(_ _ qi) ->; exact: orbT.
  have wi := all_nthP [::] w i; rewrite spr in wi; move: (wi ni).
  rewrite /within all_flat all_map; apply: sub_all => f /=; by case/andP.
- rewrite /= all_map; apply/(all_nthP (EMul [::], [::])) => i; rewrite size_zip scs spr minnn => ni.
  rewrite nth_zip ?scs //=.
  rewrite (nth_map (0, [::])) ?size_zip ?sz ?minnn // nth_zip //=.
  apply/andP; split; first by rewrite all_map; apply: (@all_predT _ _).
  have wi := all_nthP [::] w i; rewrite spr in wi; move: (wi ni).
  by apply: sub_all => f /andP[].
Qed.
End From.

Section Round.
Variable C : numClosedFieldType.
Variables (norm : expr C -> expr C) (pick : expr C -> seq sym) (setorder : seq sym -> seq sym).

Lemma from_coeffs_wf coeffs cparams powers names inds params (P : poly C) : norm_ok norm ->
  size cparams = size coeffs -> all (fun ps => all (fun p => p \in params) ps) cparams ->
  from_coeffs_and_powers norm pick setorder coeffs powers (Some cparams) (Some names) (Some inds)
    (Some params) = Ok P ->
  [/\ variable_names P = names, variable_indices P = inds, parameters P = params,
      forall rho, value P rho = tables_value rho (var_lists names inds) coeffs cparams powers &
      wf_vars names inds -> wf_params names params -> wf_poly P].
Proof.
move=> [n1 n2 n3] sz inpar E.
case sig: (check_signature [::] names) => [[]|er]; last first.
  by move: E; rewrite /from_coeffs_and_powers /= sig.
have [tk|tk] := boolP (all (fun vp => table_ok (size coeffs) (Some vp.1, vp.2))
   (zip [seq symbols_of ni.1 ni.2 | ni <- zip names inds] powers)); last first.
  by move: E; rewrite (from_coeffs_err norm pick setorder sz sig inpar tk).
have [e [E' H1 H2 H3]] := from_coeffs_ok norm pick setorder sz sig inpar tk.
move: E; rewrite E'; case: ifP => // _ [<-]; split=> //=.
  by move=> rho; rewrite /value /= n1 H1.
move=> wv wp; split=> //=; exists (pick e), (norm e); split=> //=; last exact: n3.
by move=> s /n2 /H2.
Qed.

Lemma to_coeffs_main (P : poly C) gens terms :
  uniq gens -> uniq (flatten (var_lists (variable_names P) (variable_indices P))) ->
  {subset gens <= flatten (var_lists (variable_names P) (variable_indices P))} ->
  all (fun t => size t.1 == size gens) terms ->
  all (fun t => simple_coeff (parameters P) t.2) terms ->
  exists coeffs cparams powers,
    [/\ to_coeffs_and_powers P gens terms = Ok (coeffs, cparams, powers),
        size cparams = size coeffs,
        all (fun ps => all (fun p => p \in parameters P) ps) cparams,
        all (fun vp => table_ok (size coeffs) (Some vp.1, vp.2))
            (zip (var_lists (variable_names P) (variable_indices P)) powers) &
        forall rho, tables_value rho (var_lists (variable_names P) (variable_indices P))
                      coeffs cparams powers = terms_value rho gens terms].
Proof.
set vars := var_lists _ _ => ug uv sub tsz tsi.
do 3 eexists; split.
- exact: (@to_coeffs_ok C gens vars P terms).
- by rewrite !size_map.
- rewrite !all_map; have := split_all tsz tsi; apply: sub_all => t /andP[_ sp] /=.
  by have [_ -> _] := cf_ok sp.
- rewrite !size_map; elim: (vars) => //= var vs ->; rewrite andbT /none_if_zero; case: ifP => //= _.
  rewrite !size_map eqxx /= /row_table !all_map; elim: (split_terms terms) => //= t l ->.
  by rewrite !size_map eqxx.
- by move=> rho; apply: to_coeffs_value.
Qed.

Lemma round_trip (P Q : poly C) gens terms : norm_ok norm ->
  uniq gens -> uniq (flatten (var_lists (variable_names P) (variable_indices P))) ->
  {subset gens <= flatten (var_lists (variable_names P) (variable_indices P))} ->
  all (fun t => size t.1 == size gens) terms ->
  all (fun t => simple_coeff (parameters P) t.2) terms ->
  (forall rho, value P rho = terms_value rho gens terms) ->
  (do r <- to_coeffs_and_powers P gens terms;
   from_coeffs_and_powers norm pick setorder r.1.1 r.2 (Some r.1.2) (Some (variable_names P))
     (Some (variable_indices P)) (Some (parameters P))) = Ok Q ->
  [/\ variable_names Q = variable_names P, variable_indices Q = variable_indices P,
      parameters Q = parameters P & forall rho, value Q rho = value P rho].
Proof.
move=> nk ug uv sub tsz tsi ct.
have [cs [cps [pws [-> sz ip tk H]]]] := to_coeffs_main ug uv sub tsz tsi.
rewrite /= => E; have [-> -> -> V _] := from_coeffs_wf nk sz ip E.
by split=> // rho; rewrite V H ct.
Qed.

(** Extraction succeeds exactly if every factor is a parameter or a number. *)
Lemma add_coeffs_is_ok params acc (fs : seq (expr C)) :
  is_ok (add_coeffs params acc fs) = all (fun f => is_param params f || is_unit_number f) fs.
Proof.
elim: fs acc => //= f fs IH acc.
case: f => [c||s|es|es|e n] //=; rewrite ?IH //.
by rewrite orbF; case: (s \in params) => //=; rewrite IH.
Qed.

Lemma rseq_is_ok (A : Type) (s : seq (res A)) : is_ok (rseq s) = all (@is_ok A) s.
Proof. by elim: s => //= [[x|e]] s //= <-; case: (rseq s). Qed.

Lemma to_coeffs_is_ok (P : poly C) gens terms : all (fun t => size t.1 == size gens) terms ->
  is_ok (to_coeffs_and_powers P gens terms) =
  all (fun t => all (fun e => all (fun f => is_param (parameters P) f || is_unit_number f) (factors e))
     (summands t.2)) terms.
Proof.
move=> tsz; rewrite /to_coeffs_and_powers.
have tok var : exists p, term_powers gens var (split_terms terms) = Ok p.
  have : is_ok (term_powers gens var (split_terms terms)).
    rewrite /term_powers rseq_is_ok all_map /split_terms all_flat all_map.
    apply: sub_all tsz => t /eqP st /=; rewrite all_map; elim: (summands t.2) => //= e es ->.
    rewrite andbT rseq_is_ok all_map; apply/allP => v _ /=.
    rewrite /power_entry; case: ifP => // vg; rewrite (item_ok 0%N) // st index_mem //.
  by case: (term_powers _ _ _) => // p _; exists p.
have [pws ->] : exists pws, rseq [seq term_powers gens (symbols_of ni.1 ni.2) (split_terms terms)
    | ni <- zip (variable_names P) (variable_indices P)] = Ok pws.
  elim: (zip _ _) => [|ni l [pws IH]] /=; first by exists [::].
  by have [p ->] := tok (symbols_of ni.1 ni.2); rewrite /= IH; exists (p :: pws).
transitivity (is_ok (rseq [seq add_coeffs (parameters P) (1, [::]) (factors t.2) | t <- split_terms terms])).
  by case: (rseq _).
rewrite rseq_is_ok all_map /split_terms all_flat all_map; apply: eq_all => t /=.
by rewrite all_map; apply: eq_all => e /=; rewrite add_coeffs_is_ok.
Qed.

Lemma to_coeffs_imaginary (P : poly C) gens pows c : size pows = size gens ->
  exists pws, to_coeffs_and_powers P gens [:: (pows, EMul [:: ENum c; @EI C])] =
    Ok ([:: 'i], [:: [::]], pws).
Proof.
move=> sz; have := @to_coeffs_is_ok P gens [:: (pows, EMul [:: ENum c; @EI C])].
rewrite /= sz eqxx => /(_ isT); rewrite /to_coeffs_and_powers /=.
by case: (rseq _) => // pws _; exists [seq none_if_zero i | i <- pws].
Qed.

Lemma default_indices_none powers : None \in powers ->
  is_ok (default_indices powers) = false.
Proof.
rewrite /default_indices rseq_is_ok all_map => H; apply/negbTE/allPn.
by exists None.
Qed.
Lemma from_coeffs_none coeffs (powers : seq (option ptable)) cparams names params : None \in powers ->
  is_ok (from_coeffs_and_powers norm pick setorder coeffs powers cparams names None params) = false.
Proof.
move=> /default_indices_none H; rewrite /from_coeffs_and_powers.
by case: (default_indices powers) H.
Qed.

Lemma default_indices_some (tabs : seq ptable) : all (fun t => ~~ nilp t) tabs ->
  default_indices (map Some tabs) =
  Ok [seq Some [seq Z.of_nat i | i <- iota 0 (size (head [::] t))] | t <- tabs].
Proof.
rewrite /default_indices; elim: tabs => //= t tabs IH /andP[nt /IH {}IH].
by case: t nt => [//|row t] _ /=; rewrite IH.
Qed.

Lemma default_nth n i : (i < n)%N -> (i < 26)%N ->
  nth [::] (default_names n) i = [:: nth " "%char (lit "abcdefghijklmnopqrstuvwxyz") i].
Proof.
move=> ni i26; rewrite /default_names nth_mkseq //.
by do 26?[case: i i26 ni => // i i26 ni].
Qed.

Lemma from_coeffs_default coeffs (tabs : seq ptable) : all (fun t => ~~ nilp t) tabs -> coeffs != [::] ->
  exists names inds,
  [/\ from_coeffs_and_powers norm pick setorder coeffs (map Some tabs) None None None None =
      from_coeffs_and_powers norm pick setorder coeffs (map Some tabs)
        (Some (nseq (size coeffs) [::])) (Some names) (Some inds) (Some (setorder [::])),
      size names = size tabs,
      forall i, (i < size tabs)%N -> (i < 26)%N ->
        nth [::] names i = [:: nth " "%char (lit "abcdefghijklmnopqrstuvwxyz") i] &
      forall v, (v < size tabs)%N -> exists2 l, nth None inds v = Some l &
        size l = size (head [::] (nth [::] tabs v)) /\
        forall i, (i < size l)%N -> nth 0%Z l i = Z.of_nat i].
Proof.
move=> Ht nc; exists (default_names (size tabs)).
exists [seq Some [seq Z.of_nat i | i <- iota 0 (size (head [::] t))] | t <- tabs]; split.
- rewrite /from_coeffs_and_powers default_indices_some //= size_map.
  have -> : nilp (nseq (size coeffs) ([::] : seq sym)) = false by case: coeffs nc.
  have -> // : flatten (nseq (size coeffs) ([::] : seq sym)) = [::].
  by elim: (size coeffs).
- by rewrite size_mkseq.
- by move=> i ni i26; exact: default_nth.
move=> v vt; rewrite (nth_map [::]) //; eexists; first by [].
rewrite size_map size_iota; split=> // i Hi.
by rewrite (nth_map 0%N) ?size_iota // nth_iota.
Qed.

Lemma from_coeffs_many coeffs powers cparams inds params : (26 < size powers)%N ->
  is_ok (from_coeffs_and_powers norm pick setorder coeffs powers cparams None inds params) = false.
Proof.
move=> H; rewrite /from_coeffs_and_powers; set nms := default_names _.
have -> : check_signature [::] nms = Err ValueError.
  rewrite /check_signature; case: ifP => // /andP[/allP/(_ [:: ascii_of_nat (97 + 26)])].
  have -> : [:: ascii_of_nat (97 + 26)] \in nms.
    by rewrite /nms /default_names; apply/mapP; exists 26%N => //; rewrite mem_iota.
  by move=> /(_ isT).
case: (if inds is Some s then _ else _) => //= l.
by case: (if params is Some s then _ else _).
Qed.
End Round.

Section Final.
Variable C : numClosedFieldType.

Lemma compute_all (lg ex : C -> C) st values coeffs powers :
  all (table_ok (size coeffs)) (zip values powers) ->
  (st = Log -> exp_log_ok lg ex /\ all (@log_safe C) (zip values powers)) ->
  compute_monomials lg ex st values coeffs powers = Ok (monomial_values values coeffs powers).
Proof.
move=> tk; case: st => H; try exact: compute_plain.
by have [el ls] := H erefl; apply: compute_log.
Qed.

Lemma compute_err (lg ex : C -> C) values coeffs powers :
  ~~ all (table_ok (size coeffs)) (zip values powers) ->
  exists e, forall st, compute_monomials lg ex st values coeffs powers = Err e.
Proof.
move=> /(loop_err lg) [e H]; exists e => st; rewrite /compute_monomials H ?size_nseq //.
Qed.

Lemma compute_missing (lg ex : C -> C) st values coeffs powers p : (0 < size p)%N ->
  compute_monomials lg ex st (None :: values) coeffs (Some p :: powers) = Err AssertionError.
Proof. by rewrite /compute_monomials; case: p. Qed.

Lemma to_coeffs_fit (P : poly C) gens terms : terms_fit P gens terms ->
  all (fun t => simple_coeff (parameters P) t.2) terms ->
  exists coeffs cparams powers,
    [/\ to_coeffs_and_powers P gens terms = Ok (coeffs, cparams, powers),
        size cparams = size coeffs,
        all (fun ps => all (fun p => p \in parameters P) ps) cparams,
        all (fun vp => table_ok (size coeffs) (Some vp.1, vp.2))
            (zip (var_lists (variable_names P) (variable_indices P)) powers) &
        forall rho, tables_value rho (var_lists (variable_names P) (variable_indices P))
                      coeffs cparams powers = terms_value rho gens terms].
Proof. by case=> *; apply: to_coeffs_main. Qed.

Lemma round_trip_fit (norm : expr C -> expr C) pick setorder (P Q : poly C) gens terms :
  norm_ok norm -> terms_fit P gens terms ->
  all (fun t => simple_coeff (parameters P) t.2) terms ->
  (forall rho, value P rho = terms_value rho gens terms) ->
  (do r <- to_coeffs_and_powers P gens terms;
   from_coeffs_and_powers norm pick setorder r.1.1 r.2 (Some r.1.2) (Some (variable_names P))
     (Some (variable_indices P)) (Some (parameters P))) = Ok Q ->
  [/\ variable_names Q = variable_names P, variable_indices Q = variable_indices P,
      parameters Q = parameters P & forall rho, value Q rho = value P rho].
Proof. by move=> nk [a b c d] si ct; apply: (round_trip nk a b c d si ct). Qed.

Lemma from_coeffs_shape (norm : expr C -> expr C) pick setorder coeffs cparams powers names inds params :
  size cparams = size coeffs -> check_signature [::] names = Ok tt ->
  all (fun ps => all (fun p => p \in params) ps) cparams ->
  let r := from_coeffs_and_powers norm pick setorder coeffs powers (Some cparams) (Some names)
             (Some inds) (Some params) in
  if all (fun vp => table_ok (size coeffs) (Some vp.1, vp.2)) (zip (var_lists names inds) powers)
  then exists2 e, (forall rho, sem rho e = tables_value rho (var_lists names inds) coeffs cparams powers)
                & is_ok r = ~~ nilp (pick e)
  else r = Err ValueError.
Proof.
move=> sz sig ip r; case: ifP => tk; last by apply: from_coeffs_err => //; rewrite tk.
have [e [E H1 _ _]] := from_coeffs_ok norm pick setorder sz sig ip tk.
by exists e => //; rewrite /r E; case: (nilp _).
Qed.
End Final.
