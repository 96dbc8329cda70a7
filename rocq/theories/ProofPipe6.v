(** The samplers: the points lie on the variety. *)
From Coq Require Import ZArith Lia Ascii String.
From mathcomp Require Import all_ssreflect all_algebra.
From mathcomp Require Import zify ssrZ ring.
From SsrMultinomials Require Import mpoly.
From Verif Require Import Base ModelStr ProofStr ModelExpr ModelPoly SpecPoly SpecUniv SpecHom
  ProofPoly ProofPoly2 ProofPoly3 ProofPoly4 ProofPoly5 ProofPoly7 ProofUniv
  ModelUtil ModelProjective ModelDiff ModelHom ModelVariety SpecVariety ProofVariety ProofVariety2 ProofVariety3.
From Verif Require Import ModelBasis ModelGeom ModelDonaldson ModelAlg ModelPipe SpecAlg SpecPipe Deriv Bridge PolyGrad ProofHom ProofHom2 ProofPolyExpr ProofAlg ProofAlg6.
Delimit Scope Z_scope with Z.

Set Implicit Arguments.
Unset Strict Implicit.
Unset Printing Implicit Defensive.

Import GRing.Theory Num.Theory.
Local Open Scope ring_scope.

Section Draw.
Variable C : numClosedFieldType.
Variable norm : expr C -> expr C.
Variable order : seq (sym * expr C) -> seq (sym * expr C).
Variable visit : expr C -> seq sym.
Variable terms : poly C -> sym -> seq (nat * expr C).
Variable roots : seq C -> seq C.
Hypotheses (nk : norm_ok norm) (ok_order : order_ok order) (ok_visit : visit_ok visit) (ok_roots : roots_ok roots).

Lemma on_lines (L : poly C) n ps count lines zs : sample_line norm visit terms roots n L ps count lines = Ok zs ->
  forall z, z \in zs -> on_line n (lines (sample_count count n) n) z.
Proof.
rewrite /sample_line; case: univariate_coefficients => //= cs.
case E: rseq => [pts|//] /= [<-] z /mem_take /flattenP[s sp zs'].
have [pq pqi] := rseq_in E sp; rewrite /solve_intersect; case: rseq => //= vs [Es].
move: zs'; rewrite -Es => /mapP[r _ ->]; by exists pq, r.
Qed.

Variables (m : nat) (P : poly C) (nm : sym) (ps : seq C) (V : variety C).
Let n := m.+2.
Let l := line_range n.
Hypotheses (wP : wf_poly P) (uP : uniq (all_symbols P)).
Hypotheses (Pn : variable_names P = [:: nm]) (Pi : variable_indices P = [:: Some l]).
Hypothesis wp : wf_params line_names (parameters P).
Hypothesis sps : size ps = size (parameters P).
Hypothesis VF : forall x : 'rV[C]_m.+2, v_defining V (row_seq x) (PArr ps) (PatchNone C) = Ok (F P nm l (row_seq x) ps).

Let sl : size l = n. Proof. by rewrite size_map size_iota. Qed.

Lemma draw_line L d count lines : homogeneous P d ->
  [/\ variable_names L = line_names, variable_indices L = line_inds n, parameters L = parameters P, wf_poly L &
    forall rho, value L rho =
      F P nm l [seq rho (merge_subscript (lit "p") i) + rho (lit "t") * rho (merge_subscript (lit "q") i)
        | i <- line_range n] (map rho (parameters P))] ->
  terms_ok L (lit "t") (terms L (lit "t")) -> terms_nonzero (terms L (lit "t")) ->
  size (lines (sample_count count n) n) = sample_count count n ->
  good_lines V ps m (lines (sample_count count n) n) ->
  exists zs, [/\ sample_line norm visit terms roots n L ps count lines = Ok zs,
    size zs = minn count (d * sample_count count n) & points_on V ps m zs].
Proof.
move=> hd LF okt tn sln gl.
have n0 : (0 < size l)%N by rewrite sl.
have al : all (fun pq => (size pq.1 == n) && (size pq.2 == n)) (lines (sample_count count n) n).
  by apply/allP => pq /gl[p [q [-> _ _]]]; rewrite /= !size_row_seq eqxx.
have := @sample_line_main C norm visit terms roots P L nm l d ps count lines nk ok_visit ok_roots wP uP Pn Pi n0 wp hd.
rewrite sl => /(_ LF okt tn sps sln al)[|zs [E sz Hz]].
  move=> pq /gl[p [q [-> _ [v]]]] /=; by rewrite VF => -[->].
exists zs; split=> // z zi; have [szz Fz] := Hz _ zi; exists (seq_row n z).
have zE : z = row_seq (seq_row n z).
  by rewrite seq_rowK.
split=> //; last by rewrite zE VF -zE Fz.
have [pq [r [pqi Ez]]] := on_lines E zi; have [p [q [Epq ind _]]] := gl _ pqi.
apply/eqP => z0; apply: (ind (- r)); apply/rowP => i; rewrite mxE.
have: seq_row n z 0 i = 0 by rewrite z0 mxE.
rewrite mxE Ez Epq (nth_map (0, 0)) ?size_zip ?size_row_seq ?minnn // nth_zip ?size_row_seq //= !nth_row_seq.
by move/eqP; rewrite addr_eq0 => /eqP ->; rewrite mulNr.
Qed.
End Draw.

Section General.
Variable C : numClosedFieldType.
Variable norm : expr C -> expr C.
Variable order : seq (sym * expr C) -> seq (sym * expr C).
Variable visit : expr C -> seq sym.
Variable terms : poly C -> sym -> seq (nat * expr C).
Variable roots : seq C -> seq C.
Hypotheses (nk : norm_ok norm) (ok_order : order_ok order) (ok_visit : visit_ok visit) (ok_roots : roots_ok roots).
Variable key : Type.
Variable lines : key -> nat -> nat -> seq (seq C * seq C).
Variable m : nat.
Let n := m.+2.

Lemma poly_draw_main (P : poly C) H V ps e k count :
  hom_ok P -> homogeneous P e -> hom_init P = Ok H -> variety_init norm H = Ok V ->
  variable_indices P = dim_indices [:: n] -> size ps = size (parameters P) ->
  wf_params [:: lit "t"; lit "p"; lit "q"] (parameters P) ->
  (forall L, line_poly norm order visit P = Ok L ->
     terms_ok L (lit "t") (terms L (lit "t")) /\ terms_nonzero (terms L (lit "t"))) ->
  size (lines k (sample_count count n) n) = sample_count count n ->
  good_lines V ps m (lines k (sample_count count n) n) ->
  exists zs, [/\ poly_draw norm order visit terms roots lines P k ps count = Ok zs,
    size zs = minn count (e * sample_count count n) & points_on V ps m zs].
Proof.
move=> hP he hi hv Ei sps wp ht sln gl; have [wP _ _ uP] := hP.
have [nm En] : exists nm, variable_names P = [:: nm].
  have [[_ _ s _] _ _] := wP; move: s; rewrite Ei; case: (variable_names P) => [//|nm [|]] // _.
  by exists nm.
have sl : size (line_range n) = n by rewrite size_map size_iota.
have n0 : (0 < size (line_range n))%N by rewrite sl.
have [L [EL E1 E2 E3 [E4 E5]]] := line_poly_ok nk ok_order ok_visit wP uP En Ei n0 wp.
rewrite sl in E2 E5; have [okt tn] := ht _ EL.
have Vd : v_defining V = defining norm H.
  by move: hv; rewrite /variety_init; case: rassert => //= _ [<-].
have VF (x : 'rV[C]_m.+2) : v_defining V (row_seq x) (PArr ps) (PatchNone C) = Ok (F P nm (line_range n) (row_seq x) ps).
  rewrite Vd /defining (transform_none norm _ _ hi) (call_kw _ _ En).
  by rewrite (call_F wP uP En Ei) ?size_row_seq.
have [zs [Z1 Z2 Z3]] := draw_line nk ok_visit ok_roots wP uP En Ei wp sps VF he (And5 E1 E2 E3 E4 E5) okt tn sln gl.
have Ed : dim_complex P = Ok n by rewrite /dim_complex Ei /= size_map size_iota.
by exists zs; split=> //; rewrite /poly_draw /sample_hom Ed; cbn [rbind]; rewrite EL; exact: Z1.
Qed.

(** A polynomial given by a function on arrays of expressions *)
Section Former.
Variables (par : seq sym) (G : seq (expr C) -> expr C) (g : seq C -> seq C -> C) (d : nat).
Hypotheses (upar : uniq par) (wpar : wf_params line_names par) (zpar : wf_params [:: lit "z"] par).
Hypothesis Gsem : forall rho es, sem rho (G es) = g (map (sem rho) es) (map rho par).
Hypothesis Gsyms : forall es, {subset esyms (G es) <= par ++ flatten (map (@esyms C) es)}.
Hypothesis GI : forall es, all (@no_I C) es -> no_I (G es).
Hypothesis Ghom : forall x z ps, size z = n -> g (scale x z) ps = x ^+ d * g z ps.

Let vs := [seq merge_subscript (lit "z") i | i <- line_range n].
Let P := MkPoly [:: lit "z"] [:: Some (line_range n)] par (SPoly vs (G [seq ESym s | s <- vs])).

Let sl : size (line_range n) = n. Proof. by rewrite size_map size_iota. Qed.
Let az : alpha (lit "z"). Proof. by []. Qed.

Lemma former_all : all_symbols P = vs ++ par.
Proof. by rewrite /all_symbols /var_symbols /= cats0. Qed.

Lemma former_wf : wf_poly P.
Proof.
split=> //; first by split=> //=; rewrite andbT; apply/allP => i /mapP[j _ ->]; lia.
do 2 eexists; split; first by []; last by apply: GI; elim: vs => [//|s ss IH] /=.
move=> s /Gsyms; rewrite former_all -map_comp mem_cat => H; rewrite mem_cat; case/orP: H => [->|]; first by rewrite orbT.
by case/flatten_mapP=> t ti; rewrite inE => /eqP ->; rewrite ti.
Qed.

Lemma former_uniq : uniq (all_symbols P).
Proof.
rewrite former_all cat_uniq upar andbT; apply/andP; split.
  have inj : {in line_range n &, injective (merge_subscript (lit "z"))}.
    by move=> i j /mapP[i' _ ->] /mapP[j' _ ->]; apply: ProofVariety.merge_inj => //; lia.
  by rewrite (map_inj_in_uniq inj) map_inj_uniq ?iota_uniq // => i j; lia.
apply/hasPn => s sp /=; apply/negP => /mapP[_ /mapP[i _ ->] E].
have [b [j Ej] bn] := zpar sp; move: Ej bn; rewrite E merge_split //; last by lia.
by move=> [<- _]; rewrite inE eqxx.
Qed.

Lemma former_value rho : value P rho = g (map rho vs) (map rho par).
Proof.
have -> : value P rho = sem rho (G [seq ESym s | s <- vs]) by [].
by rewrite Gsem; congr (g _ _); rewrite -map_comp; apply: eq_map.
Qed.

Lemma former_F z ps : size z = n -> size ps = size par -> F P (lit "z") (line_range n) z ps = g z ps.
Proof.
move=> sz sp; rewrite /F former_value (asg_par former_uniq erefl erefl) //.
by rewrite (asg_vs former_uniq erefl erefl) // sl.
Qed.

Lemma former_hom : homogeneous P d.
Proof.
move=> rho x; rewrite !former_value.
have -> : var_symbols (variable_names P) (variable_indices P) = vs by rewrite /var_symbols /= cats0.
set f := fun s => _; have -> : map f vs = scale x (map rho vs).
  by rewrite /scale -map_comp; apply/eq_in_map => s sv /=; rewrite /f sv.
have -> : map f par = map rho par; last by rewrite Ghom // size_map size_map.
apply/eq_in_map => s sp; rewrite /f; case: ifP => // sv.
by have /negP[] := par_notin_vs former_uniq erefl erefl sp.
Qed.

Lemma former_line e : {subset esyms e <= par ++ flatten (map (@esyms C) (line_exprs C n))} ->
  (forall rho, sem rho e = sem rho (G (line_exprs C n))) ->
  exists L, [/\ line_poly_of norm visit n e par = Ok L,
    variable_names L = line_names, variable_indices L = line_inds n, parameters L = par &
    (no_I e -> wf_poly L) /\ forall rho, value L rho =
      F P (lit "z") (line_range n) [seq rho (merge_subscript (lit "p") i) + rho (lit "t") * rho (merge_subscript (lit "q") i)
        | i <- line_range n] (map rho par)].
Proof.
move=> esub esem; have n0 : (0 < size (line_range n))%N by rewrite sl.
have [||L [EL E1 E2 E3 [E4 E5]]] := @line_of_ok C norm visit nk ok_visit P (lit "z") (line_range n)
   former_wf former_uniq erefl erefl n0 wpar e.
- move=> s /esub; rewrite mem_cat => /orP[sp|]; first by left.
  rewrite -map_comp => /flatten_mapP[pq /(nthP ([::], [::]))[i]].
  rewrite size_zip !size_symarray minnn => ni.
  rewrite nth_zip ?size_symarray // !nth_symarray // => <-.
  rewrite !inE => /or3P[] /eqP ->; right; [right|by left|right];
    exists i; rewrite ?sl //; by [left|right].
- move=> rho; rewrite esem Gsem former_value; congr (g _ _).
    have E := fl_vs former_uniq erefl erefl : map (fl C (lit "z") (line_range n)) vs = line_exprs C (size (line_range n)).
    by rewrite sl in E; rewrite -E -map_comp.
  by apply/eq_in_map => s sp; rewrite (fl_par former_uniq erefl erefl sp).
by rewrite !sl in EL E2 E5; exists L; split.
Qed.

Lemma former_draw V ps k count :
  (forall x : 'rV[C]_n, v_defining V (row_seq x) (PArr ps) (PatchNone C) = Ok (g (row_seq x) ps)) ->
  size ps = size par ->
  (forall L, line_poly_of norm visit n (G (line_exprs C n)) par = Ok L ->
     terms_ok L (lit "t") (terms L (lit "t")) /\ terms_nonzero (terms L (lit "t"))) ->
  size (lines k (sample_count count n) n) = sample_count count n ->
  good_lines V ps m (lines k (sample_count count n) n) ->
  exists zs, [/\ (do L <- line_poly_of norm visit n (G (line_exprs C n)) par;
                  sample_line norm visit terms roots n L ps count (lines k)) = Ok zs,
    size zs = minn count (d * sample_count count n) & points_on V ps m zs].
Proof.
move=> VF sps ht sln gl.
have [|//|L [EL E1 E2 E3 [E4 E5]]] := @former_line (G (line_exprs C n)); first exact: Gsyms.
have {}E4 : wf_poly L.
  by apply: E4; apply: GI; rewrite /line_exprs; elim: (zip _ _) => [//|[p q] s IH] /=.
have [okt tn] := ht _ EL.
have VF' (x : 'rV[C]_m.+2) : v_defining V (row_seq x) (PArr ps) (PatchNone C) =
    Ok (F P (lit "z") (line_range n) (row_seq x) ps).
  by rewrite former_F ?size_row_seq.
have [zs [Z1 Z2 Z3]] := draw_line nk ok_visit ok_roots former_wf former_uniq erefl erefl wpar sps VF' former_hom
  (And5 E1 E2 E3 E4 E5) okt tn sln gl.
by exists zs; split=> //; rewrite EL.
Qed.
End Former.

(** The predefined varieties *)
Lemma size_exprs k : size (line_exprs C k) = k.
Proof. by rewrite size_map size_zip !size_symarray minnn. Qed.

Lemma sem_add rho (es : seq (expr C)) : sem rho (EAdd es) = \sum_(e <- es) sem rho e.
Proof. by rewrite /= big_map. Qed.

Lemma sem_mul rho (es : seq (expr C)) : sem rho (EMul es) = \prod_(e <- es) sem rho e.
Proof. by rewrite /= big_map. Qed.

Lemma esyms_pow (es : seq (expr C)) : esyms (EAdd [seq EPow x n | x <- es]) = flatten (map (@esyms C) es).
Proof. by rewrite /= -map_comp. Qed.

Lemma psi_wf names : all (fun a => a != lit "psi") names -> wf_params names [:: lit "psi"].
Proof.
move=> al s; rewrite inE => /eqP ->; exists (lit "psi"); first by exists None.
by apply/negP => /(allP al); rewrite eqxx.
Qed.

Lemma prod_scale x (z : seq C) : \prod_(y <- scale x z) y = x ^+ size z * \prod_(y <- z) y.
Proof.
elim: z => [|y z IH]; first by rewrite !big_nil mulr1.
by rewrite /= !big_cons IH exprS mulrACA.
Qed.

Lemma pow_scale x (z : seq C) k : \sum_(y <- scale x z) y ^+ k = x ^+ k * \sum_(y <- z) y ^+ k.
Proof. by rewrite /scale big_map big_distrr; apply: eq_bigr => y _; rewrite exprMn. Qed.

Let dG (f : C) (z : seq (expr C)) : expr C :=
  EAdd [:: EAdd [seq EPow x n | x <- z]; EMul [:: num_expr f; ESym (lit "psi"); EMul z]].

Lemma dwork_draw_main (f : dwork_factor C) c k count : dwork_factor_value f \is Num.real ->
  (forall L, line_poly_of norm visit n (dG (dwork_factor_value f) (line_exprs C n)) [:: lit "psi"] = Ok L ->
     terms_ok L (lit "t") (terms L (lit "t")) /\ terms_nonzero (terms L (lit "t"))) ->
  size (lines k (sample_count count n) n) = sample_count count n ->
  good_lines (dwork_variety m f) [:: c] m (lines k (sample_count count n) n) ->
  exists zs, [/\ dwork_draw norm visit terms roots lines m f k [:: c] count = Ok zs,
    size zs = count & points_on (dwork_variety m f) [:: c] m zs].
Proof.
move=> fr ht sln gl; set a := dwork_factor_value f in fr ht *.
have En : num_expr a = ENum a by rewrite /num_expr fr.
pose g (z ps : seq C) : C := \sum_(x <- z) x ^+ n + a * nth 0 ps 0 * \prod_(x <- z) x.
have [] := @former_draw [:: lit "psi"] (dG a) g n _ _ _ _ _ _ _ (dwork_variety m f) [:: c] k count.
- by [].
- exact: psi_wf.
- exact: psi_wf.
- move=> rho es; rewrite /dG En sem_add !big_cons big_nil addr0 sem_add big_map; congr (_ + _).
    by rewrite /= big_map.
  rewrite sem_mul !big_cons big_nil mulr1 sem_mul /= big_map; by rewrite mulrA.
- move=> es s; rewrite /dG En /= -!map_comp !cats0 inE mem_cat.
  rewrite in_cons /= => /orP[->|/orP[->//|->]]; by rewrite orbT.
- move=> es al; rewrite /dG En /= al !andbT; by elim: es al => [//|e es IH] /= /andP[-> /IH].
- move=> x z ps sz; rewrite /g pow_scale prod_scale sz; ring.
- move=> x; rewrite /= /dwork_call size_row_seq addn0 eqxx; by [].
- by [].
- exact: ht.
- exact: sln.
- exact: gl.
move=> zs [E sz on]; exists zs; split=> //.
  rewrite /dwork_draw /dwork_sym size_exprs eqxx; exact: E.
by rewrite sz count_enough.
Qed.

Lemma fermat_draw_main k count :
  (forall L, line_poly_of norm visit n (EAdd [seq EPow x n | x <- line_exprs C n]) [::] = Ok L ->
     terms_ok L (lit "t") (terms L (lit "t")) /\ terms_nonzero (terms L (lit "t"))) ->
  size (lines k (sample_count count n) n) = sample_count count n ->
  good_lines (fermat_variety C m) [::] m (lines k (sample_count count n) n) ->
  exists zs, [/\ fermat_draw norm visit terms roots lines m k [::] count = Ok zs,
    size zs = count & points_on (fermat_variety C m) [::] m zs].
Proof.
move=> ht sln gl.
pose g (z ps : seq C) : C := \sum_(x <- z) x ^+ n.
have [] := @former_draw [::] (fun es => EAdd [seq EPow x n | x <- es]) g n _ _ _ _ _ _ _ (fermat_variety C m) [::] k count.
- by [].
- by [].
- by [].
- by move=> rho es; rewrite sem_add /g !big_map.
- by move=> es s; rewrite esyms_pow.
- by move=> es al /=; elim: es al => [//|e es IH] /= /andP[-> /IH].
- by move=> x z ps sz; rewrite /g pow_scale.
- move=> x; rewrite /= /fermat_call size_row_seq addn0 eqxx; by [].
- by [].
- exact: ht.
- exact: sln.
- exact: gl.
move=> zs [E sz on]; exists zs; split=> //.
  rewrite /fermat_draw /fermat_sym size_exprs eqxx; exact: E.
by rewrite sz count_enough.
Qed.
End General.
