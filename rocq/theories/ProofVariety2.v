(** Sampling by intersection: the sampled points. *)
From Coq Require Import ZArith Lia Ascii String Permutation.
From mathcomp Require Import all_ssreflect all_algebra.
From mathcomp Require Import zify ssrZ ring.
From Verif Require Import Base ModelStr ProofStr ModelExpr ModelPoly SpecPoly SpecUniv SpecHom
  ProofPoly ProofPoly2 ProofPoly3 ProofPoly4 ProofPoly5 ProofPoly7 ProofUniv
  ModelUtil ModelProjective ModelDiff ModelHom ModelVariety SpecVariety ProofVariety.
Delimit Scope Z_scope with Z.

Set Implicit Arguments.
Unset Strict Implicit.
Unset Printing Implicit Defensive.

Import GRing.Theory Num.Theory.
Local Open Scope ring_scope.

Section Pol.
Variable R : numDomainType.
Implicit Types (p A B : {poly R}).

Lemma poly_zero_all p : (forall x, p.[x] = 0) -> p = 0.
Proof.
move=> H; apply/eqP/negPn/negP => p0.
pose rs : seq R := [seq i%:R | i <- iota 0 (size p)].
have al : all (root p) rs by apply/allP => x _; rewrite rootE H.
have un : uniq rs by rewrite map_inj_uniq ?iota_uniq //; exact: (mulrIn (oner_neq0 _)).
by have := max_poly_roots p0 al un; rewrite size_map size_iota ltnn.
Qed.

Lemma poly_eq_nz p A : (forall x, x != 0 -> p.[x] = A.[x]) -> p = A.
Proof.
move=> H; apply/eqP; rewrite -subr_eq0; apply/eqP.
have E : (p - A) * 'X = 0.
  apply: poly_zero_all => x; rewrite hornerM hornerX hornerD hornerN.
  by have [->|/H ->] := eqVneq x 0; rewrite ?mulr0 // subrr mul0r.
by move/eqP: E; rewrite mulf_eq0 polyX_eq0 orbF => /eqP.
Qed.
End Pol.

Section Recip.
Variable F : numFieldType.
Implicit Types (A B : {poly F}).

Lemma recip_coef A B d D : (size A <= D.+1)%N -> (size B <= D.+1)%N ->
  (forall x, x != 0 -> A.[x] = x ^+ d * B.[x^-1]) ->
  A`_d = B`_0 /\ (forall k, (d < k)%N -> A`_k = 0).
Proof.
move=> sA sB H; pose B' := \poly_(i < D.+1) B`_(D - i).
have E : 'X^D * A = 'X^d * B'.
  apply: poly_eq_nz => x x0; rewrite !hornerM !hornerXn H // mulrCA; congr (_ * _).
  rewrite horner_poly (horner_coef_wide _ sB) big_distrr /= [RHS](reindex_inj rev_ord_inj) /=.
  apply: eq_bigr => i _; have iD : (i <= D)%N by rewrite -ltnS.
  rewrite subSS subKn // mulrCA exprVn; congr (_ * _).
  have -> : x ^+ D = x ^+ (D - i) * x ^+ i by rewrite -exprD subnK.
  by rewrite mulfK // expf_neq0.
have co k : A`_k = if (D + k < d)%N then 0 else B'`_(D + k - d).
  by rewrite -[RHS]coefXnM -E coefXnM ltnNge leq_addr /= addKn.
split=> [|k dk]; rewrite co.
  by rewrite ltnNge leq_addl /= addnK coef_poly ltnSn subnn.
rewrite ltnNge (leq_trans (ltnW dk)) ?leq_addl //= coef_poly; case: ltnP => // ; lia.
Qed.
End Recip.

Section Desc.
Variable C : numClosedFieldType.
Implicit Types (cs : seq C).

Definition desc_poly cs : {poly C} := \poly_(i < size cs) nth 0 cs (size cs - i.+1).

Lemma desc_polyE cs x : (desc_poly cs).[x] = horner_desc cs x.
Proof.
rewrite horner_poly /horner_desc [RHS](reindex_inj rev_ord_inj) /=.
apply: eq_bigr => i _; have := ltn_ord i; move: (i : nat) => j lt; congr (_ * _ ^+ _); lia.
Qed.

Lemma desc_coef cs k : (k < size cs)%N -> (desc_poly cs)`_k = nth 0 cs (size cs - k.+1).
Proof. by move=> lt; rewrite coef_poly lt. Qed.
End Desc.

Section Sample.
Variable C : numClosedFieldType.
Variable norm : expr C -> expr C.
Variable visit : expr C -> seq sym.
Variable terms : poly C -> sym -> seq (nat * expr C).
Variable roots : seq C -> seq C.
Hypotheses (nk : norm_ok norm) (ok_visit : visit_ok visit).
Hypothesis ok_roots : roots_ok roots.

Variables (P : poly C) (nm : sym) (l : seq Z).
Hypotheses (wP : wf_poly P) (uP : uniq (all_symbols P)).
Hypotheses (Pn : variable_names P = [:: nm]) (Pi : variable_indices P = [:: Some l]).
Hypothesis l0 : (0 < size l)%N.
Hypothesis wp : wf_params line_names (parameters P).
Let n := size l.
Let par := parameters P.
Local Notation F := (F P nm l).

Variable L : poly C.
Hypothesis line_facts : [/\ variable_names L = line_names, variable_indices L = line_inds n,
    parameters L = par, wf_poly L &
    forall rho, value L rho =
      F [seq rho (merge_subscript (lit "p") i) + rho (lit "t") * rho (merge_subscript (lit "q") i)
        | i <- line_range n] (map rho par)].
Hypothesis ok_terms : terms_ok L (lit "t") (terms L (lit "t")).
Let D := \max_(t <- terms L (lit "t")) t.1.

Definition point (p q : seq C) (x : C) : seq C := [seq pq.1 + x * pq.2 | pq <- zip p q].

Lemma size_point p q x : size p = n -> size q = n -> size (point p q x) = n.
Proof. by move=> sp sq; rewrite size_map size_zip sp sq minnn. Qed.

(** An assignment of the symbols of the line. *)
Definition lasg (x : C) (p q ps : seq C) (s : sym) : C :=
  if s \in par then nth 0 ps (index s par) else
  match split_subscript s with
  | Ok (m, Some i) => nth 0 (if m == lit "p" then p else q) (Z.to_nat i)
  | _ => x
  end.

Lemma sym_notin_par c s : c \in line_names -> has_base s c -> s \notin par.
Proof.
by move=> cn [j E]; apply/negP => /wp[m [i]]; rewrite E => -[<- _]; rewrite cn.
Qed.

Lemma lasg_t x p q ps : lasg x p q ps (lit "t") = x.
Proof. by rewrite /lasg (negbTE (@sym_notin_par (lit "t") _ _ _)) //; exists None. Qed.

Lemma merge_split_nat c (i : nat) : alpha c ->
  split_subscript (merge_subscript c (Z.of_nat i)) = Ok (c, Some (Z.of_nat i)).
Proof. by case/andP=> c0 al; rewrite merge_split //; lia. Qed.

Lemma lasg_arr c x p q ps (i : nat) : alpha c -> c \in line_names ->
  lasg x p q ps (merge_subscript c (Z.of_nat i)) = nth 0 (if c == lit "p" then p else q) i.
Proof.
move=> ac cn; have E := merge_split_nat i ac.
rewrite /lasg (negbTE (@sym_notin_par c _ _ _)) //; last by exists (Some (Z.of_nat i)).
by rewrite E Nat2Z.id.
Qed.

Lemma lasg_par x p q ps : size ps = size par -> map (lasg x p q ps) par = ps.
Proof.
move=> sz; apply: (@eq_from_nth _ 0); rewrite size_map // => i ni.
rewrite (nth_map [::]) // /lasg mem_nth // index_uniq //.
by have [] := uniq_vs uP Pn Pi.
Qed.

Lemma lasg_map c x p q ps : alpha c -> c \in line_names ->
  size (if c == lit "p" then p else q) = n ->
  [seq lasg x p q ps (merge_subscript c i) | i <- line_range n] = if c == lit "p" then p else q.
Proof.
move=> ac cn sz; apply: (@eq_from_nth _ 0); rewrite !size_map size_iota // => i ni.
by rewrite (nth_map 0%Z) ?size_map ?size_iota // (nth_map 0%N) ?size_iota // nth_iota // lasg_arr.
Qed.


Lemma line_value x p q ps : size p = n -> size q = n -> size ps = size par ->
  value L (lasg x p q ps) = F (point p q x) ps.
Proof.
move=> sp sq sps; have [_ _ _ _ ->] := line_facts; rewrite lasg_par //; congr (F _ _).
apply: (@eq_from_nth _ 0); first by rewrite size_point // !size_map size_iota.
rewrite !size_map size_iota => i ni.
rewrite (nth_map 0%Z) ?size_map ?size_iota // (nth_map 0%N) ?size_iota // nth_iota // lasg_t.
rewrite (@lasg_arr (lit "p")) // (@lasg_arr (lit "q")) //= (nth_map (0, 0)) ?size_zip ?sp ?sq ?minnn //.
by rewrite nth_zip ?sp ?sq.
Qed.

Lemma line_other : other_vars L (lit "t") =
  [:: (lit "p", Some (line_range n)); (lit "q", Some (line_range n))].
Proof.
have [E1 E2 _ _ _] := line_facts; rewrite /other_vars E1 E2 /=.
have ne c i : alpha c -> i \in line_range n -> merge_subscript c i != lit "t".
  move=> ac /mapP[j _ ->]; apply/eqP => E; have := merge_split_nat j ac; by rewrite E.
have dv c : alpha c -> drop_var (lit "t") (c, Some (line_range n)) = Some (c, Some (line_range n)).
  move=> ac; rewrite /drop_var /=; case: ifP => [/allP al|_].
    have r0 : Z.of_nat 0 \in line_range n by rewrite map_f // mem_iota.
    have /= := al _ (map_f (merge_subscript c) r0).
    by rewrite (negbTE (ne _ _ ac r0)).
  congr (Some (_, Some _)); apply/all_filterP/allP => i; exact: ne.
by rewrite !dv.
Qed.

Lemma coeffs_ok : exists cs, [/\ univariate_coefficients norm L (lit "t") (terms L (lit "t")) visit = Ok cs,
   size cs = D.+1 &
   forall p q ps, size p = n -> size q = n -> size ps = size par ->
   exists vs, [/\ rseq [seq coeff_call ps (p, q) c | c <- cs] = Ok vs, size vs = D.+1 &
     forall x, F (point p q x) ps = horner_desc vs x]].
Proof.
have [E1 E2 E3 wL VL] := line_facts.
have uL : uniq (all_symbols L).
  by rewrite /all_symbols E1 E2 E3; apply: (@line_uniq C P nm l).
have cL : check_signature [::] (variable_names L) = Ok tt by rewrite E1.
have tp : lit "t" \notin parameters L.
  by rewrite E3; apply: (@sym_notin_par (lit "t")) => //; exists None.
have ov : (other_vars L (lit "t") != [::]) || all (fun t => nilp (esyms t.2)) (terms L (lit "t")).
  by rewrite line_other.
have [cs [Ec sc meta ev]] := univ_main nk wL uL cL ok_visit tp ok_terms ov.
exists cs; split=> // p q ps sp sq sps.
have same c x : (forall Q, c = UPoly Q -> ProofUniv.meta L (lit "t") c) ->
    coeff_eval c (lasg x p q ps) = coeff_call ps (p, q) c.
  case: c => [//|Q] /(_ Q erefl) [wQ nQ iQ pQ] /=.
  rewrite /var_inputs nQ iQ line_other /= /var_input /= !cats0 /par_input pQ E3 lasg_par //.
  by rewrite (@lasg_map (lit "p")) //= (@lasg_map (lit "q")).
have same' x : [seq coeff_eval c (lasg x p q ps) | c <- cs] = [seq coeff_call ps (p, q) c | c <- cs].
  apply: (@eq_from_nth _ (Ok 0)); rewrite !size_map // => i ni.
  rewrite !(nth_map (UNum 0)) //; apply: same => Q EQ; rewrite EQ; exact: (meta i).
have [vs [Ev sv _]] := ev (lasg 0 p q ps); exists vs; rewrite -(same' 0) Ev; split=> //.
  by rewrite sv.
move=> x; have [vs' [Ev' sv' Es]] := ev (lasg x p q ps).
have Evs : vs' = vs by move: Ev' Ev; rewrite !same' => -> [->].
rewrite -line_value // Es /horner_desc sv Evs; apply: eq_bigr => k _.
by rewrite lasg_t.
Qed.

Variable d : nat.
Hypothesis hd : homogeneous P d.

Lemma hom_F x z ps : size z = n -> size ps = size par -> F (scale x z) ps = x ^+ d * F z ps.
Proof.
by move=> sz _; apply: (F_scale wP Pn Pi).
Qed.

Lemma point_swap p q x : size p = n -> size q = n -> x != 0 -> point p q x = scale x (point q p x^-1).
Proof.
move=> sp sq x0; apply: (@eq_from_nth _ 0); first by rewrite /scale (size_map _ (point _ _ _)) !size_point.
rewrite size_point // => i ni; rewrite [in RHS](nth_map 0) ?size_point //.
rewrite !(nth_map (0, 0)) ?size_zip ?sp ?sq ?minnn // !nth_zip ?sp ?sq //=.
by rewrite mulrDr mulVKf // addrC.
Qed.

Lemma point0 p q : size p = n -> size q = n -> point p q 0 = p.
Proof.
move=> sp sq; apply: (@eq_from_nth _ 0); rewrite size_point // => i ni.
by rewrite (nth_map (0, 0)) ?size_zip ?sp ?sq ?minnn // nth_zip ?sp ?sq //= mul0r addr0.
Qed.

Lemma size_desc (vs : seq C) : (size (desc_poly vs) <= size vs)%N.
Proof. exact: size_poly. Qed.

Lemma line_degree p q ps vs : size p = n -> size q = n -> size ps = size par -> size vs = D.+1 ->
  (forall x, F (point p q x) ps = horner_desc vs x) ->
  (desc_poly vs)`_d = F q ps /\ (forall k, (d < k)%N -> (desc_poly vs)`_k = 0).
Proof.
move=> sp sq sps sv Hv; have [cs [_ _ H]] := coeffs_ok.
have [vs' [_ sv' Hv']] := H q p ps sq sp sps.
have [||x x0|E1 E2] := @recip_coef _ (desc_poly vs) (desc_poly vs') d D.
- by rewrite -sv size_desc.
- by rewrite -sv' size_desc.
- by rewrite !desc_polyE -Hv -Hv' point_swap // hom_F // size_point.
split=> //; rewrite E1 -horner_coef0 desc_polyE -Hv' point0 //.
Qed.

Lemma horner_inj (A B : {poly C}) : (forall x, A.[x] = B.[x]) -> A = B.
Proof. by move=> H; apply: poly_eq_nz => x _. Qed.

Lemma coef_terms (ts : seq (nat * expr C)) rho k :
  (\sum_(t <- ts) (sem rho t.2)%:P * 'X^(t.1))`_k = \sum_(t <- ts | t.1 == k) sem rho t.2.
Proof.
elim: ts => [|t ts IH]; first by rewrite !big_nil coef0.
rewrite !big_cons coefD IH coefCM coefXn eq_sym; case: eqP => _; by rewrite ?mulr1 ?mulr0 ?add0r.
Qed.

Lemma degree_le : terms_nonzero (terms L (lit "t")) -> (D <= d)%N.
Proof.
move=> tn; set ts := terms L (lit "t") in tn *.
have [st ut al _ VL] := ok_terms; rewrite -/ts in st ut al VL.
have [i ni Di] : exists2 i, (i < size ts)%N & (nth (0%N, ENum 0) ts i).1 = D.
  rewrite /D -/ts; elim: ts st {tn ut al VL} => [//|t ts IH] _; rewrite big_cons.
  case: ts IH => [|u us] IH; first by exists 0%N; rewrite // big_nil maxn0.
  have [//|i ni Ei] := IH; case: (leqP t.1 (\max_(j <- u :: us) j.1)) => h.
    by exists i.+1.
  by exists 0%N.
have [rho r0] := tn i ni; have [E1 E2 E3 wL _] := line_facts.
pose p := [seq rho (merge_subscript (lit "p") j) | j <- line_range n].
pose q := [seq rho (merge_subscript (lit "q") j) | j <- line_range n].
pose ps := map rho par.
have sp : size p = n by rewrite !size_map size_iota.
have sq : size q = n by rewrite !size_map size_iota.
have sps : size ps = size par by rewrite size_map.
have [cs [_ _ H]] := coeffs_ok; have [vs [_ sv Hv]] := H p q ps sp sq sps.
have agree x s : s \in all_symbols L -> s != lit "t" -> lasg x p q ps s = rho s.
  rewrite /all_symbols E1 E2 E3 mem_cat line_var_symbols inE mem_cat => /orP[|sp0 _]; last first.
    by rewrite /lasg sp0 (nth_map [::]) ?nth_index // index_mem.
  case/or3P=> [/eqP -> /eqP //|/mapP[_ /mapP[j jn ->] ->] _|/mapP[_ /mapP[j jn ->] ->] _];
    move: jn; rewrite mem_iota add0n => /andP[_ jn].
  - rewrite (@lasg_arr (lit "p")) //= (nth_map 0%Z) ?size_map ?size_iota //.
    by rewrite (nth_map 0%N) ?size_iota // nth_iota.
  - rewrite (@lasg_arr (lit "q")) //= (nth_map 0%Z) ?size_map ?size_iota //.
    by rewrite (nth_map 0%N) ?size_iota // nth_iota.
have Ep : desc_poly vs = \sum_(t <- ts) (sem rho t.2)%:P * 'X^(t.1).
  apply: horner_inj => x; rewrite desc_polyE -Hv -line_value // VL lasg_t.
  rewrite horner_sum; elim: ts al {tn ut VL st ni Di r0} => [|t ts IH]; first by rewrite !big_nil.
  rewrite /= => /andP[at_ ats]; rewrite !big_cons IH //; congr (_ + _).
  rewrite hornerM hornerC hornerXn; congr (_ * _); apply: eq_sem => s /(allP at_) /andP[st sa].
  exact: agree.
rewrite leqNgt; apply/negP => lt.
have [_ /(_ D lt)] := line_degree sp sq sps sv Hv; rewrite Ep coef_terms.
have -> : \sum_(t <- ts | t.1 == D) sem rho t.2 = sem rho (nth (0%N, ENum 0) ts i).2; last exact/eqP.
elim: ts ut i ni Di {tn al VL st r0 Ep} => [//|t ts IH] /= /andP[nt ut] [_ Et|i ni Di].
  by rewrite big_cons Et eqxx (sum_none _ _) ?addr0 // -Et.
rewrite big_cons (IH ut i ni Di); case: eqP => // Et; case/negP: nt; rewrite Et -Di.
by apply/(nthP 0%N); exists i; rewrite ?size_map // (nth_map (0%N, ENum 0)).
Qed.

Lemma degree_ge q ps : size q = n -> size ps = size par -> F q ps != 0 -> (d <= D)%N.
Proof.
move=> sq sps Fq; have [cs [_ _ H]] := coeffs_ok.
have [vs [_ sv Hv]] := H q q ps sq sq sps.
have [E _] := line_degree sq sq sps sv Hv.
rewrite -ltnS -sv; apply: leq_trans (size_desc vs); rewrite ltnNge; apply/negP => le.
by rewrite nth_default // in E; rewrite -E eqxx in Fq.
Qed.

(** One line. *)
Lemma solve_line cs p q ps : univariate_coefficients norm L (lit "t") (terms L (lit "t")) visit = Ok cs ->
  terms_nonzero (terms L (lit "t")) -> size p = n -> size q = n -> size ps = size par -> F q ps != 0 ->
  exists pts, [/\ solve_intersect roots cs ps (p, q) = Ok pts, size pts = d &
    all (fun z => (size z == n) && (F z ps == 0)) pts].
Proof.
move=> Ec tn sp sq sps Fq; have [cs' [Ec' sc H]] := coeffs_ok.
have {Ec'} ? : cs' = cs by move: Ec'; rewrite Ec => -[].
subst cs'; have ED : D = d by apply/eqP; rewrite eqn_leq degree_le // (degree_ge sq sps Fq).
have [vs [Ev sv Hv]] := H p q ps sp sq sps; have [E _] := line_degree sp sq sps sv Hv.
have h0 : head 0 vs != 0.
  by rewrite -nth0 -(subnn d.+1) -ED -{1}sv -desc_coef ?sv // ED E.
have [||sr ar] := ok_roots (cs := vs); rewrite ?sv // in h0 *.
exists [seq point p q r | r <- roots vs]; split.
- by rewrite /solve_intersect Ev.
- by rewrite size_map sr sv ED.
apply/allP => z /mapP[r rr ->]; rewrite size_point // eqxx /= Hv; exact: (allP ar).
Qed.

Lemma solve_lines cs lns ps : univariate_coefficients norm L (lit "t") (terms L (lit "t")) visit = Ok cs ->
  terms_nonzero (terms L (lit "t")) -> size ps = size par ->
  all (fun pq => [&& size pq.1 == n, size pq.2 == n & F pq.2 ps != 0]) lns ->
  exists pts, [/\ rseq [seq solve_intersect roots cs ps pq | pq <- lns] = Ok pts,
    size (flatten pts) = (d * size lns)%N &
    all (fun z => (size z == n) && (F z ps == 0)) (flatten pts)].
Proof.
move=> Ec tn sps; elim: lns => [|[p q] lns IH] /=; first by exists [::]; rewrite muln0.
case/andP=> /and3P[/eqP sp /eqP sq Fq] /IH[pts [E1 E2 E3]].
have [zs [F1 F2 F3]] := solve_line Ec tn sp sq sps Fq.
exists (zs :: pts); rewrite F1 /= E1; split=> //=.
  by rewrite size_cat F2 E2 mulnS.
by rewrite all_cat F3.
Qed.
End Sample.

Section Main.
Variable C : numClosedFieldType.
Variable norm : expr C -> expr C.
Variable order : seq (sym * expr C) -> seq (sym * expr C).
Variable visit : expr C -> seq sym.
Variable terms : poly C -> sym -> seq (nat * expr C).
Variable roots : seq C -> seq C.

(** The points on the lines, for any polynomial object of the value on a line. *)
Lemma sample_line_main (P L : poly C) nm l d ps count lines :
  norm_ok norm -> visit_ok visit -> roots_ok roots ->
  wf_poly P -> uniq (all_symbols P) -> variable_names P = [:: nm] -> variable_indices P = [:: Some l] ->
  (0 < size l)%N -> wf_params line_names (parameters P) -> homogeneous P d ->
  [/\ variable_names L = line_names, variable_indices L = line_inds (size l), parameters L = parameters P, wf_poly L &
    forall rho, value L rho =
      F P nm l [seq rho (merge_subscript (lit "p") i) + rho (lit "t") * rho (merge_subscript (lit "q") i)
        | i <- line_range (size l)] (map rho (parameters P))] ->
  terms_ok L (lit "t") (terms L (lit "t")) -> terms_nonzero (terms L (lit "t")) ->
  size ps = size (parameters P) ->
  let n := size l in
  size (lines (sample_count count n) n) = sample_count count n ->
  all (fun pq => (size pq.1 == n) && (size pq.2 == n)) (lines (sample_count count n) n) ->
  (forall pq, pq \in lines (sample_count count n) n -> F P nm l pq.2 ps != 0) ->
  exists zs, [/\ sample_line norm visit terms roots n L ps count lines = Ok zs,
    size zs = minn count (d * sample_count count n) &
    forall z, z \in zs -> size z = n /\ F P nm l z ps = 0].
Proof.
move=> nk ov or_ wP uP Pn Pi n0 wp hd LF ok_t tn sps n sln al Hq.
have [cs [Ec sc _]] := coeffs_ok nk ov uP Pn Pi n0 wp LF ok_t.
have al' : all (fun pq => [&& size pq.1 == n, size pq.2 == n & F P nm l pq.2 ps != 0])
    (lines (sample_count count n) n).
  apply/allP => pq pql; have /andP[/eqP s1 /eqP s2] := allP al _ pql.
  by rewrite s1 s2 !eqxx /= Hq.
have [pts [E1 E2 E3]] := solve_lines nk ov or_ wP uP Pn Pi n0 wp LF ok_t hd Ec tn sps al'.
exists (take count (flatten pts)); split.
- by rewrite /sample_line Ec /= E1.
- by rewrite size_take_min E2 sln.
by move=> z /mem_take /(allP E3) /andP[/eqP sz /eqP Fz].
Qed.

(** Everything about one sample. *)
Lemma sample_main (P : poly C) n d ps count lines :
  norm_ok norm -> order_ok order -> visit_ok visit -> roots_ok roots ->
  single P n -> (0 < n)%N -> wf_params [:: lit "t"; lit "p"; lit "q"] (parameters P) -> homogeneous P d ->
  (forall L, line_poly norm order visit P = Ok L ->
     terms_ok L (lit "t") (terms L (lit "t")) /\ terms_nonzero (terms L (lit "t"))) ->
  size ps = size (parameters P) ->
  size (lines (sample_count count n) n) = sample_count count n ->
  all (fun pq => (size pq.1 == n) && (size pq.2 == n)) (lines (sample_count count n) n) ->
  (forall pq, pq \in lines (sample_count count n) n ->
     exists2 v, call_num P [:: PArr pq.2; PArr ps] [::] = Ok v & v != 0) ->
  exists zs, [/\ sample_hom norm order visit terms roots P ps count lines = Ok zs,
    size zs = minn count (d * sample_count count n) &
    forall z, z \in zs -> size z = n /\ call_num P [:: PArr z; PArr ps] [::] = Ok 0].
Proof.
move=> nk oo ov or_ [wP uP [nm [l [Pn Pi sl]]]] n0 wp hd ht sps sln al Hq.
subst n; have [L [EL LE1 LE2 LE3 [LE4 LE5]]] := line_poly_ok nk oo ov wP uP Pn Pi n0 wp.
have [ok_t tn] := ht _ EL.
have [|zs [E sz Hz]] := sample_line_main nk ov or_ wP uP Pn Pi n0 wp hd (And5 LE1 LE2 LE3 LE4 LE5) ok_t tn sps sln al.
  move=> pq pql; have /andP[/eqP s1 /eqP s2] := allP al _ pql; have [v] := Hq _ pql.
  by rewrite (call_F wP uP Pn Pi) // => -[->].
exists zs; split=> //; first by rewrite /sample_hom /dim_complex Pi /= EL.
by move=> z /Hz[s1 Fz]; split=> //; rewrite (call_F wP uP Pn Pi) // Fz.
Qed.
End Main.
