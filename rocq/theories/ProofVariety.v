(** Sampling by intersection: the defining polynomial along a line. *)
From Coq Require Import ZArith Lia Ascii String Permutation.
From mathcomp Require Import all_ssreflect all_algebra.
From mathcomp Require Import zify ssrZ ring.
From Verif Require Import Base ModelStr ProofStr ModelExpr ModelPoly SpecPoly SpecUniv SpecHom
  ProofPoly ProofPoly2 ProofPoly3 ProofPoly4 ProofPoly5 ProofPoly7 ProofUniv
  ModelUtil ModelProjective ModelDiff ModelHom ModelVariety SpecVariety.
Delimit Scope Z_scope with Z.

Set Implicit Arguments.
Unset Strict Implicit.
Unset Printing Implicit Defensive.

Import GRing.Theory Num.Theory.
Local Open Scope ring_scope.

Section Subs.
Variable C : numClosedFieldType.
Implicit Types (e : expr C) (d : seq (sym * expr C)).

Lemma esyms_subs d e s : s \in esyms (subs d e) ->
  (s \in esyms e) && (s \notin map fst d) \/ exists k v, List.In (k, v) d /\ s \in esyms v.
Proof.
elim: d e => [|[k v] d IH] e /=; first by move=> ->; left.
rewrite /subs /= -/(subs d _) => /IH[/andP[se nd]|[k' [v' [i sv]]]]; last first.
  by right; exists k', v'; split=> //; right.
have [t te] := esyms_esubst se; case: eqP => [_ sv|nk]; first by right; exists k, v; split=> //; left.
rewrite inE => /eqP Es; rewrite Es in nd *; left; rewrite te /= inE negb_or nd andbT; exact/eqP.
Qed.

Lemma no_I_esubst (f : sym -> expr C) e : no_I e -> (forall s, s \in esyms e -> no_I (f s)) -> no_I (esubst f e).
Proof.
elim/expr_nest_ind: e => [c||s|es IH|es IH|e n IH] //=.
- by move=> _; apply; rewrite inE.
- elim: es IH => [//|a es IHes] IH /= /andP[na nes] H; apply/andP; split.
    by apply: IH => //; [left|move=> s sa; apply: H; rewrite mem_cat sa].
  apply: IHes => //; first by move=> e ei; apply: IH; right.
  by move=> s se; apply: H; rewrite mem_cat se orbT.
- elim: es IH => [//|a es IHes] IH /= /andP[na nes] H; apply/andP; split.
    by apply: IH => //; [left|move=> s sa; apply: H; rewrite mem_cat sa].
  apply: IHes => //; first by move=> e ei; apply: IH; right.
  by move=> s se; apply: H; rewrite mem_cat se orbT.
Qed.

Lemma no_I_subs d e : no_I e -> (forall k v, List.In (k, v) d -> no_I v) -> no_I (subs d e).
Proof.
elim: d e => [//|[k v] d IH] e ne H; rewrite /subs /= -/(subs d _); apply: IH; last first.
  by move=> k' v' i; apply: (H k'); right.
apply: no_I_esubst => // s _; case: eqP => // _; by apply: (H k); left.
Qed.
End Subs.

Definition line_names : seq sym := [:: lit "t"; lit "p"; lit "q"].
Definition line_range (n : nat) : seq Z := [seq Z.of_nat i | i <- iota 0 n].
Definition line_inds (n : nat) : seq (option (seq Z)) :=
  [:: None; Some (line_range n); Some (line_range n)].

Lemma symarray_split c i : alpha c ->
  split_subscript (merge_subscript (c ++ lit "_") (Z.of_nat i)) = Ok (c, Some (Z.of_nat i)).
Proof.
case/andP=> c0 al; rewrite /merge_subscript -catA.
have -> : str_int (Z.of_nat i) = str_nat i.
  rewrite /str_int; case: Z.ltb_spec => //; first by lia.
  by rewrite Nat2Z.id.
by have [d0 ad E] := str_natP i; rewrite -E; apply: split_under_digits.
Qed.

Lemma symarray_notcanon c m (i j : nat) : alpha c -> alpha m ->
  merge_subscript (c ++ lit "_") (Z.of_nat i) != merge_subscript m (Z.of_nat j).
Proof.
move=> ac am; apply/eqP => E; have := symarray_split i ac; rewrite E.
case/andP: (am) => m0 al; rewrite merge_split //; last by lia.
case=> Em Ei; move: E; rewrite Em Ei /merge_subscript -catA => /eqP; rewrite eqseq_cat // eqxx /=.
move: (str_int _) => s /eqP /(congr1 size) /=; lia.
Qed.

Lemma size_symarray c n : size (symarray c n) = n.
Proof. by rewrite size_map size_iota. Qed.

Lemma nth_symarray c n i : (i < n)%N ->
  nth [::] (symarray c n) i = merge_subscript (c ++ lit "_") (Z.of_nat i).
Proof. by move=> ni; rewrite (nth_map 0%N) ?size_iota // nth_iota. Qed.

Lemma mem_symarray c n s : s \in symarray c n ->
  exists2 i, (i < n)%N & s = merge_subscript (c ++ lit "_") (Z.of_nat i).
Proof. by case/mapP=> i; rewrite mem_iota add0n => /andP[_ ni] ->; exists i. Qed.

Lemma rseq_ok_map (T U : Type) (f : T -> res U) (g : T -> U) (s : seq T) :
  (forall x, List.In x s -> f x = Ok (g x)) -> rseq (map f s) = Ok (map g s).
Proof.
elim: s => [//|x s IH] H /=; rewrite H /=; last by left.
by rewrite IH // => y ys; apply: H; right.
Qed.

Lemma symarray_name_ok c n : alpha c -> (0 < n)%N -> symarray_name (symarray c n) = Ok c.
Proof. by case: n => // n ac _; rewrite /symarray_name /= (symarray_split 0). Qed.

Lemma symarray_indices_ok c n : alpha c -> symarray_indices (symarray c n) = Ok (Some (line_range n)).
Proof.
move=> ac; rewrite /symarray_indices /symarray -map_comp.
rewrite (@rseq_ok_map _ _ _ (fun i => (c, Some (Z.of_nat i)))); last first.
  by move=> i _; exact: symarray_split.
rewrite /= size_map size_iota; case: ifPn => [/andP[]|_].
  by case: n => [|[|n]].
by rewrite -map_comp (@rseq_ok_map _ _ _ (fun i => Z.of_nat i)).
Qed.

Lemma line_wf n : wf_vars line_names (line_inds n).
Proof.
split=> //=; rewrite andbT andbb; apply/allP => i /mapP[j _ ->]; lia.
Qed.

Section Line.
Variable C : numClosedFieldType.
Variable norm : expr C -> expr C.
Variable order : seq (sym * expr C) -> seq (sym * expr C).
Variable visit : expr C -> seq sym.
Hypotheses (nk : norm_ok norm) (ok_order : order_ok order) (ok_visit : visit_ok visit).
Implicit Types (rho : sym -> C).

Variables (P : poly C) (nm : sym) (l : seq Z).
Hypotheses (wP : wf_poly P) (uP : uniq (all_symbols P)).
Hypotheses (Pn : variable_names P = [:: nm]) (Pi : variable_indices P = [:: Some l]).
Hypothesis l0 : (0 < size l)%N.
Hypothesis wp : wf_params line_names (parameters P).

Let n := size l.
Let vs := [seq merge_subscript nm i | i <- l].
Let par := parameters P.

Lemma all_syms_single : all_symbols P = vs ++ par.
Proof. by rewrite /all_symbols Pn Pi /var_symbols /= cats0. Qed.

Lemma uniq_vs : uniq vs /\ uniq par.
Proof. by move: uP; rewrite all_syms_single cat_uniq => /and3P[]. Qed.

Lemma par_notin_vs s : s \in par -> s \notin vs.
Proof.
by move: uP; rewrite all_syms_single cat_uniq => /and3P[_ /hasPn H _] /H.
Qed.

Lemma size_vs : size vs = n.
Proof. by rewrite size_map. Qed.

Lemma alpha_nm : alpha nm.
Proof. by case: wP => -[_ al _ _] _ _; move: al; rewrite Pn /= andbT. Qed.

Lemma vs_form s : s \in vs -> exists i : nat, s = merge_subscript nm (Z.of_nat i).
Proof.
case: wP => -[_ _ _ nn] _ _; move: nn; rewrite Pi /= andbT => /allP nn.
case/mapP=> i il ->; exists (Z.to_nat i); congr merge_subscript; have := nn _ il; lia.
Qed.

(** Values: coordinates and parameters as vectors. *)
Definition asg (z ps : seq C) (s : sym) : C :=
  if s \in vs then nth 0 z (index s vs) else nth 0 ps (index s par).
Definition F (z ps : seq C) : C := value P (asg z ps).

Lemma asg_vs z ps : size z = n -> map (asg z ps) vs = z.
Proof.
move=> sz; apply: (@eq_from_nth _ 0); rewrite size_map size_vs // => i ni.
rewrite (nth_map [::]) ?size_vs // /asg mem_nth ?size_vs // index_uniq ?size_vs //.
by have [] := uniq_vs.
Qed.

Lemma asg_par z ps : size ps = size par -> map (asg z ps) par = ps.
Proof.
move=> sz; apply: (@eq_from_nth _ 0); rewrite size_map // => i ni.
rewrite (nth_map [::]) // /asg (negbTE (par_notin_vs (mem_nth _ _))) // index_uniq //.
by have [] := uniq_vs.
Qed.

Lemma call_F z ps : size z = n -> size ps = size par ->
  call_num P [:: PArr z; PArr ps] [::] = Ok (F z ps).
Proof.
move=> sz sp; rewrite -(call_value (asg z ps) (fun=> [::]) wP) /var_inputs Pn Pi /= /var_input /= cats0.
rewrite /par_input asg_par //; congr (call_num _ [:: PArr _; _] _).
by rewrite -[LHS](asg_vs ps sz) /vs -map_comp.
Qed.

Lemma value_F rho : value P rho = F (map rho vs) (map rho par).
Proof.
case: (wP) => _ _ [g [e [E se _]]]; rewrite /F /value E; apply: eq_sem => s /se.
rewrite all_syms_single mem_cat /asg; case: ifP => [sv _|_ /= sp].
  by rewrite (nth_map [::]) ?nth_index // index_mem.
by rewrite (nth_map [::]) ?nth_index // index_mem.
Qed.

Lemma F_scale d x z ps : homogeneous P d -> size z = n -> F (scale x z) ps = x ^+ d * F z ps.
Proof.
move=> hd sz; case: (wP) => _ _ [g [e [E se _]]]; rewrite /F -hd /value E; apply: eq_sem => s /se.
have -> : var_symbols (variable_names P) (variable_indices P) = vs by rewrite Pn Pi /var_symbols /= cats0.
rewrite /asg; case: ifP => // sv _; rewrite /scale (nth_map 0) // sz -size_vs index_mem //.
Qed.

(** The replacements. *)
Definition fl (s : sym) : expr C := nth (ESym s) (line_exprs C n) (index s vs).

Lemma size_line : size (line_exprs C n) = n.
Proof. by rewrite size_map size_zip !size_symarray minnn. Qed.

Lemma nth_line d i : (i < n)%N -> nth d (line_exprs C n) i =
  EAdd [:: ESym (merge_subscript (lit "p_") (Z.of_nat i));
           EMul [:: ESym (lit "t"); ESym (merge_subscript (lit "q_") (Z.of_nat i))]].
Proof.
move=> ni; rewrite (nth_map ([::], [::])) ?size_zip ?size_symarray ?minnn //.
rewrite nth_zip ?size_symarray //= !nth_symarray //.
Qed.

Lemma fl_vs : map fl vs = line_exprs C n.
Proof.
apply: (@eq_from_nth _ (ENum 0)); rewrite size_map size_vs ?size_line // => i ni.
rewrite (nth_map [::]) ?size_vs // /fl index_uniq ?size_vs //; last by have [] := uniq_vs.
by apply: set_nth_default; rewrite size_line.
Qed.

Lemma fl_par s : s \in par -> fl s = ESym s.
Proof.
move=> /par_notin_vs; rewrite -index_mem -leqNgt => H.
by rewrite /fl nth_default // size_line -size_vs.
Qed.

Lemma line_sym_in s t : s \in vs -> t \in esyms (fl s) ->
  t = lit "t" \/ exists2 i, (i < n)%N &
    t = merge_subscript (lit "p_") (Z.of_nat i) \/ t = merge_subscript (lit "q_") (Z.of_nat i).
Proof.
move=> sv; have iv : (index s vs < n)%N by rewrite -size_vs index_mem.
rewrite /fl nth_line //= !inE => /or3P[] /eqP ->; [right|by left|right].
  by exists (index s vs) => //; left.
by exists (index s vs) => //; right.
Qed.

Lemma sym_t_notin : lit "t" \notin all_symbols P.
Proof.
rewrite all_syms_single mem_cat negb_or; apply/andP; split; apply/negP.
  case/vs_form=> i E; have := f_equal split_subscript E.
  by case/andP: alpha_nm => m0 al; rewrite merge_split //; lia.
by case/wp=> m [j]; rewrite -[split_subscript _]/(Ok (lit "t", None)) => -[<- _]; rewrite inE eqxx.
Qed.

Lemma sym_arr_notin c i : alpha c -> c \in line_names ->
  merge_subscript (c ++ lit "_") (Z.of_nat i) \notin all_symbols P.
Proof.
move=> ac cn; rewrite all_syms_single mem_cat negb_or; apply/andP; split; apply/negP.
  by case/vs_form=> j /eqP; rewrite (negbTE (symarray_notcanon _ _ ac alpha_nm)).
by case/wp=> m [j]; rewrite symarray_split // => -[<- _]; rewrite cn.
Qed.

Lemma fl_fresh s t : s \in vs -> t \in esyms (fl s) -> t \notin all_symbols P.
Proof.
move=> sv /(line_sym_in sv)[->|[i ni [->|->]]]; first exact: sym_t_notin.
  exact: (@sym_arr_notin (lit "p")).
exact: (@sym_arr_notin (lit "q")).
Qed.


Lemma fl_stable s t : s \in all_symbols P -> t \in esyms (fl s) -> t \in all_symbols P -> fl t = ESym t.
Proof.
move=> sa; have : s \in vs ++ par by rewrite -all_syms_single.
rewrite mem_cat => /orP[sv /(fl_fresh sv) /negbTE -> //|sp].
by rewrite fl_par //= inE => /eqP -> _; exact: fl_par.
Qed.

Lemma sem_fl rho i : (i < n)%N ->
  sem rho (fl (nth [::] vs i)) = rho (merge_subscript (lit "p_") (Z.of_nat i)) +
     rho (lit "t") * rho (merge_subscript (lit "q_") (Z.of_nat i)).
Proof.
move=> ni; rewrite /fl index_uniq ?size_vs //; last by have [] := uniq_vs.
by rewrite nth_line //= !big_cons !big_nil addr0 mulr1.
Qed.

Lemma canon_line : canonical line_names par (lit "t") = lit "t".
Proof. by rewrite /canonical; case: ifP. Qed.

Lemma canon_arr c i : alpha c -> c \in line_names ->
  canonical line_names par (merge_subscript (c ++ lit "_") (Z.of_nat i)) = merge_subscript c (Z.of_nat i).
Proof.
move=> ac cn; rewrite /canonical; case: ifP => [sp|_]; last by rewrite symarray_split // cn.
by have := sym_arr_notin i ac cn; rewrite all_syms_single mem_cat sp orbT.
Qed.

Lemma canon_par s : s \in par -> canonical line_names par s = s.
Proof. by rewrite /canonical => ->. Qed.

Definition line_sym (s : sym) : Prop :=
  s \in par \/ s = lit "t" \/ exists2 i, (i < n)%N &
    s = merge_subscript (lit "p_") (Z.of_nat i) \/ s = merge_subscript (lit "q_") (Z.of_nat i).

Lemma line_var_symbols : var_symbols line_names (line_inds n) =
  lit "t" :: [seq merge_subscript (lit "p") i | i <- line_range n] ++
  [seq merge_subscript (lit "q") i | i <- line_range n].
Proof. by rewrite /var_symbols /= cats0. Qed.

Lemma line_range_mem i : (i < n)%N -> Z.of_nat i \in line_range n.
Proof. by move=> ni; rewrite map_f // mem_iota add0n. Qed.

Lemma line_sym_canon s : line_sym s ->
  canonical line_names par s \in var_symbols line_names (line_inds n) ++ par.
Proof.
rewrite mem_cat line_var_symbols; case=> [sp|[->|[i ni [->|->]]]].
- by rewrite canon_par // sp orbT.
- by rewrite canon_line.
- rewrite (@canon_arr (lit "p")) // inE mem_cat.
  by rewrite (map_f (merge_subscript (lit "p")) (line_range_mem ni)) orbT.
- rewrite (@canon_arr (lit "q")) // inE mem_cat.
  by rewrite (map_f (merge_subscript (lit "q")) (line_range_mem ni)) !orbT.
Qed.

Lemma line_sym_fits s : line_sym s -> fits_idx line_names par true (line_inds n) s.
Proof.
rewrite /fits_idx; case=> [->//|[->|[i ni [->|->]]]]; apply/orP; right=> //.
- by rewrite (@symarray_split (lit "p")) //=; exact: line_range_mem.
- by rewrite (@symarray_split (lit "q")) //=; exact: line_range_mem.
Qed.

Lemma merge_inj m (i j : Z) : alpha m -> (0 <= i)%Z -> (0 <= j)%Z ->
  merge_subscript m i = merge_subscript m j -> i = j.
Proof.
case/andP=> m0 al i0 j0 /(f_equal split_subscript).
by rewrite !merge_split // => -[].
Qed.

Lemma line_uniq : uniq (var_symbols line_names (line_inds n) ++ par).
Proof.
have un c : alpha c -> uniq [seq merge_subscript c i | i <- line_range n].
  move=> ac; rewrite map_inj_in_uniq ?map_inj_in_uniq ?iota_uniq //.
    by move=> i j _ _; lia.
  by move=> i j /mapP[i' _ ->] /mapP[j' _ ->]; apply: merge_inj => //; lia.
have mem c s : alpha c -> s \in [seq merge_subscript c i | i <- line_range n] ->
   exists i, split_subscript s = Ok (c, Some i).
  case/andP=> c0 al /mapP[_ /mapP[i _ ->] ->]; exists (Z.of_nat i); rewrite merge_split //; lia.
rewrite line_var_symbols cat_uniq (proj2 uniq_vs) andbT; apply/andP; split; last first.
  apply/hasPn => s sp /=; apply/negP; have [m [j E] mN] := wp sp.
  rewrite inE mem_cat => /or3P[/eqP Es|sm|sm].
  - by move: E mN; rewrite Es => -[<- _].
  - by have [//|i] := mem (lit "p") s _ sm; rewrite E => -[Em _]; rewrite Em in mN.
  - by have [//|i] := mem (lit "q") s _ sm; rewrite E => -[Em _]; rewrite Em in mN.
rewrite cons_uniq cat_uniq !un // andbT mem_cat negb_or; apply/andP; split.
  apply/andP; split; apply/negP.
    by move=> /(mem (lit "p"))[].
  by move=> /(mem (lit "q"))[].
apply/hasPn => s /(mem (lit "q"))[//|i Ei]; apply/negP => /(mem (lit "p"))[//|j].
by rewrite Ei.
Qed.

Lemma line_of_ok e : (forall s, s \in esyms e -> line_sym s) ->
  (forall rho, sem rho e = value P (fun s => sem rho (fl s))) ->
  exists L, [/\ line_poly_of norm visit n e par = Ok L,
    variable_names L = line_names, variable_indices L = line_inds n, parameters L = par &
    (no_I e -> wf_poly L) /\ forall rho, value L rho =
      F [seq rho (merge_subscript (lit "p") i) + rho (lit "t") * rho (merge_subscript (lit "q") i)
        | i <- line_range n] (map rho par)].
Proof.
move=> syms_e sem_e.
have [us es] := ok_visit e.
have sub : {subset esyms e <= visit e} by move=> s; rewrite es.
pose L := MkPoly line_names (line_inds n) par (SPoly (var_symbols line_names (line_inds n))
  (norm (esubst (fun s => ESym (canon line_names par s)) e))).
have EL : from_sympy norm e (visit e) (Some line_names) (Some par) (Some (line_inds n)) = Ok L.
  apply/(@fs_hi C norm e (visit e) line_names (Some par) (line_inds n) _ us sub); split=> //=.
    by apply/allP => s; rewrite es => /syms_e; exact: line_sym_fits.
  eexists; last by [].
  rewrite /sympy_Poly esyms_ren line_uniq.
  case: ifP => // /negP[]; apply/and3P; split=> //.
  by apply/allP => s /mapP[t /syms_e tl ->]; rewrite canon_canonical; exact: line_sym_canon.
have EL2 : line_poly_of norm visit n e par = Ok L.
  rewrite /line_poly_of /from_symarrays.
  have -> : rseq (map symarray_name [:: [:: lit "t"]; symarray (lit "p") n; symarray (lit "q") n]) = Ok line_names.
    by rewrite [map _ _]/= !symarray_name_ok.
  have -> : rseq (map symarray_indices [:: [:: lit "t"]; symarray (lit "p") n; symarray (lit "q") n]) = Ok (line_inds n).
    by rewrite [map _ _]/= !symarray_indices_ok.
  by [].
exists L; split=> //; split.
  move=> nI_e; have [_ nsub nIn] := nk; split=> //; first exact: line_wf.
  do 2 eexists; split; first by [].
    move=> s /nsub; rewrite esyms_ren => /mapP[t /syms_e tl ->].
    by rewrite canon_canonical; exact: line_sym_canon.
  by apply: nIn; rewrite no_I_ren.
move=> rho; rewrite (from_sympy_value rho nk us es EL) sem_e value_F -!map_comp.
congr F.
  apply: (@eq_from_nth _ 0); rewrite !size_map ?size_iota // => i ni.
  rewrite (nth_map 0%Z) ?size_map // (nth_map 0%N) ?size_iota // nth_iota // add0n /=.
  have -> : merge_subscript nm (nth 0%Z l i) = nth [::] vs i by rewrite (nth_map 0%Z).
  by rewrite sem_fl // canon_line (@canon_arr (lit "p")) // (@canon_arr (lit "q")).
by apply/eq_in_map => s sp /=; rewrite fl_par //= canon_par.
Qed.

Lemma line_poly_ok : exists L, [/\ line_poly norm order visit P = Ok L,
    variable_names L = line_names, variable_indices L = line_inds n, parameters L = par &
    wf_poly L /\ forall rho, value L rho =
      F [seq rho (merge_subscript (lit "p") i) + rho (lit "t") * rho (merge_subscript (lit "q") i)
        | i <- line_range n] (map rho par)].
Proof.
have sz : size (variable_names P) = size (variable_indices P) by rewrite Pn Pi.
have Es : sym_inputs P fl = [:: line_exprs C n].
  by rewrite /sym_inputs Pn Pi /= -/vs fl_vs.
have Ep : map fl (parameters P) = [seq ESym s | s <- parameters P].
  by apply/eq_in_map => s; exact: fl_par.
have [e Ee sem_e] : exists2 e, call_sym P [:: line_exprs C n] (Some [seq ESym s | s <- par]) order = Ok e &
    forall rho, sem rho e = value P (fun s => sem rho (fl s)).
  have [e Ee _] := call_sym_value (fun=> 0) wP uP ok_order fl_stable.
  exists e => [|rho]; first by rewrite -Es -Ep.
  have [e'] := call_sym_value rho wP uP ok_order fl_stable.
  by rewrite Ee => -[->].
have [_ _ [g [eP [EP seP nIP]]]] := wP.
have Ee2 : e = subs (order [seq (s, fl s) | s <- all_symbols P]) eP.
  by move: Ee; rewrite -Es -Ep call_symE // EP => -[].
have pg := ok_order [seq (s, fl s) | s <- all_symbols P].
have graph k v : List.In (k, v) (order [seq (s, fl s) | s <- all_symbols P]) -> k \in vs ++ par /\ v = fl k.
  move=> ik; have ik' := Permutation_in _ (Permutation_sym pg) ik.
  by have [ka Ev] := In_graph ik'; rewrite -all_syms_single.
have syms_e s : s \in esyms e -> line_sym s.
  rewrite Ee2 => /esyms_subs[/andP[/seP sa /negP[]]|[k [v [/graph[ka ->]]]]].
    rewrite -(perm_mem (Perm_map_fst pg)) -map_comp map_id //.
  move: ka; rewrite mem_cat => /orP[kv /(line_sym_in kv) H|kp].
    by right.
  by rewrite fl_par // inE => /eqP ->; left.
have nI_e : no_I e.
  rewrite Ee2; apply: no_I_subs => // k v /graph[+ ->]; rewrite mem_cat => /orP[kv|kp].
    by rewrite /fl nth_line // -size_vs index_mem.
  by rewrite fl_par.
have [L [EL E1 E2 E3 [E4 E5]]] := line_of_ok syms_e sem_e.
by exists L; split=> //; [rewrite /line_poly /dim_complex Pi /= -/n Ee|split=> //; exact: E4].
Qed.
End Line.
