(** Patch numbers, affine polynomials and their cache. *)
From Coq Require Import ZArith Lia Ascii String.
From mathcomp Require Import all_ssreflect all_algebra.
From mathcomp Require Import zify ssrZ ring.
From Verif Require Import Base ModelUtil ProofUtil ModelProjective ModelStr ProofStr ModelExpr
  ModelPoly SpecPoly ProofPoly ProofPoly2 ProofPoly3 ProofPoly4 ProofPoly5 ProofPoly6 ModelHom SpecHom.
Delimit Scope Z_scope with Z.

Set Implicit Arguments.
Unset Strict Implicit.
Unset Printing Implicit Defensive.

Import GRing.Theory Num.Theory.
Local Open Scope ring_scope.

(** ** Patch numbers *)
Lemma valid_cons d dims p patch : valid_patch (d :: dims) (p :: patch) =
  [&& (0 <=? p)%Z, (p <? Z.of_nat d)%Z & valid_patch dims patch].
Proof.
by rewrite /valid_patch /= eqSS; case: (0 <=? p)%Z; case: (p <? _)%Z; rewrite //= ?andbF.
Qed.

Lemma upi_fold s (a m : Z) :
  (foldl (fun im pd => (im.1 + pd.1 * im.2, im.2 * Z.of_nat pd.2)) (a, m) s).1%Z =
  (a + m * (foldl (fun im (pd : Z * nat) => (im.1 + pd.1 * im.2, im.2 * Z.of_nat pd.2)) (0, 1) s).1)%Z.
Proof.
elim: s a m => [|[p d] s IH] a m /=; first by lia.
have -> : (match Z.of_nat d with 0 => 0 | Z.pos y => Z.pos y | Z.neg y => Z.neg y end = Z.of_nat d)%Z.
  by case: (Z.of_nat d).
rewrite IH [in RHS]IH; nia.
Qed.

Lemma upi_cons d dims p patch : unique_patch_index (d :: dims) (p :: patch) =
  (p + Z.of_nat d * unique_patch_index dims patch)%Z.
Proof.
rewrite /unique_patch_index /= upi_fold.
have -> : (match Z.of_nat d with 0 => 0 | Z.pos y => Z.pos y | Z.neg y => Z.neg y end = Z.of_nat d)%Z.
  by case: (Z.of_nat d).
by rewrite Z.mul_1_r.
Qed.

Lemma upi_sum dims patch : size patch = size dims ->
  unique_patch_index dims patch =
  \sum_(k < size dims) nth 0%Z patch k * Z.of_nat (\prod_(j < k) nth 0%N dims j).
Proof.
elim: dims patch => [|d dims IH] [|p patch] //=; first by rewrite big_ord0.
case=> sz; rewrite upi_cons IH // big_ord_recl /= big_ord0 mulr1; congr (_ + _).
transitivity (Z.of_nat d * \sum_(k < size dims)
   nth 0%Z patch k * Z.of_nat (\prod_(j < k) nth 0%N dims j)) => //.
rewrite big_distrr /=; apply: eq_bigr => k _.
rewrite /bump /= add1n /= big_ord_recl /= Nat2Z.inj_mul.
by rewrite mulrCA.
Qed.

Lemma upi_range dims patch : valid_patch dims patch ->
  (0 <= unique_patch_index dims patch < Z.of_nat (\prod_(d <- dims) d)%N)%Z.
Proof.
elim: dims patch => [|d dims IH] [|p patch] //=; first by rewrite big_nil.
rewrite valid_cons upi_cons big_cons Nat2Z.inj_mul => /and3P[p0 pd /IH].
move: (unique_patch_index _ _) => u; move: (BigOp.bigop _ _ _) => m; nia.
Qed.

Lemma upi_inj dims p q : valid_patch dims p -> valid_patch dims q ->
  unique_patch_index dims p = unique_patch_index dims q -> p = q.
Proof.
elim: dims p q => [|d dims IH] [|p ps] [|q qs] //=; rewrite !valid_cons !upi_cons.
move=> /and3P[p0 pd vp] /and3P[q0 qd vq] E.
have Epq : p = q /\ unique_patch_index dims ps = unique_patch_index dims qs.
  suff [] : unique_patch_index dims ps = unique_patch_index dims qs /\ p = q by [].
  by apply: (Z.div_mod_unique (Z.of_nat d)); lia.
by case: Epq => -> /IH ->.
Qed.

Lemma upi_onto dims k : (0 <= k < Z.of_nat (\prod_(d <- dims) d)%N)%Z ->
  exists2 p, valid_patch dims p & unique_patch_index dims p = k.
Proof.
elim: dims k => [|d dims IH] k; first by rewrite big_nil => H; exists [::] => //; rewrite /unique_patch_index /=; lia.
rewrite big_cons Nat2Z.inj_mul => H.
have d0 : (0 < Z.of_nat d)%Z by nia.
have [|p vp Ep] := IH (k / Z.of_nat d)%Z.
  split; first by apply: Z.div_pos; lia.
  by apply: Z.div_lt_upper_bound; lia.
exists (k mod Z.of_nat d :: p)%Z; last first.
  by rewrite upi_cons Ep; have := Z.div_mod k (Z.of_nat d); lia.
rewrite valid_cons vp andbT; have := Z.mod_pos_bound k _ d0; lia.
Qed.

(** ** Setting one coordinate of every variable to 1 *)
Section Affine.
Variable C : numClosedFieldType.
Variable norm : expr C -> expr C.
Hypothesis nk : norm_ok norm.
Implicit Types (P : poly C) (rho : sym -> C) (e : expr C).

Lemma sem_subs1 rho s e : sem rho (subs1 s (ENum 1) e) = sem (set1 [:: s] rho) e.
Proof.
by rewrite /subs1 sem_esubst; apply: eq_sem => t _; rewrite /set1 inE; case: eqP.
Qed.

Lemma esyms_subs1 s e t : t \in esyms (subs1 s (ENum 1) e) -> t \in esyms e /\ t != s.
Proof.
case/esyms_esubst => u ue; case: eqP => [_|us] //=; rewrite inE => /eqP ->.
by split=> //; apply/eqP.
Qed.

Lemma no_I_esubst (f : sym -> expr C) e : (forall s, no_I (f s)) -> no_I e -> no_I (esubst f e).
Proof.
move=> nf; elim/expr_nest_ind: e => //= es IH.
- by elim: es IH => //= a es IH' IH /andP[na ne]; rewrite IH ?IH' //; auto.
- by elim: es IH => //= a es IH' IH /andP[na ne]; rewrite IH ?IH' //; auto.
Qed.

Lemma no_I_subs1 s e : no_I e -> no_I (subs1 s (ENum 1) e).
Proof. by apply: no_I_esubst => t; case: eqP. Qed.

Definition sub_syms (nps : seq (sym * Z)) : seq sym :=
  [seq merge_subscript np.1 np.2 | np <- nps].

Lemma subs_ones g e nps : uniq g -> uniq (sub_syms nps) -> {subset sub_syms nps <= g} ->
  has (fun s => s \notin sub_syms nps) g ->
  exists e', [/\ foldl (subs_one norm) (SPoly g e) nps = SPoly [seq s <- g | s \notin sub_syms nps] e',
    (forall rho, sem rho e' = sem (set1 (sub_syms nps) rho) e),
    (forall s, s \in esyms e' -> s \in esyms e /\ s \notin sub_syms nps) &
    (no_I e -> no_I e')].
Proof.
elim: nps g e => [|[n p] nps IH] g e ug /=.
  move=> _ _ _; exists e; split=> //.
  by rewrite (eq_filter (a2 := predT)) ?filter_predT.
set s := merge_subscript n p; move=> /andP[sn un] sg hg.
rewrite sg ?mem_head // rem_filter //.
have Eh : has (fun t => t \notin sub_syms nps) [seq x <- g | predC1 s x].
  rewrite has_filter -filter_predI -has_filter; case/hasP: hg => x xg; rewrite inE negb_or => /andP[a b].
  by apply/hasP; exists x => //=; rewrite a b.
case Ef: [seq x <- g | predC1 s x] => [|y ys]; first by rewrite Ef in Eh.
rewrite -Ef; have [ns nsub nI] := nk.
have [||||e' [-> H1 H2 H3]] := IH [seq x <- g | predC1 s x] (norm (subs1 s (ENum 1) e)).
- exact: filter_uniq.
- exact: un.
- move=> t ts; rewrite mem_filter sg ?inE ?ts ?orbT // andbT /=; apply: contraNneq sn => <-; exact: ts.
- exact: Eh.
exists e'; split.
- rewrite -filter_predI; congr SPoly; apply: eq_filter => x /=; rewrite inE negb_or; exact: andbC.
- move=> rho; rewrite H1 ns sem_subs1; apply: eq_sem => t _; rewrite /set1 !inE.
  by case: eqP => //= ->.
- by move=> t /H2[/nsub /esyms_subs1[te ts] tn]; rewrite inE negb_or ts te tn.
- by move=> ni; apply/H3/nI/no_I_subs1.
Qed.

(** The index lists of a homogeneous polynomial. *)
Lemma merge_inj n m i j : alpha n -> alpha m -> (0 <= i)%Z -> (0 <= j)%Z ->
  merge_subscript n i = merge_subscript m j -> n = m /\ i = j.
Proof.
move=> /andP[n0 an] /andP[m0 am] i0 j0 E.
have := merge_split n0 an i0; rewrite E merge_split // => -[-> ->]; by split.
Qed.

(** Names, index lists and patch together. *)
Fixpoint zip3 (ns : seq sym) (ls : seq (seq Z)) (ps : seq Z) : seq (sym * seq Z * Z) :=
  match ns, ls, ps with
  | n :: ns, l :: ls, p :: ps => (n, l, p) :: zip3 ns ls ps
  | _, _, _ => [::]
  end.

Definition good3 (t : sym * seq Z * Z) : bool :=
  [&& alpha t.1.1, all (Z.leb 0) t.1.2 & t.2 \in t.1.2].

Definition P_of3 (ts : seq (sym * seq Z * Z)) (params : seq sym) (sp : spoly C) : poly C :=
  MkPoly [seq t.1.1 | t <- ts] [seq Some t.1.2 | t <- ts] params sp.

Lemma zip3_maps ns ls ps : size ns = size ls -> size ps = size ls ->
  [/\ [seq t.1.1 | t <- zip3 ns ls ps] = ns, [seq t.1.2 | t <- zip3 ns ls ps] = ls &
      [seq t.2 | t <- zip3 ns ls ps] = ps].
Proof.
elim: ns ls ps => [|n ns IH] [|l ls] [|p ps] //= [s1] [s2].
by have [-> -> ->] := IH _ _ s1 s2.
Qed.

Lemma all_good3 ns ls ps : size ns = size ls -> size ps = size ls ->
  all alpha ns -> all (fun l => all (Z.leb 0) l) ls -> all (fun lp => lp.2 \in lp.1) (zip ls ps) ->
  all good3 (zip3 ns ls ps).
Proof.
elim: ns ls ps => [|n ns IH] [|l ls] [|p ps] //= [s1] [s2].
by rewrite /good3 /= => /andP[-> a] /andP[-> b] /andP[-> c]; apply: IH.
Qed.

Section Fixed.
Variables (ts : seq (sym * seq Z * Z)) (params : seq sym) (e : expr C).
Let g := var_symbols [seq t.1.1 | t <- ts] [seq Some t.1.2 | t <- ts].
Let P := P_of3 ts params (SPoly g e).
Let patch := [seq t.2 | t <- ts].
Let ss := [seq merge_subscript t.1.1 t.2 | t <- ts].
Hypothesis gt : all good3 ts.
Hypothesis un : uniq [seq t.1.1 | t <- ts].
Hypothesis wp : wf_params [seq t.1.1 | t <- ts] params.
Hypothesis se : {subset esyms e <= g ++ params}.
Hypothesis nI : no_I e.
Hypothesis ug : uniq g.
Hypothesis ne : has (fun t => has (fun i => i != t.2) t.1.2) ts.

Lemma gE : g = flatten [seq [seq merge_subscript t.1.1 i | i <- t.1.2] | t <- ts].
Proof. by rewrite /g /var_symbols; elim: (ts) => //= t l ->. Qed.

Lemma gP s : reflect (exists2 t, t \in ts & exists2 i, i \in t.1.2 & s = merge_subscript t.1.1 i)
  (s \in g).
Proof.
rewrite gE; apply: (iffP flatten_mapP) => [[t ti /mapP[i it ->]]|[t ti [i it ->]]]; exists t => //.
  by exists i.
exact: map_f.
Qed.

Lemma ts_inj t u : t \in ts -> u \in ts -> t.1.1 = u.1.1 -> t = u.
Proof.
move=> ti ui E; rewrite -(nth_index t ti) -(nth_index t ui); congr nth.
apply/eqP; rewrite -(nth_uniq [::] _ _ un) ?size_map ?index_mem //.
by rewrite !(nth_map t) ?index_mem // !nth_index // E.
Qed.

Lemma ssP t i : t \in ts -> i \in t.1.2 -> (merge_subscript t.1.1 i \in ss) = (i == t.2).
Proof.
move=> ti it; apply/idP/eqP => [|->]; last by apply: map_f.
case/mapP => u ui E.
have /and3P[at_ lt pt] := allP gt _ ti; have /and3P[au lu pu] := allP gt _ ui.
have [En Ei] := merge_inj at_ au (elimT (Z.leb_spec0 _ _) (allP lt _ it))
  (elimT (Z.leb_spec0 _ _) (allP lu _ pu)) E.
by rewrite Ei (ts_inj ti ui En).
Qed.

Lemma ss_uniq : uniq ss.
Proof.
rewrite map_inj_in_uniq ?(map_uniq un) // => t u ti ui E; apply: ts_inj => //.
have /and3P[at_ lt pt] := allP gt _ ti; have /and3P[au lu pu] := allP gt _ ui.
by have [] := merge_inj at_ au (elimT (Z.leb_spec0 _ _) (allP lt _ pt))
  (elimT (Z.leb_spec0 _ _) (allP lu _ pu)) E.
Qed.

Lemma affine_build3 : exists e',
  [/\ affine_build norm P patch =
        MkPoly [seq t.1.1 | t <- ts] [seq Some [seq i <- t.1.2 | i != t.2] | t <- ts] params
          (SPoly [seq s <- g | s \notin ss] e'),
      (forall rho, sem rho e' = sem (set1 ss rho) e) &
      wf_poly (affine_build norm P patch)].
Proof.
have Enp : zip [seq t.1.1 | t <- ts] patch = [seq (t.1.1, t.2) | t <- ts] by exact: zip_map.
have Ess : sub_syms (zip [seq t.1.1 | t <- ts] patch) = ss by rewrite Enp /sub_syms -map_comp.
have [|||e' []] := @subs_ones g e (zip [seq t.1.1 | t <- ts] patch) ug.
- by rewrite Ess ss_uniq.
- rewrite Ess => s /mapP[t ti ->]; apply/gP; exists t => //; exists t.2 => //.
  by have /and3P[] := allP gt _ ti.
- rewrite Ess; case/hasP: ne => t ti /hasP[i it ip]; apply/hasP.
  exists (merge_subscript t.1.1 i); first by apply/gP; exists t => //; exists i.
  by rewrite ssP.
rewrite Ess => E1 E2 E3 E4; exists e'.
have Ei : [seq (if ip.1 is Some ind then Some [seq i <- ind | i != ip.2] else None)
                 | ip <- zip [seq Some t.1.2 | t <- ts] patch] =
          [seq Some [seq i <- t.1.2 | i != t.2] | t <- ts].
  by rewrite zip_map -map_comp.
have Eb : affine_build norm P patch =
   MkPoly [seq t.1.1 | t <- ts] [seq Some [seq i <- t.1.2 | i != t.2] | t <- ts] params
          (SPoly [seq s <- g | s \notin ss] e') by rewrite /affine_build /= E1 Ei.
split=> //; rewrite Eb; split=> //=.
- split=> //=.
  + by apply/allP => n /mapP[t ti ->]; have /and3P[] := allP gt _ ti.
  + by rewrite !size_map.
  + rewrite all_map; apply/allP => t ti /=; apply/allP => i; rewrite mem_filter => /andP[_].
    by have /and3P[_ /allP H _] := allP gt _ ti; apply: H.
- exists [seq s <- g | s \notin ss], e'; split=> //; last exact: E4.
  move=> s /E3[/se]; rewrite /all_symbols /= !mem_cat => /orP[|-> _]; last by rewrite orbT.
  case/gP => t ti [i it ->]; rewrite ssP // => ip; apply/orP; left.
  rewrite /var_symbols zip_map -map_comp; apply/flatten_mapP; exists t => //=.
  by apply: map_f; rewrite mem_filter ip.
Qed.

Lemma g_filter : [seq s <- g | s \notin ss] =
  var_symbols [seq t.1.1 | t <- ts] [seq Some [seq i <- t.1.2 | i != t.2] | t <- ts].
Proof.
rewrite gE filter_flatten -map_comp /var_symbols zip_map -[in RHS]map_comp; congr flatten.
apply/eq_in_map => t ti /=; rewrite filter_map; congr map.
by apply: eq_in_filter => i it /=; rewrite ssP.
Qed.
End Fixed.

(** A homogeneous polynomial object. *)
Lemma hom_ts P patch : hom_ok P -> patch_in P patch -> remains P patch ->
  exists ts e,
  let g := var_symbols [seq t.1.1 | t <- ts] [seq Some t.1.2 | t <- ts] in
  [/\ P = P_of3 ts (parameters P) (SPoly g e), patch = [seq t.2 | t <- ts],
      patch_syms P patch = [seq merge_subscript t.1.1 t.2 | t <- ts],
      [/\ all good3 ts, uniq [seq t.1.1 | t <- ts],
      wf_params [seq t.1.1 | t <- ts] (parameters P) &
      {subset esyms e <= g ++ parameters P}] &
      [/\ no_I e, uniq (g ++ parameters P) &
      has (fun t => has (fun i => i != t.2) t.1.2) ts]].
Proof.
case: P => names inds params sp [[[/= un an sz nn] wp [g [e [/= -> se ni]]]] /= sm gg ug].
rewrite /patch_in /remains /index_lists /patch_syms /=.
set ls := map _ inds => /andP[/eqP sp' pin] re.
have sl : size ls = size inds by rewrite size_map.
have sn : size names = size ls by rewrite sl.
have [E1 E2 E3] := zip3_maps sn sp'.
have Ei : inds = [seq Some t.1.2 | t <- zip3 names ls patch].
  rewrite (_ : [seq Some t.1.2 | t <- zip3 names ls patch] =
     map Some [seq t.1.2 | t <- zip3 names ls patch]); last by rewrite -map_comp.
  rewrite E2 /ls -map_comp; rewrite -[LHS]map_id; apply/eq_in_map => o oi /=.
  by have := allP sm _ oi; case: o {oi}.
exists (zip3 names ls patch), e => /=; rewrite -Ei E1 E3 -gg; split=> //.
- by rewrite /P_of3 /= E1 -Ei gg.
- have -> : zip names patch = [seq (t.1.1, t.2) | t <- zip3 names ls patch].
    by rewrite -zip_map E1 E3.
  by rewrite -map_comp.
- split=> //.
    apply: all_good3 => //; apply/allP => l /mapP[o oi ->].
    by have := allP nn _ oi; case: o {oi}.
  by move=> s /se; rewrite /all_symbols /= gg.
- split=> //; first by rewrite gg; exact: ug.
  move: re; have -> : zip ls patch = [seq (t.1.2, t.2) | t <- zip3 names ls patch].
    by rewrite -zip_map E2 E3.
  by rewrite has_map.
Qed.

Lemma affine_value P patch : hom_ok P -> patch_in P patch -> remains P patch ->
  wf_poly (affine_build norm P patch) /\
  forall rho, value (affine_build norm P patch) rho = value P (set1 (patch_syms P patch) rho).
Proof.
move=> hP pin re; have [ts [e [EP Epa Ess [gt un wp se] [ni ug ne]]]] := hom_ts hP pin re.
have ug' := ug; rewrite cat_uniq in ug'; case/and3P: ug' => ug1 _ _.
have [e' [E1 E2 E3]] := affine_build3 gt un wp se ni ug1 ne.
rewrite Ess Epa EP; split=> // rho; by rewrite E1 /value /= E2.
Qed.

(** Subscript semantics: the affine polynomial at any point is the polynomial
    with the coordinates of subscript [patch] set to 1. *)
Lemma affine_call P patch rho extra extra' :
  hom_ok P -> patch_in P patch -> remains P patch ->
  let A := affine_build norm P patch in
  let rho1 := set1 (patch_syms P patch) rho in
  exists v, call_num A (rcons (var_inputs A rho extra) (par_input A rho)) [::] = Ok v /\
    call_num P (rcons (var_inputs P rho1 extra') (par_input P rho1)) [::] = Ok v.
Proof.
move=> hP pin re A rho1; have [wA vA] := affine_value hP pin re.
exists (value P rho1); rewrite call_value // vA; split=> //.
by apply: call_value; case: hP.
Qed.

(** Positional semantics for consecutive subscripts. *)
Lemma insert_one (f : Z -> C) (d q : nat) (l := [seq Z.of_nat i | i <- iota 0 d]) : (q < d)%N ->
  affine_to_hom [seq f i | i <- l & i != Z.of_nat q] (Z.of_nat q) =
  [seq (if i == Z.of_nat q then 1 else f i) | i <- l].
Proof.
move=> qd; have El : l = [seq Z.of_nat i | i <- iota 0 q] ++ Z.of_nat q ::
    [seq Z.of_nat i | i <- iota q.+1 (d - q.+1)].
  rewrite /l; have -> : d = (q + (d - q.+1).+1)%N by lia.
  by rewrite iotaD map_cat add0n /=; congr (_ ++ _ :: map _ (iota _ _)); lia.
have f1 : {in [seq Z.of_nat i | i <- iota 0 q], forall i, i != Z.of_nat q}.
  by move=> x /mapP[j]; rewrite mem_iota => jq ->; apply/eqP; lia.
have f2 : {in [seq Z.of_nat i | i <- iota q.+1 (d - q.+1)], forall i, i != Z.of_nat q}.
  by move=> x /mapP[j]; rewrite mem_iota => jq ->; apply/eqP; lia.
rewrite El filter_cat /= eqxx /= !(all_filterP _); last 2 first.
- by apply/allP.
- by apply/allP.
rewrite map_cat /affine_to_hom insert_1d_pos; last by rewrite size_cat !size_map size_iota leq_addr.
rewrite take_size_cat ?drop_size_cat ?size_map ?size_iota // map_cat /= eqxx.
congr (_ ++ _ :: _); apply/eq_in_map => i ii; [have := f1 i ii|have := f2 i ii];
  by move/negbTE ->.
Qed.

Lemma size_filter1 (d q : nat) : (q < d)%N ->
  size [seq i <- [seq Z.of_nat i | i <- iota 0 d] | i != Z.of_nat q] = d.-1.
Proof.
move=> qd; rewrite -(@rem_filter _ (Z.of_nat q)).
  by rewrite size_rem ?size_map ?size_iota //; apply: map_f; rewrite mem_iota.
by rewrite map_inj_uniq ?iota_uniq //; exact: Nat2Z.inj.
Qed.

Lemma affine_consecutive P dims patch (a : seq (seq C)) (ps : seq C) :
  hom_ok P -> variable_indices P = dim_indices dims -> valid_patch dims patch ->
  has (fun d => 1 < d)%N dims ->
  size a = size dims -> (forall k, (k < size dims)%N -> size (nth [::] a k) = (nth 0%N dims k).-1) ->
  size ps = size (parameters P) ->
  exists v,
    call_num (affine_build norm P patch) (rcons (map (@PArr C) a) (PArr ps)) [::] = Ok v /\
    call_num P (rcons [seq PArr (affine_to_hom x.1 x.2) | x <- zip a patch] (PArr ps)) [::] = Ok v.
Proof.
move=> hP Ei vp hd sa da sps.
have Els : index_lists P = [seq [seq Z.of_nat i | i <- iota 0 d] | d <- dims].
  by rewrite /index_lists Ei /dim_indices -map_comp.
have [/eqP szp allp] := andP vp.
have inl (d : nat) p : (0 <=? p)%Z -> (p <? Z.of_nat d)%Z -> p \in [seq Z.of_nat i | i <- iota 0 d].
  move=> p0 pd; have -> : p = Z.of_nat (Z.to_nat p) by lia.
  by apply: map_f; rewrite mem_iota; lia.
have pin : patch_in P patch.
  rewrite /patch_in Els size_map szp eqxx /=.
  elim: dims patch szp allp {Ei vp hd sa da Els} => [|d dims IH] [|p patch] //= [sz] /andP[/andP[p0 pd] al].
  by rewrite inl // IH.
have re : remains P patch.
  rewrite /remains Els.
  elim: dims patch szp allp hd {Ei vp sa da Els pin} => [|d dims IH] [|p patch] //= [sz] /andP[/andP[p0 pd] al].
  case/orP => [d1|h]; last by rewrite IH ?orbT.
  apply/orP; left; apply/hasP; case: (p =P 0%Z) => [->|pn].
    by exists 1%Z => //; apply: (@map_f _ _ Z.of_nat _ 1%N); rewrite mem_iota.
  exists 0%Z; first by apply: (@map_f _ _ Z.of_nat _ 0%N); rewrite mem_iota; lia.
  by apply/eqP; lia.
have [ts [e [EP Epa Ess [gt un wp se] [ni ug ne]]]] := hom_ts hP pin re.
have ug1 := ug; rewrite cat_uniq in ug1; case/and3P: ug1 => ug1 dis up.
have [e' [E1 E2 E3]] := affine_build3 gt un wp se ni ug1 ne.
rewrite -Epa -EP in E1 E3.
have Edims : [seq t.1.2 | t <- ts] = [seq [seq Z.of_nat i | i <- iota 0 d] | d <- dims].
  rewrite -Els EP /index_lists /= -map_comp; by apply: eq_map.
have szt : size ts = size dims by rewrite -(size_map (fun t => t.1.2)) Edims size_map.
have tk k : (k < size ts)%N -> exists2 q : nat, (q < nth 0%N dims k)%N &
   let t := nth ([::], [::], 0%Z) ts k in
   t.1.2 = [seq Z.of_nat i | i <- iota 0 (nth 0%N dims k)] /\ t.2 = Z.of_nat q.
  move=> kt; pose t := nth ([::], [::], 0%Z) ts k.
  have Et1 : t.1.2 = [seq Z.of_nat i | i <- iota 0 (nth 0%N dims k)].
    have := congr1 (fun s => nth [::] s k) Edims.
    by rewrite (nth_map ([::], [::], 0%Z)) // (nth_map 0%N) -?szt.
  have /and3P[_ _] := allP gt t (mem_nth _ kt); rewrite Et1 => /mapP[q]; rewrite mem_iota => qd Eq.
  by exists q.
(* an assignment with the given inputs *)
set names := [seq t.1.1 | t <- ts] in E1 un wp *.
set inds := [seq Some [seq i <- t.1.2 | i != t.2] | t <- ts] in E1.
have [|||||rho [Erho Epar]] := @inputs_onto C names inds (parameters P) (map (@PArr C) a) ps.
- by rewrite !size_map.
- by rewrite !size_map szt.
- rewrite size_map => k kt; have [q qd [Et1 Et2]] := tk k kt.
  rewrite (nth_map ([::], [::], 0%Z)) // (nth_map [::]) ?sa -?szt //= Et1 Et2 size_filter1 //.
  by rewrite da // -szt.
- by [].
- have := ug; rewrite /inds -(g_filter gt un) !cat_uniq => /and3P[u1 d1 ->]; rewrite filter_uniq // andbT /=.
  by apply: contra d1 => /hasP[x xp /=]; rewrite mem_filter => /andP[_ xg]; apply/hasP; exists x.
exists (value P (set1 (patch_syms P patch) rho)); split.
  have <- : value (affine_build norm P patch) rho = value P (set1 (patch_syms P patch) rho).
    by have [_ ->] := affine_value hP pin re.
  have <- : var_inputs (affine_build norm P patch) rho (fun=> [::]) = map (@PArr C) a.
    by rewrite E1 /var_inputs /= Erho.
  have <- : par_input (affine_build norm P patch) rho = PArr ps by rewrite E1 /par_input /= Epar.
  exact: call_value.
have wP : wf_poly P by case: hP.
rewrite -(call_value (set1 (patch_syms P patch) rho) (fun=> [::]) wP).
congr (call_num _ (rcons _ _) _); last first.
  rewrite /par_input -Epar; congr PArr; apply/eq_in_map => p pp; rewrite /set1 Ess.
  case: ifP => // /mapP[t ti Et]; case/negP: (hasPn dis p pp).
  rewrite /=; apply/gP; exists t => //; exists t.2 => //; by have /and3P[] := allP gt _ ti.
rewrite /var_inputs {2 3}EP /= zip_map -map_comp.
have Ea : a = [seq [seq rho (merge_subscript t.1.1 i) | i <- t.1.2 & i != t.2] | t <- ts].
  have := Erho; rewrite /names /inds zip_map -map_comp => E.
  have := congr1 (map (@pv_list C)) E; rewrite -!map_comp map_id /= => <-.
  by apply: eq_map => t /=; rewrite cats0.
rewrite {1}Ea Epa zip_map -map_comp; apply/esym.
apply: (@eq_from_nth _ PNone) => [|k]; rewrite !size_map // => kt.
rewrite !(nth_map ([::], [::], 0%Z)) //=; have [q qd [Et1 Et2]] := tk k kt.
have ti := mem_nth ([::], [::], 0%Z) kt; move: ti Et1 Et2.
set t := nth _ _ _ => ti Et1 Et2; rewrite /= /var_input /= cats0; congr PArr.
rewrite -/t in ti *.
have Eset : [seq set1 (patch_syms P patch) rho (merge_subscript t.1.1 i) | i <- t.1.2] =
  [seq (if i == t.2 then 1 else rho (merge_subscript t.1.1 i)) | i <- t.1.2].
  by apply/eq_in_map => i it; rewrite /set1 Ess ssP.
rewrite -Epa Eset Et1 Et2 (insert_one (fun i => rho (merge_subscript t.1.1 i))) //.
Qed.
End Affine.
