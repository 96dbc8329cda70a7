(** Cache of affine polynomials, compiled evaluation, Dwork and Fermat. *)
From Coq Require Import ZArith Lia Ascii String.
From mathcomp Require Import all_ssreflect all_algebra.
From mathcomp Require Import zify ssrZ ring.
From Verif Require Import Base ModelUtil ProofUtil ModelProjective ModelStr ProofStr ModelExpr
  ModelPoly SpecPoly ProofPoly ProofPoly2 ProofPoly3 ProofPoly4 ProofPoly5 ProofPoly6 ModelHom SpecHom ProofHom.
Delimit Scope Z_scope with Z.

Set Implicit Arguments.
Unset Strict Implicit.
Unset Printing Implicit Defensive.

Import GRing.Theory Num.Theory.
Local Open Scope ring_scope.

Section Cache.
Variable C : numClosedFieldType.
Variable norm : expr C -> expr C.
Hypothesis norm_spec : norm_ok norm.
Implicit Types (P A : poly C) (H : hompoly C).

Definition cache_ok H : Prop :=
  size (affine_cache H) = (\prod_(d <- hp_dims (hp H)) d)%N /\
  forall patch A, valid_patch (hp_dims (hp H)) patch ->
    nth None (affine_cache H) (Z.to_nat (unique_patch_index (hp_dims (hp H)) patch)) = Some A ->
    A = affine_build norm (hp H) patch.

Lemma init_ok P H : hom_init P = Ok H -> hp H = P /\ cache_ok H.
Proof.
rewrite /hom_init; case: check_signature => //= _; case: ifP => // _ [<-]; split=> //; split=> /=.
  by rewrite size_nseq.
by move=> patch A _; rewrite nth_nseqN.
Qed.

Lemma init_fresh P H k : hom_init P = Ok H -> nth None (affine_cache H) k = None.
Proof.
rewrite /hom_init; case: check_signature => //= _; case: ifP => // _ [<-] /=.
by rewrite nth_nseq; case: ifP.
Qed.

Lemma py_pos_in n k : (0 <= k < Z.of_nat n)%Z -> py_pos n k = Ok (Z.to_nat k).
Proof. by move=> H; rewrite /py_pos; have -> : (0 <=? k)%Z && (k <? Z.of_nat n)%Z by lia. Qed.

Lemma py_pos_neg n k : (- Z.of_nat n <= k < 0)%Z -> py_pos n k = Ok (Z.to_nat (Z.of_nat n + k)).
Proof.
move=> H; rewrite /py_pos.
have -> : (0 <=? k)%Z && (k <? Z.of_nat n)%Z = false by lia.
by have -> : (- Z.of_nat n <=? k)%Z && (k <? 0)%Z by lia.
Qed.

Lemma affine_poly_valid H patch : cache_ok H -> valid_patch (hp_dims (hp H)) patch ->
  exists2 H', affine_poly norm H patch = Ok (affine_build norm (hp H) patch, H') &
    cache_ok H' /\ hp H' = hp H.
Proof.
move=> [sz ok] vp; rewrite /affine_poly py_pos_in; last by rewrite sz; apply: upi_range.
rewrite /=; case E: nth => [A|]; first by exists H => //; rewrite (ok _ _ vp E).
eexists; first by []; split=> //; split=> /=.
  rewrite size_set_nth sz; apply/maxn_idPr; have := upi_range vp; lia.
move=> q A vq; rewrite nth_set_nth /=; case: eqP => [Eq|_]; last exact: ok.
case=> <-; congr affine_build; apply: (upi_inj vp vq).
have := upi_range vp; have := upi_range vq; lia.
Qed.

Lemma affine_run_ok H hist : cache_ok H -> all (valid_patch (hp_dims (hp H))) hist ->
  cache_ok (affine_run norm H hist) /\ hp (affine_run norm H hist) = hp H.
Proof.
elim: hist H => [|p hist IH] H ok //= /andP[vp vh].
have [H' -> [ok' E]] := affine_poly_valid ok vp.
by have [|a b] := IH H' ok'; rewrite ?E // b.
Qed.

(** Whatever valid patches were requested before. *)
Lemma cache_transparent P H hist patch : hom_init P = Ok H ->
  all (valid_patch (hp_dims P)) hist -> valid_patch (hp_dims P) patch ->
  exists H', affine_poly norm (affine_run norm H hist) patch = Ok (affine_build norm P patch, H').
Proof.
move=> /init_ok[E ok] vh vp; rewrite -E in vh vp *.
have [ok' E'] := affine_run_ok ok vh; rewrite -E' in vp *.
by have [H' -> _] := affine_poly_valid ok' vp; exists H'.
Qed.

Lemma hom_call_valid P H hist patch args kw : hom_init P = Ok H ->
  all (valid_patch (hp_dims P)) hist -> valid_patch (hp_dims P) patch ->
  rmap fst (hom_call norm (affine_run norm H hist) args kw (Some patch)) =
  call_num (affine_build norm P patch) args kw.
Proof.
move=> h vh vp; have [H' E] := cache_transparent h vh vp.
by rewrite /hom_call E /=; case: call_num.
Qed.

(** *** Poisoning *)
Lemma foldl_SExpr nps e : exists e', foldl (subs_one norm) (SExpr e) nps = SExpr e'.
Proof. by elim: nps e => [|np nps IH] e /=; [exists e|exact: IH]. Qed.

Lemma sexpr_call A args kw e : sympy_poly A = SExpr e -> is_ok (call_num A args kw) = false.
Proof. by move=> E; rewrite /call_num; case: sort_var_args => // -[v p] /=; rewrite E. Qed.

Lemma negative_not_gen names inds n i : wf_vars names inds -> alpha n -> (i < 0)%Z ->
  merge_subscript n i \notin var_symbols names inds.
Proof.
move=> wv /andP[n0 an] i0; apply/negP => /in_var_symbols[m [ind [mz]]] sm.
have := wf_var_split wv mz sm; rewrite split_negative //.
case: ind mz sm => [l|] mz sm; first by case=> j _ [].
case=> E _; have [mN _] := mem_zip_both mz; have [_ /allP al _ _] := wv.
by have := merge_neg_alpha n i0; rewrite E al.
Qed.

Lemma build_not_gen P patch np nps : hom_ok P ->
  zip (variable_names P) patch = np :: nps ->
  merge_subscript np.1 np.2 \notin var_symbols (variable_names P) (variable_indices P) ->
  exists e, sympy_poly (affine_build norm P patch) = SExpr e.
Proof.
move=> [[_ _ [g [e [E _ _]]]] _ gg _] Ez ns; rewrite /affine_build /= Ez E /=.
rewrite -gg E /= in ns; rewrite (negbTE ns); exact: foldl_SExpr.
Qed.

Lemma one_var_dims P l : variable_indices P = [:: Some l] -> hp_dims P = [:: size l].
Proof. by rewrite /hp_dims => ->. Qed.

Lemma upi1 d p : unique_patch_index [:: d] [:: p] = p.
Proof. by rewrite upi_cons /unique_patch_index /=; lia. Qed.

(** Request p - d first, then p. *)
Lemma poisoned P H n l p : hom_ok P -> hom_init P = Ok H ->
  variable_names P = [:: n] -> variable_indices P = [:: Some l] ->
  (0 <= p < Z.of_nat (size l))%Z ->
  exists A H', affine_poly norm (affine_run norm H [:: [:: (p - Z.of_nat (size l))%Z]]) [:: p] = Ok (A, H') /\
    forall args kw, is_ok (call_num A args kw) = false.
Proof.
move=> hP hi En Ei pr; have [EH [sz _]] := init_ok hi.
have Ed := one_var_dims Ei; rewrite EH Ed big_seq1 in sz.
have [e Ee] : exists e, sympy_poly (affine_build norm P [:: (p - Z.of_nat (size l))%Z]) = SExpr e.
  apply: (@build_not_gen P _ (n, (p - Z.of_nat (size l))%Z) [::]) => //; first by rewrite En.
  have [[wv _ _] _ _ _] := hP; apply: negative_not_gen => //=; last by lia.
  by have [_ + _ _] := wv; rewrite En /= andbT.
have -> : affine_run norm H [:: [:: (p - Z.of_nat (size l))%Z]] =
    HomPoly P (set_nth None (affine_cache H) (Z.to_nat p)
      (Some (affine_build norm P [:: (p - Z.of_nat (size l))%Z]))).
  rewrite /= /affine_poly EH Ed upi1 sz py_pos_neg /=; last by lia.
  have -> : (Z.of_nat (size l) + (p - Z.of_nat (size l)) = p)%Z by lia.
  by rewrite (init_fresh _ hi).
rewrite /affine_poly /= Ed upi1 size_set_nth sz.
have -> : maxn (Z.to_nat p).+1 (size l) = size l by apply/maxn_idPr; lia.
rewrite py_pos_in //= nth_set_nth /= eqxx.
by do 2 eexists; split; first by []; move=> args kw; apply: sexpr_call Ee.
Qed.

(** Two variables: (d1 + i, j) is out of range but has the number of (i, j+1). *)
Lemma poisoned2 P H n1 n2 d1 d2 i j : hom_ok P -> hom_init P = Ok H ->
  variable_names P = [:: n1; n2] -> variable_indices P = dim_indices [:: d1; d2] ->
  (0 <= i < Z.of_nat d1)%Z -> (0 <= j)%Z -> (j + 1 < Z.of_nat d2)%Z ->
  exists A H', affine_poly norm (affine_run norm H [:: [:: (Z.of_nat d1 + i)%Z; j]]) [:: i; (j + 1)%Z] = Ok (A, H') /\
    forall args kw, is_ok (call_num A args kw) = false.
Proof.
move=> hP hi En Ei ir j0 jr; have [EH [sz _]] := init_ok hi.
have Ed : hp_dims P = [:: d1; d2] by rewrite /hp_dims Ei /= !size_map !size_iota.
have [wP _ _ _] := hP; have [wv _ _] := wP.
have [e Ee] : exists e, sympy_poly (affine_build norm P [:: (Z.of_nat d1 + i)%Z; j]) = SExpr e.
  apply: (@build_not_gen P _ (n1, (Z.of_nat d1 + i)%Z) [:: (n2, j)]) => //; first by rewrite En.
  have [un al _ _] := wv; rewrite En /= in al un.
  case/and3P: al => a1 a2 _; rewrite inE andbT in un.
  rewrite En Ei; apply/negP => /in_var_symbols[m [ind [mz]]] /=.
  rewrite !inE in mz; case/orP: mz => /eqP[-> ->] /mapP[k /mapP[q qi ->]];
    rewrite mem_iota in qi => /(@merge_inj) []//; try by lia.
  by move=> E; rewrite E eqxx in un.
have szd : size (affine_cache H) = (d1 * d2)%N.
  by rewrite sz EH Ed !big_cons big_nil muln1.
have u1 : unique_patch_index [:: d1; d2] [:: (Z.of_nat d1 + i)%Z; j] = (i + Z.of_nat d1 * (j + 1))%Z.
  by rewrite upi_cons upi1; lia.
have u2 : unique_patch_index [:: d1; d2] [:: i; (j + 1)%Z] = (i + Z.of_nat d1 * (j + 1))%Z.
  by rewrite upi_cons upi1; lia.
have rg : (0 <= i + Z.of_nat d1 * (j + 1) < Z.of_nat (d1 * d2))%Z by nia.
have -> : affine_run norm H [:: [:: (Z.of_nat d1 + i)%Z; j]] =
    HomPoly P (set_nth None (affine_cache H) (Z.to_nat (i + Z.of_nat d1 * (j + 1)))
      (Some (affine_build norm P [:: (Z.of_nat d1 + i)%Z; j]))).
  by rewrite /= /affine_poly EH Ed u1 szd py_pos_in //= (init_fresh _ hi).
rewrite /affine_poly /= Ed u2 size_set_nth szd.
have -> : maxn (Z.to_nat (i + Z.of_nat d1 * (j + 1))).+1 (d1 * d2) = (d1 * d2)%N.
  by apply/maxn_idPr; lia.
rewrite py_pos_in //= nth_set_nth /= eqxx.
by do 2 eexists; split; first by []; move=> args kw; apply: sexpr_call Ee.
Qed.

(** *** Compiled evaluation *)
Lemma cartesian_mem dims p : (p \in cartesian dims) = valid_patch dims p.
Proof.
elim: dims p => [|d dims IH] p; first by case: p.
rewrite /=; apply/allpairsP/idP => [[[i q] /= [ii qi ->]]|].
  rewrite valid_cons -IH qi; rewrite mem_iota in ii; lia.
case: p => [|i q] //; rewrite valid_cons -IH => /and3P[i0 id qi].
by exists (Z.to_nat i, q); split=> //=; [rewrite mem_iota; lia|congr cons; lia].
Qed.

Lemma cartesian_uniq dims : uniq (cartesian dims).
Proof.
elim: dims => [|d dims IH] //=; apply: allpairs_uniq; rewrite ?iota_uniq //.
by move=> [i p] [j q] _ _ /= [/Nat2Z.inj -> ->].
Qed.

Lemma all_patches_valid dims p : (p \in all_patches dims) = valid_patch dims p.
Proof. by rewrite mem_sort cartesian_mem. Qed.

Lemma all_patches_number dims :
  map (unique_patch_index dims) (all_patches dims) = [seq Z.of_nat i | i <- iota 0 (\prod_(d <- dims) d)%N].
Proof.
apply: (@sorted_eq _ Z.leb) => [a b c|a b||| ]; try by lia.
- rewrite sorted_map; apply: sort_sorted => p q; rewrite /relpre /=; lia.
- rewrite sorted_map; move: (\prod_(d <- dims) d)%N => n; move: 0%N; elim: n => //= n IH m.
  case: n IH => //= n IH; have /= -> := IH m.+1; rewrite andbT; lia.
- apply: uniq_perm.
  + rewrite map_inj_in_uniq ?sort_uniq ?cartesian_uniq // => p q.
    rewrite !all_patches_valid; exact: upi_inj.
  + by rewrite map_inj_uniq ?iota_uniq //; exact: Nat2Z.inj.
  move=> k; apply/mapP/mapP => [[p]|[i]].
    rewrite all_patches_valid => /upi_range r ->.
    by exists (Z.to_nat (unique_patch_index dims p)); rewrite ?mem_iota; lia.
  rewrite mem_iota => ir ->; have [|p vp E] := @upi_onto dims (Z.of_nat i); first by lia.
  by exists p; rewrite ?all_patches_valid.
Qed.

Lemma trace_ok H args kw (v : seq Z -> C) ps : cache_ok H -> all (valid_patch (hp_dims (hp H))) ps ->
  (forall p, valid_patch (hp_dims (hp H)) p -> call_num (affine_build norm (hp H) p) args kw = Ok (v p)) ->
  exists H', trace_branches norm H args kw ps = Ok (map v ps, H').
Proof.
move=> + + hv; elim: ps H hv => [|p ps IH] H hv ok /=; first by exists H.
case/andP=> vp vps; have [H' E [ok' E']] := affine_poly_valid ok vp.
rewrite /hom_call E /= hv //=; have [||H'' ->] := IH H' _ ok'; rewrite ?E' //=.
by exists H''.
Qed.

Lemma transform_value H args kw (v : seq Z -> C) p q : cache_ok H ->
  (forall p, valid_patch (hp_dims (hp H)) p -> call_num (affine_build norm (hp H) p) args kw = Ok (v p)) ->
  valid_patch (hp_dims (hp H)) q ->
  unique_patch_index (hp_dims (hp H)) q =
    Z.min (Z.max 0 (unique_patch_index (hp_dims (hp H)) p))
          (Z.of_nat (\prod_(d <- hp_dims (hp H)) d)%N - 1) ->
  transform_eval norm H args kw (Some p) = Ok (v q).
Proof.
move=> ok hv vq Eq; rewrite /transform_eval.
have [|H' ->] := @trace_ok H args kw v (all_patches (hp_dims (hp H))) ok _ hv.
  by apply/allP => x; rewrite all_patches_valid.
set dims := hp_dims _ in vq Eq *; set N := (\prod_(d <- dims) d)%N in Eq.
have szN : size (all_patches dims) = N by rewrite -(size_map (unique_patch_index dims)) all_patches_number size_map size_iota.
have rq := upi_range vq; rewrite -/N in rq.
have -> : q = nth [::] (all_patches dims) (Z.to_nat (unique_patch_index dims q)).
  set k := Z.to_nat _; have kN : (k < size (all_patches dims))%N by rewrite szN /k; lia.
  apply: (@upi_inj dims) => //; first by rewrite -all_patches_valid mem_nth.
  rewrite -(nth_map _ 0%Z) // all_patches_number -/N (nth_map 0%N) ?size_iota -?szN // nth_iota ?szN -?szN //.
  by rewrite /k; lia.
rewrite /= -(nth_map _ 0) ?szN; last by lia.
have -> : clamp (size (map v (all_patches dims))) (unique_patch_index dims p) = Z.to_nat (unique_patch_index dims q).
  by rewrite size_map szN Eq /clamp; lia.
by case: (all_patches dims) szN => //= E; rewrite -E in rq; lia.
Qed.

(** Consecutive subscripts: the value at the point with a 1 inserted. *)
Lemma transform_consecutive P H dims (a : seq (seq C)) ps p q :
  hom_ok P -> hom_init P = Ok H -> variable_indices P = dim_indices dims ->
  has (fun d => 1 < d)%N dims ->
  size a = size dims -> (forall k, (k < size dims)%N -> size (nth [::] a k) = (nth 0%N dims k).-1) ->
  size ps = size (parameters P) ->
  valid_patch dims q ->
  unique_patch_index dims q =
    Z.min (Z.max 0 (unique_patch_index dims p)) (Z.of_nat (\prod_(d <- dims) d)%N - 1) ->
  exists v,
    transform_eval norm H (rcons (map (@PArr C) a) (PArr ps)) [::] (Some p) = Ok v /\
    call_num P (rcons [seq PArr (affine_to_hom x.1 x.2) | x <- zip a q] (PArr ps)) [::] = Ok v.
Proof.
move=> hP hi Ei hd sa da sps vq Eq; have [EH ok] := init_ok hi.
have Ed : hp_dims P = dims.
  rewrite /hp_dims Ei /dim_indices -map_comp -[RHS]map_id; apply: eq_map => d /=.
  by rewrite size_map size_iota.
pose w r := call_num (affine_build norm P r) (rcons (map (@PArr C) a) (PArr ps)) [::].
have [v [E1 E2]] := affine_consecutive norm_spec hP Ei vq hd sa da sps.
exists v; split=> //; rewrite (@transform_value H _ _ (fun r => if w r is Ok v then v else 0) p q) ?EH ?Ed //.
  by rewrite /w E1.
move=> r vr; have [v' [E1' _]] := affine_consecutive norm_spec hP Ei vr hd sa da sps.
by rewrite /w E1'.
Qed.

Lemma transform_valid P H dims (a : seq (seq C)) ps q :
  hom_ok P -> hom_init P = Ok H -> variable_indices P = dim_indices dims ->
  has (fun d => 1 < d)%N dims ->
  size a = size dims -> (forall k, (k < size dims)%N -> size (nth [::] a k) = (nth 0%N dims k).-1) ->
  size ps = size (parameters P) ->
  valid_patch dims q ->
  exists v,
    transform_eval norm H (rcons (map (@PArr C) a) (PArr ps)) [::] (Some q) = Ok v /\
    call_num P (rcons [seq PArr (affine_to_hom x.1 x.2) | x <- zip a q] (PArr ps)) [::] = Ok v.
Proof.
move=> hP hi Ei hd sa da sps vq; apply: (transform_consecutive hP hi Ei) => //.
by have := upi_range vq; lia.
Qed.

Lemma transform_none P H args kw : hom_init P = Ok H ->
  transform_eval norm H args kw None = call_num P args kw.
Proof. by move=> /init_ok[<- _]; rewrite /transform_eval /hom_call; case: call_num. Qed.

(** *** Subscripts that are not 0, 1, 2, ... (one variable) *)
Lemma affine_missing P n l p args kw : hom_ok P ->
  variable_names P = [:: n] -> variable_indices P = [:: Some l] -> (0 <= p)%Z -> p \notin l ->
  is_ok (call_num (affine_build norm P [:: p]) args kw) = false.
Proof.
move=> hP En Ei p0 pl; have [[wv _ _] _ _ _] := hP.
have [e Ee] : exists e, sympy_poly (affine_build norm P [:: p]) = SExpr e.
  apply: (@build_not_gen P _ (n, p) [::]) => //; first by rewrite En.
  have [_ al _ nn] := wv; rewrite En Ei /= andbT in al nn; rewrite andbT in nn.
  rewrite En Ei; apply/negP => /in_var_symbols[m [ind [mz]]] /=.
  rewrite inE in mz; case/eqP: mz => -> -> /mapP[k kl] /merge_inj[]// => [|_ E].
    by have := allP nn _ kl; lia.
  by rewrite E kl in pl.
exact: sexpr_call Ee.
Qed.

Lemma affine_single P n p args kw : hom_ok P ->
  variable_names P = [:: n] -> variable_indices P = [:: Some [:: p]] ->
  is_ok (call_num (affine_build norm P [:: p]) args kw) = false.
Proof.
move=> [[_ _ [g [e [E _ _]]]] _ gg _] En Ei.
apply: (@sexpr_call _ _ _ (subs1 (merge_subscript n p) (ENum 1) e)).
by rewrite /affine_build /= En /= E /= -[g]/(sp_gens (SPoly g e)) -E gg En Ei /= inE eqxx.
Qed.

Lemma insert_at (f : Z -> C) l p : uniq l -> p \in l ->
  affine_to_hom [seq f i | i <- l & i != p] (Z.of_nat (index p l)) =
  [seq (if i == p then 1 else f i) | i <- l].
Proof.
move=> ul pl; case/splitPr: pl ul => l1 l2; rewrite cat_uniq /= => /and3P[u1 h /andP[p2 u2]].
have p1 : p \notin l1 by apply: contra h => h; rewrite h.
have f1 : {in l1, forall i, i != p} by move=> x x1; apply: contraNneq p1 => <-.
have f2 : {in l2, forall i, i != p} by move=> x x1; apply: contraNneq p2 => <-.
rewrite filter_cat /= eqxx /= !(all_filterP _); [|by apply/allP|by apply/allP].
rewrite index_cat (negbTE p1) /= eqxx addn0 map_cat.
rewrite /affine_to_hom insert_1d_pos; last by rewrite size_cat !size_map leq_addr.
rewrite take_size_cat ?drop_size_cat ?size_map // map_cat /= eqxx.
congr (_ ++ _ :: _); apply/eq_in_map => i ii; [have := f1 i ii|have := f2 i ii];
  by move/negbTE ->.
Qed.

Lemma affine_position P n l p (a ps : seq C) : hom_ok P ->
  variable_names P = [:: n] -> variable_indices P = [:: Some l] -> p \in l -> (1 < size l)%N ->
  size a = (size l).-1 -> size ps = size (parameters P) ->
  exists v,
    call_num (affine_build norm P [:: p]) [:: PArr a; PArr ps] [::] = Ok v /\
    call_num P [:: PArr (affine_to_hom a (Z.of_nat (index p l))); PArr ps] [::] = Ok v.
Proof.
move=> hP En Ei pl sl sa sps; have [wP _ gg ug] := hP; have [wv wp _] := wP.
have [_ al _ nn] := wv; rewrite En Ei /= andbT in al nn; rewrite andbT in nn.
have ul : uniq l.
  have := ug; rewrite /all_symbols /var_symbols En Ei /= cats0 cat_uniq => /and3P[+ _ _].
  exact: map_uniq.
have pin : patch_in P [:: p] by rewrite /patch_in /index_lists Ei /= pl.
have re : remains P [:: p].
  rewrite /remains /index_lists Ei /= orbF; apply/hasPn => /= h.
  have : {subset l <= [:: p]} by move=> x xl; rewrite inE; apply/negPn/h.
  by move/(uniq_leq_size ul) => /=; lia.
have EA : affine_build norm P [:: p] =
    MkPoly [:: n] [:: Some [seq i <- l | i != p]] (parameters P) (sympy_poly (affine_build norm P [:: p])).
  by rewrite /affine_build /= En Ei.
have [wA vA] := affine_value norm_spec hP pin re.
have [|||||rho [Erho Epar]] := @inputs_onto C [:: n] [:: Some [seq i <- l | i != p]] (parameters P) [:: PArr a] ps.
- by [].
- by [].
- by case=> // _ /=; rewrite -rem_filter // size_rem // sa.
- by [].
- have := ug; rewrite /all_symbols /var_symbols En Ei /= !cats0; apply: subseq_uniq.
  by apply: cat_subseq => //; apply: map_subseq; exact: filter_subseq.
exists (value P (set1 (patch_syms P [:: p]) rho)); split.
  rewrite -vA -(call_value rho (fun=> [::]) wA); congr call_num.
  by rewrite EA /var_inputs /par_input /= -Epar; case: Erho => <-.
rewrite -(call_value _ (fun=> [::]) wP); congr call_num.
rewrite /var_inputs /par_input En Ei /=; congr [:: PArr _; PArr _].
  case: Erho => <-; rewrite !cats0 insert_at //; apply/eq_in_map => i il.
  rewrite /set1 /patch_syms En /= inE; case: (i =P p) => [->|ne]; first by rewrite eqxx.
  case: eqP => // /merge_inj[]//; [exact/Z.leb_le/(allP nn)|exact/Z.leb_le/(allP nn)].
rewrite -Epar; apply/eq_in_map => s sp; rewrite /set1 /patch_syms En /= inE; case: eqP => // E.
have := ug; rewrite /all_symbols /var_symbols En Ei /= !cats0 cat_uniq => /and3P[_ /hasPn /(_ s sp) + _].
by rewrite /= E map_f.
Qed.
End Cache.
