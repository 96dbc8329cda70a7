(** Numeric evaluation equals the mathematical value. *)
From Coq Require Import ZArith Lia Ascii String.
From mathcomp Require Import all_ssreflect all_algebra.
From mathcomp Require Import zify ssrZ.
From Verif Require Import Base ModelStr ProofStr ModelExpr ModelPoly SpecPoly ProofPoly.
Delimit Scope Z_scope with Z.

Set Implicit Arguments.
Unset Strict Implicit.
Unset Printing Implicit Defensive.

Import GRing.Theory Num.Theory.
Local Open Scope ring_scope.

Lemma dict_get_map (K : eqType) (W : eqType) (V : Type) (F : K * W -> V) (d : seq (K * W)) k v :
  uniq (map fst d) -> (k, v) \in d ->
  dict_get [seq (x.1, F x) | x <- d] k = Some (F (k, v)).
Proof.
elim: d => [//|[a w] d IH] /= /andP[na u]; rewrite inE => /orP[/eqP[-> ->]|kd].
  by rewrite dict_get_notin ?eqxx // -map_comp.
by rewrite (IH u kd).
Qed.

Lemma zip_map_fst (K W V : Type) (F : K * W -> V) (ks : seq K) (ws : seq W) :
  size ks = size ws ->
  zip ks (map F (zip ks ws)) = [seq (x.1, F x) | x <- zip ks ws].
Proof. by elim: ks ws => [|k ks IH] [|w ws] //= [] /IH ->. Qed.

Lemma dict_get_iota (K : eqType) (l : seq K) k i : i \in l ->
  exists j, [/\ dict_get (zip l (iota k (size l))) i = Some (k + j)%N, (j < size l)%N &
                forall x0, nth x0 l j = i].
Proof.
elim: l k => [//|a l IH] k; rewrite inE /=.
case il: (i \in l) => /=.
  move=> _; have [j [-> jl nj]] := IH k.+1 il.
  by exists j.+1; rewrite addnS.
rewrite orbF => /eqP E; rewrite dict_get_notin; last first.
  by rewrite -/unzip1 unzip1_zip ?size_iota // il.
by exists 0%N; rewrite E eqxx addn0.
Qed.

Section Eval.
Variable C : numClosedFieldType.
Notation expr := (expr C).

Lemma foldl_add (v : seq C) a : foldl (fun a b => a + b) a v = a + \sum_(x <- v) x.
Proof.
elim: v a => [|x v IH] a /=; first by rewrite big_nil addr0.
by rewrite IH big_cons addrA.
Qed.

Lemma foldl_mul (v : seq C) a : foldl (fun a b => a * b) a v = a * \prod_(x <- v) x.
Proof.
elim: v a => [|x v IH] a /=; first by rewrite big_nil mulr1.
by rewrite IH big_cons mulrA.
Qed.

Lemma prod_listE (v : seq C) : prod_list v = \prod_(x <- v) x.
Proof. by case: v => [|x v]; rewrite /prod_list ?big_nil // foldl_mul big_cons. Qed.

Section Fn.
Variables (names : seq sym) (reo : seq (sym * option (seq (Z * nat)))) (pari : seq (sym * nat)).
Variables (var : sym -> option (pyval C)) (par : pyval C) (rho : sym -> C).

Definition readable (s : sym) : Prop :=
  exists2 fn, eval_sympy names reo pari (ESym s : expr) = Ok fn & fn var par = Ok (rho s).

Lemma readable_in (es : seq expr) e :
  (forall s, s \in flatten (map (@esyms C) es) -> readable s) -> List.In e es ->
  forall s, s \in esyms e -> readable s.
Proof.
elim: es => [//|a es IH] /= H [<-|ei] s se; first by apply: H; rewrite mem_cat se.
by apply: IH ei s se => s' Hs'; apply: H; rewrite mem_cat Hs' orbT.
Qed.

Lemma all_in (T : Type) (p : pred T) s x : all p s -> List.In x s -> p x.
Proof. by elim: s => [//|a s IH] /= /andP[pa ps] [<-|xs] //; apply: IH. Qed.

Lemma eval_fns (es : seq expr) :
  (forall e, List.In e es -> exists2 fn, eval_sympy names reo pari e = Ok fn &
      fn var par = Ok (sem rho e)) ->
  exists2 fns, rseq (map (eval_sympy names reo pari) es) = Ok fns &
    rseq [seq (f : pyfun C) var par | f <- fns] = Ok (map (sem rho) es).
Proof.
elim: es => [|a es IH] H; first by exists [::].
have [|fns E1 E2] := IH; first by move=> e ei; apply: H; right.
have [|fn F1 F2] := H a; first by left.
by exists (fn :: fns) => /=; rewrite ?F1 ?E1 ?F2 /= ?E2.
Qed.

Lemma eval_sound (e : expr) :
  (forall s, s \in esyms e -> readable s) -> no_I e ->
  exists2 fn, eval_sympy names reo pari e = Ok fn & fn var par = Ok (sem rho e).
Proof.
elim/expr_nest_ind: e => [c||s|es IH|es IH|e n IH] H.
- by move=> _; exists (fun _ _ => Ok c).
- by [].
- by move=> _; apply: H; rewrite inE.
- move=> /= nI; have [|fns E1 E2] := @eval_fns es.
    by move=> e ei; apply: IH => //; [exact: readable_in ei|exact: all_in ei].
  by rewrite E1 /=; eexists; first by []; rewrite /= E2 /= foldl_add add0r.
- move=> /= nI; have [|fns E1 E2] := @eval_fns es.
    by move=> e ei; apply: IH => //; [exact: readable_in ei|exact: all_in ei].
  by rewrite E1 /=; eexists; first by []; rewrite /= E2 /= prod_listE.
- move=> /= nI; have [fn E1 E2] := IH H nI.
  by rewrite E1 /=; eexists; first by []; rewrite /= E2.
Qed.

Lemma eval_fns_I (es : seq expr) :
  (forall e, List.In e es -> no_I e -> exists fn, eval_sympy names reo pari e = Ok fn) ->
  (forall e, List.In e es -> ~~ no_I e -> eval_sympy names reo pari e = Err RuntimeError) ->
  ~~ all (@no_I C) es ->
  rseq (map (eval_sympy names reo pari) es) = Err RuntimeError.
Proof.
elim: es => [//|a es IH] H1 H2 /=; case Ea: (no_I a) => /= H.
  have [|fn ->] := H1 a _ Ea; first by left.
  by rewrite /= IH // => e ei; [apply: H1|apply: H2]; right.
by rewrite H2 ?Ea //; left.
Qed.

Lemma eval_I (e : expr) :
  (forall s, s \in esyms e -> readable s) -> ~~ no_I e ->
  eval_sympy names reo pari e = Err RuntimeError.
Proof.
elim/expr_nest_ind: e => [c||s|es IH|es IH|e n IH] H //=.
- move=> nI; rewrite eval_fns_I // => e ei ne; last by apply: IH => //; exact: readable_in ei.
  by have [|fn -> _] := @eval_sound e _ ne; [exact: readable_in ei|exists fn].
- move=> nI; rewrite eval_fns_I // => e ei ne; last by apply: IH => //; exact: readable_in ei.
  by have [|fn -> _] := @eval_sound e _ ne; [exact: readable_in ei|exists fn].
- by move=> nI; rewrite IH.
Qed.
End Fn.

Lemma map_fst_zip (K W : Type) (ks : seq K) (ws : seq W) :
  size ks = size ws -> map fst (zip ks ws) = ks.
Proof. by move=> E; rewrite -/unzip1 unzip1_zip ?E. Qed.

Lemma in_var_symbols names inds s : s \in var_symbols names inds ->
  exists n ind, (n, ind) \in zip names inds /\ s \in symbols_of n ind.
Proof.
by move=> /flattenP[l /mapP[[n ind] ni ->] sl]; exists n, ind.
Qed.

Lemma mem_zip_both (K W : eqType) (ks : seq K) (ws : seq W) k w :
  (k, w) \in zip ks ws -> k \in ks /\ w \in ws.
Proof.
elim: ks ws => [|a ks IH] [|b ws] //=; rewrite !inE => /orP[/eqP[-> ->]|/IH[-> ->]].
  by rewrite !eqxx.
by rewrite !orbT.
Qed.

Lemma wf_var_split names inds n ind s : wf_vars names inds ->
  (n, ind) \in zip names inds -> s \in symbols_of n ind ->
  match ind with
  | None => s = n /\ split_subscript s = Ok (n, None)
  | Some l => exists2 i, i \in l & s = merge_subscript n i /\
      split_subscript s = Ok (n, Some i)
  end.
Proof.
move=> [_ al _ nn] /mem_zip_both[nN iN]; have /andP[n0 an] := allP al _ nN.
rewrite /symbols_of; case: ind iN => [l|] iN; last first.
  by rewrite inE => /eqP ->; rewrite split_plain.
case/mapP => i il ->; exists i => //; split=> //; rewrite merge_split //.
by have := allP (allP nn _ iN) _ il; lia.
Qed.

Lemma var_readable (P : poly C) rho extra par s :
  wf_vars (variable_names P) (variable_indices P) ->
  s \in var_symbols (variable_names P) (variable_indices P) ->
  readable (variable_names P) (variable_index_dict P) (parameter_position P)
    (dict_get (zip (variable_names P) (var_inputs P rho extra))) par rho s.
Proof.
move=> wf /in_var_symbols[n [ind [nz sn]]].
have /= Hs := wf_var_split wf nz sn; have [nN iN] := mem_zip_both nz.
have [un _ sz _] := wf.
have uz : uniq (map fst (zip (variable_names P) (variable_indices P))) by rewrite map_fst_zip.
rewrite /readable /=.
have Ev : dict_get (variable_index_dict P) n =
  Some (if ind is Some l then Some (zip l (iota 0 (size l))) else None).
  by rewrite /variable_index_dict (dict_get_map _ uz nz).
have Ei : dict_get (zip (variable_names P) (var_inputs P rho extra)) n =
  Some (var_input rho extra (n, ind)).
  by rewrite /var_inputs zip_map_fst // (dict_get_map _ uz nz).
case: ind {nz sn iN} Hs Ev Ei => [l|].
  case=> i il [-> ->] /= Ev Ei; rewrite nN Ev.
  have [j [-> jl nj]] := dict_get_iota 0 il.
  eexists; first by []; rewrite /= Ei /= add0n (item_ok 0) ?size_cat ?size_map ?ltn_addr //.
  by rewrite nth_cat size_map jl (nth_map 0%Z) // nj.
by case=> -> -> /= Ev Ei; rewrite nN Ev; eexists; first by []; rewrite /= Ei.
Qed.

Lemma par_readable (P : poly C) rho var s :
  wf_params (variable_names P) (parameters P) -> s \in parameters P ->
  readable (variable_names P) (variable_index_dict P) (parameter_position P)
    var (par_input P rho) rho s.
Proof.
move=> wf sp; have [n [i E] nN] := wf _ sp; rewrite /readable /= E /= (negbTE nN).
have [j [-> jl nj]] := dict_get_iota 0 sp.
eexists; first by []; rewrite /= (item_ok 0) ?size_map ?add0n //.
by rewrite (nth_map [::]) // nj.
Qed.

Lemma poly_readable (P : poly C) rho extra s :
  wf_vars (variable_names P) (variable_indices P) ->
  wf_params (variable_names P) (parameters P) -> s \in all_symbols P ->
  readable (variable_names P) (variable_index_dict P) (parameter_position P)
    (dict_get (zip (variable_names P) (var_inputs P rho extra))) (par_input P rho) rho s.
Proof.
by move=> wv wp; rewrite mem_cat => /orP[/var_readable|/par_readable]; apply.
Qed.

Lemma size_var_inputs (P : poly C) rho extra :
  size (variable_names P) = size (variable_indices P) ->
  size (variable_names P) = size (var_inputs P rho extra).
Proof. by move=> E; rewrite size_map size_zip E minnn. Qed.

(** The result of a call only depends on how the arguments are bound. *)
Lemma call_bound (P : poly C) args kw vars params :
  sort_var_args (variable_names P) (size (parameters P)) args kw = Ok (vars, params) ->
  call_num P args kw =
  (do e <- sp_expr (sympy_poly P);
   do fn <- eval_sympy (variable_names P) (variable_index_dict P) (parameter_position P) e;
   fn (dict_get (zip (variable_names P) vars)) params).
Proof. by rewrite /call_num => -> /=. Qed.

Lemma eval_value (P : poly C) rho extra args kw :
  wf_poly P ->
  sort_var_args (variable_names P) (size (parameters P)) args kw =
    Ok (var_inputs P rho extra, par_input P rho) ->
  call_num P args kw = Ok (value P rho).
Proof.
move=> [wv wp [g [e [Ee se nI]]]] /call_bound ->; rewrite /value Ee /=.
have [s sin|fn E1 E2] := @eval_sound (variable_names P) (variable_index_dict P)
  (parameter_position P) (dict_get (zip (variable_names P) (var_inputs P rho extra)))
  (par_input P rho) rho e _ nI.
  by apply: poly_readable => //; apply: se.
by rewrite E1 /= E2.
Qed.

Lemma par_fit (P : poly C) rho : params_fit (size (parameters P)) (par_input P rho).
Proof. by rewrite /= size_map. Qed.

Lemma call_value (P : poly C) rho extra : wf_poly P ->
  call_num P (rcons (var_inputs P rho extra) (par_input P rho)) [::] = Ok (value P rho).
Proof.
move=> wf; apply: (eval_value (extra := extra) wf); apply: sort_args_pos => //.
  by case: wf => -[_ _ sz _] _ _; apply: size_var_inputs.
exact: par_fit.
Qed.

(** All ways of passing the values. *)
Lemma call_value_kw (P : poly C) rho extra kw (k : nat) : wf_poly P ->
  lit "params" \notin variable_names P ->
  (k <= size (variable_names P))%N ->
  (forall i, (k <= i < size (variable_names P))%N ->
     dict_get kw (nth [::] (variable_names P) i) = Some (nth PNone (var_inputs P rho extra) i)) ->
  dict_get kw (lit "params") = Some (par_input P rho) ->
  call_num P (take k (var_inputs P rho extra)) kw = Ok (value P rho).
Proof.
move=> wf np kn H Hp; apply: (eval_value (extra := extra) wf).
rewrite -(cats0 (take _ _)); apply: sort_args_kw => //.
- by case: wf => -[_ _ sz _] _ _; apply: size_var_inputs.
- by right.
- exact: par_fit.
Qed.

Lemma call_I (P : poly C) rho extra g e :
  wf_vars (variable_names P) (variable_indices P) ->
  wf_params (variable_names P) (parameters P) ->
  sympy_poly P = SPoly g e -> {subset esyms e <= all_symbols P} -> ~~ no_I e ->
  call_num P (rcons (var_inputs P rho extra) (par_input P rho)) [::] = Err RuntimeError.
Proof.
move=> wv wp E se nI; rewrite (@call_bound _ _ _ (var_inputs P rho extra) (par_input P rho)).
  rewrite E /= (@eval_I _ _ _ (dict_get (zip (variable_names P) (var_inputs P rho extra)))
    (par_input P rho) rho) // => s /se sin.
  exact: (@poly_readable P rho extra).
by apply: sort_args_pos => //; [case: wv => _ _ sz _; apply: size_var_inputs|exact: par_fit].
Qed.

(** Every choice of values of the right shapes is the input of some assignment. *)
Definition fits (ind : option (seq Z)) (v : pyval C) : Prop :=
  match ind, v with
  | None, PNum _ => True
  | Some l, PArr a => size a = size l
  | _, _ => False
  end.

Lemma assign_syms (ss : seq sym) (a : seq C) (rho : sym -> C)
    (rho' := fun s => if s \in ss then nth 0 a (index s ss) else rho s) :
  uniq ss -> size a = size ss ->
  map rho' ss = a /\ (forall ts, ~~ has (mem ss) ts -> map rho' ts = map rho ts).
Proof.
move=> us sz; split.
  apply: (@eq_from_nth _ 0); rewrite ?size_map // => i Hi.
  by rewrite (nth_map [::]) // /rho' mem_nth // index_uniq.
move=> ts /hasPn H; apply/eq_in_map => s st; rewrite /rho'.
by have /= /negbTE -> := H _ st.
Qed.

Lemma map_ext_symbols (f g : sym -> C) (nis : seq (sym * option (seq Z))) :
  map f (flatten [seq symbols_of ni.1 ni.2 | ni <- nis]) =
  map g (flatten [seq symbols_of ni.1 ni.2 | ni <- nis]) ->
  map (var_input f (fun=> [::])) nis = map (var_input g (fun=> [::])) nis.
Proof.
elim: nis => [//|[n ind] nis IH]; rewrite [flatten _]/= !map_cat => /eqP.
rewrite eqseq_cat ?size_map // => /andP[/eqP E1 /eqP /IH E2] /=.
rewrite E2; congr (_ :: _); rewrite /var_input /=.
case: ind E1 => [l|] /=; last by case=> ->.
by rewrite -!map_comp !cats0 => E; congr PArr.
Qed.

Definition pv_list (v : pyval C) : seq C :=
  match v with PNum c => [:: c] | PArr a => a | PNone => [::] end.

Lemma fits_size n ind v : fits ind v -> size (pv_list v) = size (symbols_of n ind).
Proof. by case: ind v => [l|] [|c|a] //= ->; rewrite size_map. Qed.

Lemma fits_input n ind v (rho : sym -> C) : fits ind v ->
  map rho (symbols_of n ind) = pv_list v -> var_input rho (fun=> [::]) (n, ind) = v.
Proof.
rewrite /var_input; case: ind v => [l|] [|c|a] //= _; last by case=> ->.
by rewrite -map_comp cats0 => E; congr PArr.
Qed.

Lemma inputs_onto names inds (params : seq sym) (vs : seq (pyval C)) (ps : seq C) :
  size names = size inds -> size vs = size inds ->
  (forall i, (i < size inds)%N -> fits (nth None inds i) (nth PNone vs i)) ->
  size ps = size params -> uniq (var_symbols names inds ++ params) ->
  exists rho, map (var_input rho (fun=> [::])) (zip names inds) = vs /\ map rho params = ps.
Proof.
rewrite /var_symbols; elim: names inds vs => [|n names IH] [|ind inds] [|v vs] //=.
  move=> _ _ _ sp up; exists (fun s => nth 0 ps (index s params)); split=> //.
  have [E _] := @assign_syms params ps (fun=> 0) up sp; rewrite -[RHS]E.
  by apply/eq_in_map => s sp'; rewrite sp'.
case=> s1 [s2] Hf sp; rewrite -catA cat_uniq => /and3P[u1 /hasPn u2 u3].
have [rho [Er Ep]] := IH inds vs s1 s2 (fun i Hi => Hf i.+1 Hi) sp u3.
have f0 := Hf 0%N isT; rewrite /= in f0; clear Hf.
have [E1 E2] := @assign_syms (symbols_of n ind) (pv_list v) rho u1 (fits_size n f0).
set rho' := (fun s => _) in E1 E2; exists rho'; split; last first.
  by rewrite E2 //; apply/hasPn => s st; apply: u2; rewrite mem_cat st orbT.
rewrite -Er; congr (_ :: _); last first.
  by apply: map_ext_symbols; rewrite E2 //; apply/hasPn => s st; apply: u2; rewrite mem_cat st.
exact: fits_input E1.
Qed.
End Eval.
