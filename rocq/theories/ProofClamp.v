(** Evaluation at points with too few coordinates. *)
From Coq Require Import ZArith Lia Ascii String.
From mathcomp Require Import all_ssreflect all_algebra.
From mathcomp Require Import zify ssrZ.
From Verif Require Import Base ModelStr ProofStr ModelExpr ModelPoly ModelClamp SpecPoly SpecSig ProofPoly ProofPoly2.
Delimit Scope Z_scope with Z.

Set Implicit Arguments.
Unset Strict Implicit.
Unset Printing Implicit Defensive.

Import GRing.Theory Num.Theory.
Local Open Scope ring_scope.

Lemma item_clampE (T : Type) (x0 : T) (s : seq T) i : (0 < size s)%N ->
  item_clamp s i = Ok (nth x0 s (minn i (size s).-1)).
Proof.
case: s => [//|x s] _; rewrite /item_clamp; congr Ok; case: (ltnP i (size (x :: s))) => h.
  have -> : minn i (size (x :: s)).-1 = i by apply/minn_idPl.
  exact: set_nth_default.
have -> : minn i (size (x :: s)).-1 = size s by apply/minn_idPr; exact: ltnW.
by rewrite nth_default // (nth_last x0 (x :: s)).
Qed.

Section Clamp.
Variable C : numClosedFieldType.
Notation expr := (expr C).

Section Fn.
Variables (names : seq sym) (reo : seq (sym * option (seq (Z * nat)))) (pari : seq (sym * nat)).
Variables (var : sym -> option (pyval C)) (par : pyval C).

Definition readable' (rho : sym -> C) (s : sym) : Prop :=
  exists2 fn, eval_clamp names reo pari (ESym s : expr) = Ok fn & fn var par = Ok (rho s).

Lemma part_in (R : sym -> Prop) (es : seq expr) e :
  (forall s, s \in flatten (map (@esyms C) es) -> R s) -> List.In e es ->
  forall s, s \in esyms e -> R s.
Proof.
elim: es => [//|a es IH] /= H [<-|ei] s se; first by apply: H; rewrite mem_cat se.
by apply: IH ei s se => s' Hs'; apply: H; rewrite mem_cat Hs' orbT.
Qed.

Lemma clamp_fns rho (es : seq expr) :
  (forall e, List.In e es -> exists2 fn, eval_clamp names reo pari e = Ok fn &
      fn var par = Ok (sem rho e)) ->
  exists2 fns, rseq (map (eval_clamp names reo pari) es) = Ok fns &
    rseq [seq (f : pyfun C) var par | f <- fns] = Ok (map (sem rho) es).
Proof.
elim: es => [|a es IH] H; first by exists [::].
have [|fns E1 E2] := IH; first by move=> e ei; apply: H; right.
have [|fn F1 F2] := H a; first by left.
by exists (fn :: fns) => /=; rewrite ?F1 ?E1 ?F2 /= ?E2.
Qed.

Lemma clamp_sound rho (e : expr) :
  (forall s, s \in esyms e -> readable' rho s) -> no_I e ->
  exists2 fn, eval_clamp names reo pari e = Ok fn & fn var par = Ok (sem rho e).
Proof.
elim/expr_nest_ind: e => [c||s|es IH|es IH|e n IH] H.
- by move=> _; exists (fun _ _ => Ok c).
- by [].
- by move=> _; apply: H; rewrite inE.
- move=> /= nI; have [|fns E1 E2] := @clamp_fns rho es.
    by move=> e ei; apply: IH => //; [exact: part_in ei|exact: all_in ei].
  by rewrite E1 /=; eexists; first by []; rewrite /= E2 /= foldl_add add0r.
- move=> /= nI; have [|fns E1 E2] := @clamp_fns rho es.
    by move=> e ei; apply: IH => //; [exact: part_in ei|exact: all_in ei].
  by rewrite E1 /=; eexists; first by []; rewrite /= E2 /= prod_listE.
- move=> /= nI; have [fn E1 E2] := IH H nI.
  by rewrite E1 /=; eexists; first by []; rewrite /= E2.
Qed.

(** A symbol that raises IndexError. *)
Definition raising (s : sym) : Prop :=
  exists2 fn, eval_sympy names reo pari (ESym s : expr) = Ok fn & fn var par = Err IndexError.

Definition good (e : expr) : Prop := exists2 fn, eval_sympy names reo pari e = Ok fn & exists v, fn var par = Ok v.
Definition bad (e : expr) : Prop := exists2 fn, eval_sympy names reo pari e = Ok fn & fn var par = Err IndexError.

Lemma bad_fns (es : seq expr) : (forall e, List.In e es -> good e \/ bad e) ->
  (exists2 e, List.In e es & bad e) ->
  exists2 fns, rseq (map (eval_sympy names reo pari) es) = Ok fns &
    rseq [seq (f : pyfun C) var par | f <- fns] = Err IndexError.
Proof.
elim: es => [|a es IH] H; first by case.
move=> [e ein be].
have Hes : forall e, List.In e es -> good e \/ bad e by move=> e' h; apply: H; right.
have [fns0 E0] : exists fns, rseq (map (eval_sympy names reo pari) es) = Ok fns.
  elim: es Hes {IH H ein} => [|b es IH] Hes; first by exists [::].
  have [|fns E] := IH; first by move=> e' h; apply: Hes; right.
  by case: (Hes b (or_introl erefl)) => -[fn F _]; exists (fn :: fns) => /=; rewrite F /= E.
case: (H a (or_introl erefl)) => -[fn F1 F2]; last by exists (fn :: fns0) => /=; rewrite ?F1 /= ?E0 ?F2.
case: F2 => v F2; case: ein => [ea|ein].
  by case: be => fn'; rewrite -ea F1 => -[<-]; rewrite F2.
have [|fns E1 E2] := IH Hes; first by exists e.
by exists (fn :: fns) => /=; rewrite ?F1 /= ?E1 ?F2 /= ?E2.
Qed.

Lemma in_flatten (es : seq expr) s : s \in flatten (map (@esyms C) es) ->
  exists2 e, List.In e es & s \in esyms e.
Proof.
elim: es => [//|a es IH] /=; rewrite mem_cat => /orP[h|/IH[e h1 h2]]; first by exists a => //; left.
by exists e => //; right.
Qed.

Lemma eval_bad rho (e : expr) : no_I e ->
  (forall s, s \in esyms e -> readable names reo pari var par rho s \/ raising s) ->
  (exists2 s, s \in esyms e & raising s) -> bad e.
Proof.
elim/expr_nest_ind: e => [c||s|es IH|es IH|e n IH].
- by move=> _ _ [].
- by [].
- by move=> _ _ [t]; rewrite inE => /eqP ->.
- move=> /= nI H [s /in_flatten[e0 ei se] rs].
  have [e ein||fns E1 E2] := @bad_fns es.
  + have He := part_in H ein.
    have [b|nb] := boolP (has (fun t => ~~ is_ok (do fn <- eval_sympy names reo pari (ESym t : expr); fn var par)) (esyms e)).
      right; apply: IH => //; first exact: all_in ein.
      have /hasP[t te tb] := b; exists t => //; have [[fn F1 F2]|//] := He t te.
      by move: tb; rewrite F1 /= F2.
    left; have [||fn F1 F2] := @eval_sound C names reo pari var par rho e; last by exists fn => //; eexists; exact: F2.
      move=> t te; have [//|[fn F1 F2]] := He t te.
      by move/hasPn: nb => /(_ t te); rewrite F1 /= F2.
    exact: all_in ein.
  + exists e0 => //; apply: IH => //; [exact: all_in ei|exact: part_in ei|by exists s].
  by rewrite /bad /= E1 /=; eexists; first by []; rewrite /= E2.
- move=> /= nI H [s /in_flatten[e0 ei se] rs].
  have [e ein||fns E1 E2] := @bad_fns es.
  + have He := part_in H ein.
    have [b|nb] := boolP (has (fun t => ~~ is_ok (do fn <- eval_sympy names reo pari (ESym t : expr); fn var par)) (esyms e)).
      right; apply: IH => //; first exact: all_in ein.
      have /hasP[t te tb] := b; exists t => //; have [[fn F1 F2]|//] := He t te.
      by move: tb; rewrite F1 /= F2.
    left; have [||fn F1 F2] := @eval_sound C names reo pari var par rho e; last by exists fn => //; eexists; exact: F2.
      move=> t te; have [//|[fn F1 F2]] := He t te.
      by move/hasPn: nb => /(_ t te); rewrite F1 /= F2.
    exact: all_in ein.
  + exists e0 => //; apply: IH => //; [exact: all_in ei|exact: part_in ei|by exists s].
  by rewrite /bad /= E1 /=; eexists; first by []; rewrite /= E2.
move=> /= nI H h; have [fn E1 E2] := IH nI H h.
by rewrite /bad /= E1 /=; eexists; first by []; rewrite /= E2.
Qed.
End Fn.

Section P.
Variables (P : poly C) (g : seq sym) (e : expr).
Hypotheses (wf : wf_poly P) (Ee : sympy_poly P = SPoly g e).
Implicit Types (rho : sym -> C) (keep : sym -> nat).

Let sz : size (variable_names P) = size (variable_indices P).
Proof. by case: wf => -[]. Qed.
Let uz : uniq (map fst (zip (variable_names P) (variable_indices P))).
Proof. by case: wf => -[un _ s _] _ _; rewrite map_fst_zip. Qed.
Let se : {subset esyms e <= all_symbols P}.
Proof. by case: wf => _ _ [g' [e' [E s _]]] x; move: E; rewrite Ee => -[_ ->]; exact: s. Qed.
Let nI : no_I e.
Proof. by case: wf => _ _ [g' [e' [E s n]]]; move: E; rewrite Ee => -[_ ->]. Qed.

Lemma dict_of (F : sym * option (seq Z) -> pyval C) n ind :
  (n, ind) \in zip (variable_names P) (variable_indices P) ->
  dict_get (zip (variable_names P) (map F (zip (variable_names P) (variable_indices P)))) n = Some (F (n, ind)).
Proof. by move=> nz; rewrite zip_map_fst // (dict_get_map _ uz nz). Qed.

Lemma index_of n ind : (n, ind) \in zip (variable_names P) (variable_indices P) ->
  dict_get (variable_index_dict P) n = Some (if ind is Some l then Some (zip l (iota 0 (size l))) else None).
Proof. by move=> nz; rewrite /variable_index_dict (dict_get_map _ uz nz). Qed.

Lemma sort_short rho keep : sort_var_args (variable_names P) (size (parameters P))
  (rcons (short_inputs P rho keep) (par_input P rho)) [::] = Ok (short_inputs P rho keep, par_input P rho).
Proof.
apply: sort_args_pos => //; first by rewrite size_map size_zip -sz minnn.
exact: par_fit.
Qed.

Lemma iota_pos l j k : uniq l -> (k < size l)%N -> dict_get (zip l (iota 0 (size l))) (nth 0%Z l k) = Some j -> j = k.
Proof.
move=> ul kl; have [j' [-> jl nj]] := dict_get_iota 0 (mem_nth 0%Z kl).
by rewrite add0n => -[<-]; apply/eqP; rewrite -(nth_uniq 0%Z _ _ ul) // nj.
Qed.

Lemma numpy_leaf rho keep s : (forall l, Some l \in variable_indices P -> uniq l) -> s \in all_symbols P ->
  let rd := readable (variable_names P) (variable_index_dict P) (parameter_position P)
    (dict_get (zip (variable_names P) (short_inputs P rho keep))) (par_input P rho) rho s in
  let ra := raising (variable_names P) (variable_index_dict P) (parameter_position P)
    (dict_get (zip (variable_names P) (short_inputs P rho keep))) (par_input P rho) s in
  (rd /\ (forall n l k, (n, Some l) \in zip (variable_names P) (variable_indices P) -> (k < size l)%N ->
     s = merge_subscript n (nth 0%Z l k) -> (k < keep n)%N)) \/
  (ra /\ exists n l k, [/\ (n, Some l) \in zip (variable_names P) (variable_indices P), (keep n <= k < size l)%N &
    s = merge_subscript n (nth 0%Z l k)]).
Proof.
move=> ul; have [wv wp _] := wf; rewrite mem_cat => /orP[|sp] /=; last first.
  left; split; first exact: par_readable.
  move=> n l k nz kl E; have [n' [i E'] nN] := wp _ sp.
  have sm : s \in symbols_of n (Some l) by rewrite E; apply: map_f; exact: mem_nth.
  have [j _ [_]] := wf_var_split wv nz sm; rewrite E' => -[En _].
  by case: (mem_zip_both nz) => h _; rewrite En h in nN.
case/in_var_symbols=> n [ind [nz sn]].
have /= Hs := wf_var_split wv nz sn; have [nN iN] := mem_zip_both nz.
have Ev := index_of nz; have Ei := dict_of (short_input rho keep) nz.
case: ind nz sn iN Hs Ev Ei => [l|] nz sn iN.
  case=> i il [Es Esp] /= Ev Ei.
  have kl : (index i l < size l)%N by rewrite index_mem.
  have nk : nth 0%Z l (index i l) = i by rewrite nth_index.
  have [j [Ej jl nj]] := dict_get_iota 0 il.
  have jk : j = index i l by apply: (iota_pos (ul _ iN) kl); rewrite nk.
  have [h|h] := ltnP (index i l) (keep n).
    left; split.
      rewrite /readable /= Esp /= nN Ev Ej; eexists; first by [].
      rewrite /= Ei /= add0n (item_ok 0) ?size_take ?size_map ?jk; last by case: ifP.
      by rewrite nth_take // (nth_map 0%Z) // nk Es.
    move=> n' l' k nz' kl' E'.
    have sm : s \in symbols_of n' (Some l') by rewrite E'; apply: map_f; exact: mem_nth.
    have [j' _ [E1]] := wf_var_split wv nz' sm; rewrite Esp => -[En Ej']; rewrite -En.
    have El : l' = l.
      have := index_of nz'; rewrite -En Ev => -[] /(congr1 (map fst)).
      by rewrite !map_fst_zip ?size_iota.
    subst l' n' j'.
    have E2 : nth 0%Z l k = i.
      have al : (0 <= nth 0%Z l k)%Z by apply/Z.leb_le; case: wv => _ _ _ /allP /(_ _ iN) /allP /(_ _ (mem_nth 0%Z kl')).
      move: Esp; rewrite E' merge_split //; first by case.
      by case: wv => _ /allP /(_ _ nN) /andP[].
      by case: wv => _ /allP /(_ _ nN) /andP[].
    by rewrite -E2 index_uniq // ?(ul _ iN) // in h.
  right; split.
    rewrite /raising /= Esp /= nN Ev Ej; eexists; first by [].
    by rewrite /= Ei /= add0n item_err // jk (leq_trans _ h) // size_take; case: ltnP.
  by exists n, l, (index i l); rewrite h kl nk.
case=> Es Esp /= Ev Ei; left; split.
  by rewrite /readable /= Esp /= nN Ev; eexists; first by []; rewrite /= Ei Es.
move=> n' l' k nz' kl' E'.
have sm : s \in symbols_of n' (Some l') by rewrite E'; apply: map_f; exact: mem_nth.
by have [j' _ [E1]] := wf_var_split wv nz' sm; rewrite Esp.
Qed.

Lemma short_numpy rho keep : (forall l, Some l \in variable_indices P -> uniq l) ->
  (missing P keep e -> call_num P (rcons (short_inputs P rho keep) (par_input P rho)) [::] = Err IndexError) /\
  (~ missing P keep e -> call_num P (rcons (short_inputs P rho keep) (par_input P rho)) [::] = Ok (value P rho)).
Proof.
move=> ul; rewrite (call_bound (sort_short rho keep)) /value Ee /=; split.
- case=> n [l [k [nz kl sin]]].
  have [||fn E1 E2] := @eval_bad (variable_names P) (variable_index_dict P) (parameter_position P)
    (dict_get (zip (variable_names P) (short_inputs P rho keep))) (par_input P rho) rho e nI; last by rewrite E1 /= E2.
    by move=> s /se /(numpy_leaf rho keep ul)[] []; auto.
  exists (merge_subscript n (nth 0%Z l k)) => //.
  have [[_ h]|[]//] := numpy_leaf rho keep ul (se sin).
  have /andP[k1 k2] := kl.
  by have := h n l k nz k2 erefl; rewrite ltnNge k1.
move=> nm; have [||fn E1 E2] := @eval_sound C (variable_names P) (variable_index_dict P) (parameter_position P)
    (dict_get (zip (variable_names P) (short_inputs P rho keep))) (par_input P rho) rho e; last by rewrite E1 /= E2.
  move=> s sin; have [[]//|[_ [n [l [k [nz kl E]]]]]] := numpy_leaf rho keep ul (se sin).
  by case: nm; exists n, l, k; rewrite -E.
exact: nI.
Qed.

(** The assignment that a JAX array with too few entries stands for. *)
Lemma short_jax rho rho' keep : (forall n, (0 < keep n)%N) ->
  (forall n l, (n, Some l) \in zip (variable_names P) (variable_indices P) -> uniq l /\
     forall k, (k < size l)%N -> rho' (merge_subscript n (nth 0%Z l k)) =
       rho (merge_subscript n (nth 0%Z l (minn k (minn (keep n) (size l)).-1)))) ->
  (forall n, (n, None) \in zip (variable_names P) (variable_indices P) -> rho' n = rho n) ->
  (forall p, p \in parameters P -> rho' p = rho p) ->
  call_clamp P (rcons (short_inputs P rho keep) (par_input P rho)) [::] = Ok (value P rho').
Proof.
move=> k0 hv hs hp; rewrite /call_clamp sort_short /value Ee /=.
have [wv wp _] := wf.
have [s sin||fn E1 E2] := @clamp_sound (variable_names P) (variable_index_dict P) (parameter_position P)
    (dict_get (zip (variable_names P) (short_inputs P rho keep))) (par_input P rho) rho' e; last by rewrite E1 /= E2.
  have := se sin; rewrite mem_cat => /orP[|sp]; last first.
    have [n [i E] nN] := wp _ sp; rewrite /readable' /= E /= (negbTE nN).
    have [j [-> jl nj]] := dict_get_iota 0 sp; have s0 : (0 < size (parameters P))%N by exact: leq_ltn_trans jl.
    eexists; first by []; rewrite /= add0n (item_clampE 0) ?size_map //.
    have -> : minn j (size (parameters P)).-1 = j by apply/minn_idPl; rewrite -ltnS prednK.
    by rewrite (nth_map [::]) // nj hp.
  case/in_var_symbols=> n [ind [nz sn]].
  have /= Hs := wf_var_split wv nz sn; have [nN iN] := mem_zip_both nz.
  have Ev := index_of nz; have Ei := dict_of (short_input rho keep) nz.
  case: ind nz sn iN Hs Ev Ei => [l|] nz sn iN.
    case=> i il [Es Esp] /= Ev Ei; have [ul hl] := hv _ _ nz.
    have kl : (index i l < size l)%N by rewrite index_mem.
    have nk : nth 0%Z l (index i l) = i by rewrite nth_index.
    have [j [Ej jl nj]] := dict_get_iota 0 il.
    have jk : j = index i l by apply: (iota_pos ul kl); rewrite nk.
    have l0 : (0 < size l)%N by exact: leq_ltn_trans kl.
    rewrite /readable' /= Esp /= nN Ev Ej; eexists; first by [].
    have st : size (take (keep n) [seq rho (merge_subscript n i) | i <- l]) = minn (keep n) (size l).
      by rewrite size_take size_map /minn.
    rewrite /= Ei /= add0n (item_clampE 0) st ?leq_min ?k0 ?l0 //.
    have m0 : (0 < minn (keep n) (size l))%N by rewrite leq_min k0.
    have lt1 : (minn j (minn (keep n) (size l)).-1 < minn (keep n) (size l))%N.
      by rewrite -[X in (_ < X)%N](prednK m0) ltnS geq_minr.
    have /andP[lt2 lt3] : (minn j (minn (keep n) (size l)).-1 < keep n)%N && (minn j (minn (keep n) (size l)).-1 < size l)%N.
      by rewrite -leq_min.
    by rewrite Es; have := hl _ kl; rewrite nk => ->; rewrite nth_take // (nth_map 0%Z) // jk.
  case=> Es Esp /= Ev Ei.
  by rewrite /readable' /= Esp /= nN Ev; eexists; first by []; rewrite /= Ei Es hs.
exact: nI.
Qed.

(** With enough entries JAX and NumPy agree. *)
Lemma full_jax rho extra : call_clamp P (rcons (var_inputs P rho extra) (par_input P rho)) [::] = Ok (value P rho).
Proof.
have [wv wp _] := wf.
rewrite /call_clamp sort_args_pos //; [|exact: size_var_inputs|exact: par_fit].
rewrite /value Ee /=.
have [s sin||fn E1 E2] := @clamp_sound (variable_names P) (variable_index_dict P) (parameter_position P)
    (dict_get (zip (variable_names P) (var_inputs P rho extra))) (par_input P rho) rho e; last by rewrite E1 /= E2.
  have := se sin; rewrite mem_cat => /orP[|sp]; last first.
    have [n [i E] nN] := wp _ sp; rewrite /readable' /= E /= (negbTE nN).
    have [j [-> jl nj]] := dict_get_iota 0 sp; have s0 : (0 < size (parameters P))%N by exact: leq_ltn_trans jl.
    eexists; first by []; rewrite /= add0n (item_clampE 0) ?size_map //.
    have -> : minn j (size (parameters P)).-1 = j by apply/minn_idPl; rewrite -ltnS prednK.
    by rewrite (nth_map [::]) // nj.
  case/in_var_symbols=> n [ind [nz sn]].
  have /= Hs := wf_var_split wv nz sn; have [nN iN] := mem_zip_both nz.
  have Ev := index_of nz; have Ei := dict_of (var_input rho extra) nz.
  case: ind nz sn iN Hs Ev Ei => [l|] nz sn iN.
    case=> i il [Es Esp] /= Ev Ei.
    have [j [Ej jl nj]] := dict_get_iota 0 il.
    rewrite /readable' /= Esp /= nN Ev Ej; eexists; first by [].
    have s0 : (j < size ([seq rho (merge_subscript n i) | i <- l] ++ extra n))%N by rewrite size_cat size_map ltn_addr.
    have s1 := leq_ltn_trans (leq0n _) s0.
    rewrite /= Ei /= add0n (item_clampE 0) // (_ : minn _ _ = j); last by apply/minn_idPl; rewrite -ltnS prednK.
    by rewrite nth_cat size_map jl (nth_map 0%Z) // nj Es.
  case=> Es Esp /= Ev Ei.
  by rewrite /readable' /= Esp /= nN Ev; eexists; first by []; rewrite /= Ei Es.
exact: nI.
Qed.
End P.
End Clamp.
