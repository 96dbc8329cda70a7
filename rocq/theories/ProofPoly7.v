(** Symbolic evaluation, and parameters sharing a base name with a variable. *)
From Coq Require Import ZArith Lia Ascii String Permutation.
From mathcomp Require Import all_ssreflect all_algebra.
From mathcomp Require Import zify ssrZ ring.
From Verif Require Import Base ModelStr ProofStr ModelExpr ModelPoly SpecPoly ProofPoly ProofPoly2
  ProofPoly3 ProofPoly4 ProofPoly5 ProofPoly6.
Delimit Scope Z_scope with Z.

Set Implicit Arguments.
Unset Strict Implicit.
Unset Printing Implicit Defensive.

Import GRing.Theory Num.Theory.
Local Open Scope ring_scope.

Section Symbolic.
Variable C : numClosedFieldType.
Implicit Types (P : poly C) (rho : sym -> C).

(** One expression per symbol of the polynomial. *)
Definition sym_inputs P (f : sym -> expr C) : seq (seq (expr C)) :=
  [seq [seq f s | s <- symbols_of ni.1 ni.2] | ni <- zip (variable_names P) (variable_indices P)].

Lemma Perm_map_fst (K : eqType) (V : Type) (d d' : seq (K * V)) : Permutation d d' ->
  perm_eq (map fst d) (map fst d').
Proof.
elim=> [|x s t _ IH|x y s|s t r _ H1 _ H2] //=.
- by rewrite perm_cons.
- by apply/permP => p /=; rewrite addnCA.
- exact: perm_trans H1 H2.
Qed.

Lemma dict_get_perm (K : eqType) (V : Type) (d d' : seq (K * V)) k : Permutation d d' ->
  uniq (map fst d) -> dict_get d k = dict_get d' k.
Proof.
elim=> {d d'} [//|[a v] d d' p IH|[a v] [b w] d|d d' d'' p1 IH1 p2 IH2] /=.
- by move=> /andP[_ u]; rewrite IH.
- move=> /and3P[]; rewrite inE negb_or => /andP[ab _] _ _; case: dict_get => //.
  case: (k =P a) => [Ea|_]; case: (k =P b) => [Eb|_] //.
  by rewrite -Ea -Eb eqxx in ab.
- move=> u; rewrite IH1 // IH2 //.
  have pm := Perm_map_fst p1.
  by rewrite -(perm_uniq pm).
Qed.

Lemma zip_map_r (A B : Type) (f : A -> B) s : zip s (map f s) = [seq (x, f x) | x <- s].
Proof. by elim: s => //= x s ->. Qed.

Lemma dict_get_graph (K : eqType) (V : Type) (f : K -> V) s k :
  dict_get [seq (x, f x) | x <- s] k = if k \in s then Some (f k) else None.
Proof.
elim: s => //= x s ->; rewrite inE; case: eqP => [->|_] /=; by case: (_ \in _).
Qed.

Lemma In_graph (K : eqType) (V : Type) (f : K -> V) (ss : seq K) s v :
  List.In (s, v) [seq (x, f x) | x <- ss] -> s \in ss /\ v = f s.
Proof.
elim: ss => //= x xs IH [[-> <-]|/IH[sx ->]]; first by rewrite mem_head.
by rewrite inE sx orbT.
Qed.

Lemma call_symE P (f : sym -> expr C) order :
  size (variable_names P) = size (variable_indices P) ->
  call_sym P (sym_inputs P f) (Some (map f (parameters P))) order =
  (do e <- sp_expr (sympy_poly P);
   Ok (subs (order [seq (s, f s) | s <- all_symbols P]) e)).
Proof.
move=> sz; rewrite /call_sym /sym_inputs.
have -> : rseq [seq (if vi.2 is Some l
                     then do _ <- rassert (size vi.1 == size l); Ok vi.1
                     else Ok vi.1)
          | vi <- zip [seq [seq f s | s <- symbols_of ni.1 ni.2]
                      | ni <- zip (variable_names P) (variable_indices P)] (variable_indices P)] =
   Ok [seq [seq f s | s <- symbols_of ni.1 ni.2]
                      | ni <- zip (variable_names P) (variable_indices P)].
  move: sz; elim: (variable_names P) (variable_indices P) => [|n ns IH] [|i ins] //= [sz].
  rewrite IH //; case: i => [l|] //=.
  by rewrite !size_map eqxx.
rewrite /=; case: sp_expr => //= e; congr (Ok (subs (order _) e)).
rewrite -zip_map_r /all_symbols map_cat /var_symbols; congr (zip _ (_ ++ _)).
by rewrite map_flatten -map_comp.
Qed.

Lemma call_sym_value P f order rho :
  wf_poly P -> uniq (all_symbols P) -> (forall d, Permutation d (order d)) ->
  (forall s t, s \in all_symbols P -> t \in esyms (f s) -> t \in all_symbols P -> f t = ESym t) ->
  exists2 e, call_sym P (sym_inputs P f) (Some (map f (parameters P))) order = Ok e &
    sem rho e = value P (fun s => sem rho (f s)).
Proof.
move=> [[_ _ sz _] _ [g [e [EP se _]]]] us ho hf; rewrite call_symE // EP /=; eexists; first by [].
have p := ho [seq (s, f s) | s <- all_symbols P].
have Ef : map fst [seq (s, f s) | s <- all_symbols P] = all_symbols P.
  by rewrite -map_comp map_id.
have pf := Perm_map_fst p; rewrite Ef in pf.
rewrite sem_subs.
- rewrite /value EP; apply: eq_sem => s ss.
  by rewrite /update -(dict_get_perm s p) ?Ef // dict_get_graph se.
- by rewrite -(perm_uniq pf).
- move=> s v t /(Permutation_in _ (Permutation_sym p)) iv tv; rewrite -(perm_mem pf) => ta.
  have [ss Ev] := In_graph iv; rewrite -(dict_get_perm t p) ?Ef // dict_get_graph ta.
  by rewrite (hf s) // -Ev.
Qed.

(** The symbolic call with numbers agrees with the numeric one. *)
Lemma call_sym_num P order rho rho' extra :
  wf_poly P -> uniq (all_symbols P) -> (forall d, Permutation d (order d)) ->
  exists v e, [/\ call_num P (rcons (var_inputs P rho extra) (par_input P rho)) [::] = Ok v,
    call_sym P (sym_inputs P (fun s => ENum (rho s)))
      (Some [seq ENum (rho s) | s <- parameters P]) order = Ok e &
    sem rho' e = v].
Proof.
move=> w u ho; have [//|e Ee Es] := @call_sym_value P (fun s => ENum (rho s)) order rho' w u ho.
by exists (value P rho), e; rewrite call_value.
Qed.

(** Exchanging the two variables of x + 2 y. *)
Definition P_xy : poly C := MkPoly [:: lit "x"; lit "y"] [:: None; None] [::]
  (SPoly [:: lit "x"; lit "y"] (EAdd [:: ESym (lit "x"); EMul [:: ENum 2%:R; ESym (lit "y")]])).

Lemma call_sym_swap order :
  (forall d, Permutation d (order d)) ->
  exists2 e, call_sym P_xy [:: [:: ESym (lit "y")]; [:: ESym (lit "x")]] None order = Ok e &
  (forall rho, sem rho e = 3%:R * rho (lit "x")) \/ (forall rho, sem rho e = 3%:R * rho (lit "y")).
Proof.
move=> ho; eexists; first by [].
have p := ho [:: (lit "x", ESym (lit "y")); (lit "y", ESym (lit "x") : expr C)].
rewrite [X in order X]/= in p *; case: (Permutation_length_2_inv p) => ->.
  left=> rho; rewrite /= !big_cons !big_nil; ring.
right=> rho; rewrite /= !big_cons !big_nil; ring.
Qed.

(** ** A parameter whose base name is a variable *)
Lemma clash_scalar P rho extra s n i :
  wf_vars (variable_names P) (variable_indices P) ->
  (n, None) \in zip (variable_names P) (variable_indices P) ->
  split_subscript s = Ok (n, i) ->
  sympy_poly P = SPoly (var_symbols (variable_names P) (variable_indices P)) (ESym s) ->
  call_num P (rcons (var_inputs P rho extra) (par_input P rho)) [::] = Ok (rho n).
Proof.
move=> [un an sz nn] ni Es Ep.
rewrite (call_bound (vars := var_inputs P rho extra) (params := par_input P rho)); last first.
  by apply: sort_args_pos => //; [apply: size_var_inputs | apply: par_fit].
have [nN _] := mem_zip_both ni.
rewrite Ep /= Es /= nN /variable_index_dict.
rewrite (dict_get_map (fun x => if x.2 is Some l then Some (zip l (iota 0 (size l))) else None)
   _ ni) ?map_fst_zip //=.
by rewrite zip_map_fst // (dict_get_map (var_input rho extra) _ ni) ?map_fst_zip.
Qed.

Lemma clash_vector P rho extra s n l i :
  wf_vars (variable_names P) (variable_indices P) ->
  (n, Some l) \in zip (variable_names P) (variable_indices P) -> i \in l ->
  split_subscript s = Ok (n, Some i) ->
  sympy_poly P = SPoly (var_symbols (variable_names P) (variable_indices P)) (ESym s) ->
  call_num P (rcons (var_inputs P rho extra) (par_input P rho)) [::]
    = Ok (rho (merge_subscript n i)).
Proof.
move=> [un an sz nn] ni il Es Ep.
rewrite (call_bound (vars := var_inputs P rho extra) (params := par_input P rho)); last first.
  by apply: sort_args_pos => //; [apply: size_var_inputs | apply: par_fit].
have [nN _] := mem_zip_both ni.
rewrite Ep /= Es /= nN /variable_index_dict.
rewrite (dict_get_map (fun x => if x.2 is Some l then Some (zip l (iota 0 (size l))) else None)
   _ ni) ?map_fst_zip //=.
have [j [Ej jl Enth]] := dict_get_iota 0 il; rewrite Ej add0n /=.
rewrite zip_map_fst // (dict_get_map (var_input rho extra) _ ni) ?map_fst_zip //=.
rewrite (item_ok 0); last by rewrite size_cat size_map ltn_addr.
by rewrite nth_cat size_map jl (nth_map 0%Z) // Enth.
Qed.

Lemma clash_missing P args kw s n l i :
  wf_vars (variable_names P) (variable_indices P) ->
  (n, Some l) \in zip (variable_names P) (variable_indices P) ->
  (if i is Some j then j \notin l else true) ->
  split_subscript s = Ok (n, i) ->
  is_ok (sort_var_args (variable_names P) (size (parameters P)) args kw) ->
  sympy_poly P = SPoly (var_symbols (variable_names P) (variable_indices P)) (ESym s) ->
  call_num P args kw = Err KeyError.
Proof.
move=> [un an sz nn] ni il Es; case Ea: sort_var_args => [[vars params]|//] _ Ep.
rewrite (call_bound Ea).
have [nN _] := mem_zip_both ni.
rewrite Ep /= Es /= nN /variable_index_dict.
rewrite (dict_get_map (fun x => if x.2 is Some l then Some (zip l (iota 0 (size l))) else None)
   _ ni) ?map_fst_zip //=.
case: i il {Es} => [j|//] il; rewrite dict_get_notin //.
by rewrite map_fst_zip // size_iota.
Qed.
End Symbolic.

(** ** What from_sympy returns when the variable names are given *)
Section Spec.
Variable C : numClosedFieldType.
Variable norm : expr C -> expr C.
Implicit Types (e : expr C).

Lemma sub_listP par0 n syms i :
  reflect (exists2 v, v \in syms & v \notin par0 /\ split_subscript v = Ok (n, Some i))
          (i \in sub_list par0 n syms).
Proof.
rewrite /sub_list mem_pmap; apply: (iffP mapP) => [[v vs Ev]|[v vs [np Es]]]; exists v => //.
  move: Ev; rewrite /sub_at; case: ifP => // /negbT np; case: split_subscript => //.
  by case=> m [j|] //; case: eqP => // -> [->].
by rewrite /sub_at (negbTE np) Es eqxx.
Qed.

Lemma is_parP names v :
  reflect (exists2 n, has_base v n & n \notin names) (is_par names [::] v).
Proof.
rewrite /is_par /=; apply: (iffP idP) => [|[n [i ->]] //].
by case E: split_subscript => [[n i]|//] nn; exists n => //; exists i.
Qed.

Lemma sort_Z_strict l : uniq l -> sorted Z.ltb (sort Z.leb l).
Proof.
move=> u; have st := sort_sorted Zleb_total l; have := u; rewrite -(sort_uniq Z.leb).
elim: (sort Z.leb l) st => [//|a [//|b s] IH] /= /andP[ab st]; rewrite inE negb_or => /andP[/andP[ne _] us].
have /= -> := IH st us; rewrite andbT; move/eqP: ne ab => ne /Z.leb_le ab; apply/Z.ltb_lt; lia.
Qed.

Lemma idx_form_nth names params syms n : n \in names ->
  nth None (idx_form names params syms) (index n names) =
  if sub_list (par_of params) n syms is [::] then None
  else Some (sort Z.leb (sub_list (par_of params) n syms)).
Proof. by move=> nN; rewrite (nth_map [::]) ?index_mem // nth_index. Qed.

Lemma from_sympy_spec e syms names params P :
  uniq syms -> syms =i esyms e ->
  from_sympy norm e syms (Some names) params None = Ok P ->
  [/\ variable_names P = names /\ size (variable_indices P) = size names,
      forall n, n \in names ->
        match nth None (variable_indices P) (index n names) with
        | None => forall v i, v \in esyms e -> v \notin par_of params ->
                    split_subscript v <> Ok (n, Some i)
        | Some l => l <> [::] /\ sorted Z.ltb l /\
            forall i, i \in l <-> exists2 v, v \in esyms e &
               v \notin par_of params /\ split_subscript v = Ok (n, Some i)
        end,
      (if params is Some s then parameters P = s else
         [/\ sorted sym_leb (parameters P), uniq (parameters P) &
          forall v, v \in parameters P <->
            v \in esyms e /\ exists2 n, has_base v n & n \notin names]) &
      forall v, v \in esyms e -> canonical names (par_of params) v \in all_symbols P].
Proof.
move=> us se H; have [[En un] Hp _ Hpn [Hi _ Esp cov]] := from_sympy_result us se H.
have {}Hi := Hi erefl; have Eu : uniq (var_symbols names (variable_indices P)).
  have [_ _ [sp /sympy_Poly_ok[u _ _] ->]] := fs_names_sound us H.
  by move: u; rewrite cat_uniq => /and3P[].
split.
- by rewrite Hi size_map.
- move=> n nN; rewrite Hi idx_form_nth //.
  case El: (sub_list _ n syms) => [|j js].
    move=> v i ve np Es; have : i \in sub_list (par_of params) n syms.
      by apply/sub_listP; exists v; rewrite ?se.
    by rewrite El.
  rewrite -El; split; [|split].
  + by move=> E; have := size_sort Z.leb (sub_list (par_of params) n syms); rewrite E El.
  + apply: sort_Z_strict.
    rewrite -(sort_uniq Z.leb).
    apply: (var_symbols_uniq_in Eu (n := n)).
    rewrite Hi /idx_form.
    have := @mem_zip_map_in _ _ (fun n => if sub_list (par_of params) n syms is [::] then None
        else Some (sort Z.leb (sub_list (par_of params) n syms))) names n nN.
    by rewrite El.
  + move=> i; rewrite mem_sort; split=> [/sub_listP[v vs H']|[v vs H']].
      by exists v => //; rewrite -se.
    by apply/sub_listP; exists v; rewrite ?se.
- case: params Hp Hpn {H Hi Esp cov} => [s|] Hp Hpn; first exact: Hp.
  rewrite Hpn //; split.
  + exact: sort_sorted sym_leb_total _.
  + by rewrite sort_uniq filter_uniq.
  + move=> v; rewrite mem_sort mem_filter se; split.
      by case/andP => /is_parP.
    by case=> ve ?; rewrite ve andbT; apply/is_parP.
- move=> v ve; rewrite -canon_canonical; apply: cov; exact: map_f.
Qed.
End Spec.
