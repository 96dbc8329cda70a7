(** from_sympy: closed form of the result, independence of the visiting order. *)
From Coq Require Import ZArith Lia Ascii String.
From mathcomp Require Import all_ssreflect all_algebra.
From mathcomp Require Import zify ssrZ.
From Verif Require Import Base ModelStr ProofStr ModelExpr ModelPoly SpecPoly ProofPoly ProofPoly2
  ProofPoly3.
Delimit Scope Z_scope with Z.

Set Implicit Arguments.
Unset Strict Implicit.
Unset Printing Implicit Defensive.

Import GRing.Theory Num.Theory.
Local Open Scope ring_scope.

(** ** Sorting of indices and names *)
Lemma Zleb_total : total Z.leb. Proof. by move=> a b; lia. Qed.
Lemma Zleb_trans : transitive Z.leb. Proof. by move=> a b c; lia. Qed.
Lemma Zleb_anti : antisymmetric Z.leb.
Proof. by move=> a b /andP[/Z.leb_spec0 H1 /Z.leb_spec0 H2]; apply: Z.le_antisymm. Qed.

Lemma code_inj : injective code.
Proof. by move=> a b E; rewrite -(ascii_nat_embedding a) -(ascii_nat_embedding b) /= -/(code a) E. Qed.

Lemma sym_leb_total : total sym_leb.
Proof.
elim=> [|a s IH] [|b t] //=; case: (ltngtP (code a) (code b)) => //= _; exact: IH.
Qed.
Lemma sym_leb_anti : antisymmetric sym_leb.
Proof.
elim=> [|a s IH] [|b t] //=; case: (ltngtP (code a) (code b)) => //= E H.
by rewrite (code_inj E) (IH t).
Qed.
Lemma sym_leb_trans : transitive sym_leb.
Proof.
elim=> [|b t IH] [|a s] // [|c u] //=.
case/orP => [ab|/andP[/eqP -> st]]; case/orP => [bc|/andP[/eqP bc tu]].
- by rewrite (ltn_trans ab bc).
- by rewrite -bc ab.
- by rewrite bc.
- by rewrite bc eqxx (IH _ _ st tu) orbT.
Qed.

Lemma sort_Z_perm s t : perm_eq s t -> sort Z.leb s = sort Z.leb t.
Proof. exact: (perm_sortP Zleb_total Zleb_trans Zleb_anti). Qed.
Lemma sort_sym_perm s t : perm_eq s t -> sort sym_leb s = sort sym_leb t.
Proof. exact: (perm_sortP sym_leb_total sym_leb_trans sym_leb_anti). Qed.

Section FromSympy.
Variable C : numClosedFieldType.
Variable norm : expr C -> expr C.
Implicit Types (e : expr C) (names syms : seq sym).

Definition par_of (params : option (seq sym)) : seq sym := if params is Some s then s else [::].

(** Closed form of the metadata (names given, indices collected). *)
Definition idx_form names params syms : seq (option (seq Z)) :=
  [seq (if sub_list (par_of params) n syms is [::] then None
        else Some (sort Z.leb (sub_list (par_of params) n syms))) | n <- names].
Definition par_form names (params : option (seq sym)) syms : seq sym :=
  if params is Some s then s else sort sym_leb [seq v <- syms | is_par names [::] v].

Lemma loop_names hi hp vni st syms st' :
  fs_loop true hi hp vni st syms = Ok st' -> st_names st' = st_names st.
Proof.
elim: syms st => [|v syms IH] st /=; first by case=> ->.
case E: fs_step => [st1|//] /= /IH ->; move: E; rewrite /fs_step.
case: ifP => _; first by case=> ->.
case: split_subscript => [[n ix]|//] /=.
case: ifP => _ /=; first by case: hp {IH} => // -[<-].
case: dict_get => [k|//]; case: item => [ik|//] /=.
case: ix => [i|]; last by case: ik => // -[<-].
case: hi {IH} => /=; case: ik => [l|] //; first by case: ifP => // _ [<-].
  by case=> <-.
by case: ifP => // _ [<-].
Qed.

Lemma check_uniq names ex : check_signature ex names = Ok tt -> uniq names.
Proof. by rewrite /check_signature cat_uniq; case: uniq; rewrite ?andbF. Qed.

Lemma no_par_filter names (par0 : seq sym) syms :
  all (good names par0 true) syms -> [seq v <- syms | is_par names par0 v] = [::].
Proof.
elim: syms => [//|v syms IH] /= /andP[gv /IH ->]; move: gv; rewrite /good /is_par.
case: (v \in par0) => //=; case: split_subscript => //= -[n ix].
by rewrite orbF => ->.
Qed.

Lemma idx_formE names params syms idx :
  size idx = size names ->
  (forall k, (k < size names)%N -> nth None idx k =
     comb None (sub_list (par_of params) (nth [::] names k) syms)) ->
  [seq (if ind is Some l then Some (sort Z.leb l) else None) | ind <- idx] =
  idx_form names params syms.
Proof.
move=> sz H; apply: (@eq_from_nth _ None); rewrite !size_map // sz => k kn.
rewrite (nth_map None) ?sz // (nth_map [::]) // H //.
by case: sub_list => [//|i l] /=.
Qed.

Definition no_mix names (par0 : seq sym) syms : Prop :=
  forall v n, v \in syms -> plain par0 v n -> n \in names -> sub_list par0 n syms = [::].

Lemma nth_nseqN (k n : nat) (T : Type) : nth None (nseq n None) k = None :> option T.
Proof. by rewrite nth_nseq; case: ifP. Qed.

Lemma fs_names_sound e syms names params P :
  uniq syms -> from_sympy norm e syms (Some names) params None = Ok P ->
  [/\ check_signature [::] names = Ok tt,
      all (good names (par_of params) (isSome params)) syms &
      exists2 sp, sympy_Poly norm (erename (ren_list names (par_of params) syms) e)
        (var_symbols names (idx_form names params syms)) (par_form names params syms) = Ok sp &
      P = MkPoly names (idx_form names params syms) (par_form names params syms) sp].
Proof.
move=> us; rewrite /from_sympy /=.
case El: fs_loop => [st|//] /=; have En := loop_names El; rewrite /= in En.
rewrite En; case Ec: check_signature => [[]|//] /=; have un := check_uniq Ec.
have [] := loop_sound (par0 := par_of params) un El.
- by [].
- by rewrite size_nseq.
- exact: us.
- by move=> v _ /=; rewrite /par_of.
case=> _ sz Er Ep Hp Hidx Hg; rewrite /= in Er Ep.
have Ei := @idx_formE names params syms (st_idx st) sz _.
rewrite Ei; last by move=> k kn; rewrite Hidx //= nth_nseqN.
have Epar : (if isSome params then st_par st else sort sym_leb (st_par st)) = par_form names params syms.
  by rewrite Ep; case: params Hp {El Ep Er Hidx Hg Ei} => [s|] //= -> //; rewrite cats0.
rewrite Epar Er; case Es: sympy_Poly => [sp|//] /= [<-].
by split=> //; exists sp.
Qed.

Lemma fs_names_complete e syms names params sp :
  uniq syms -> check_signature [::] names = Ok tt ->
  all (good names (par_of params) (isSome params)) syms ->
  no_mix names (par_of params) syms ->
  sympy_Poly norm (erename (ren_list names (par_of params) syms) e)
    (var_symbols names (idx_form names params syms)) (par_form names params syms) = Ok sp ->
  from_sympy norm e syms (Some names) params None =
    Ok (MkPoly names (idx_form names params syms) (par_form names params syms) sp).
Proof.
move=> us Ec Hg Hm Hs; have un := check_uniq Ec.
have [|||||||st El] := @loop_complete names (par_of params) (isSome params) un
  (FsState names (nseq (size names) None) (nseq (size names) false) [::] (par_of params)) syms.
- by [].
- by rewrite /= size_nseq.
- by [].
- by [].
- by move=> k /=; rewrite nth_nseq; case: ifP.
- by [].
- by move=> v n vs pv nN /=; rewrite nth_nseqN (Hm v n).
have E : from_sympy norm e syms (Some names) params None =
   from_sympy norm e syms (Some names) params None by [].
rewrite {2}/from_sympy /= -/(par_of params) El /= in E.
have En := loop_names El; rewrite /= in En; rewrite En Ec /= in E.
have [] := loop_sound (par0 := par_of params) un El.
- by [].
- by rewrite size_nseq.
- exact: us.
- by [].
case=> _ sz Er Ep Hp Hidx _; rewrite /= in Er Ep.
have Ei := @idx_formE names params syms (st_idx st) sz _.
rewrite Ei in E; last by move=> k kn; rewrite Hidx //= nth_nseqN.
have Epar : (if isSome params then st_par st else sort sym_leb (st_par st)) = par_form names params syms.
  by rewrite Ep; case: params Hp {El E Ep Er Hidx Hg Ei Hm Hs} => [s|] //= -> //; rewrite cats0.
by rewrite Epar Er Hs /= in E.
Qed.

(** Renaming only depends on the set of symbols. *)
Lemma dict_get_ren names par0 syms v : uniq syms -> v \in syms ->
  dict_get (ren_list names par0 syms) v = omap snd (ren_at names par0 v).
Proof.
have key x y z : ren_at names par0 x = Some (y, z) -> y = x.
  rewrite /ren_at; case: ifP => // _; case: split_subscript => // -[n [i|]] //.
  by case: ifP => // _ [].
have notin x s : x \notin s -> dict_get (ren_list names par0 s) x = None.
  elim: s => [//|a s IH]; rewrite inE negb_or => /andP[xa /IH] /=.
  rewrite /ren_list /=; case E: ren_at => [[y z]|//] /= ->.
  by rewrite (key _ _ _ E) (negbTE xa).
elim: syms => [//|a s IH] /= /andP[na us]; rewrite inE => /orP[/eqP ->|vs].
  rewrite /ren_list /=; case E: ren_at => [[y z]|] /=; last exact: notin.
  by rewrite -/(ren_list names par0 s) notin // (key _ _ _ E) eqxx.
rewrite /ren_list /=; case E: ren_at => [[y z]|] /=; last exact: IH.
rewrite -/(ren_list names par0 s) IH //; case: ren_at => [x|] //=.
case: eqP => // Ev; by rewrite -(key _ _ _ E) -Ev vs in na.
Qed.

Definition canon names (par0 : seq sym) (v : sym) : sym :=
  if ren_at names par0 v is Some (_, t) then t else v.

Lemma erenameE names par0 syms e : uniq syms -> {subset esyms e <= syms} ->
  erename (ren_list names par0 syms) e = esubst (fun s => ESym (canon names par0 s)) e.
Proof.
move=> us sub; apply: eq_esubst => s /sub ss; congr ESym.
by rewrite /rename_fun dict_get_ren // /canon; case: ren_at => [[]|].
Qed.

Lemma merge_neg_alpha n i : (i < 0)%Z -> ~~ alpha (merge_subscript n i).
Proof.
move=> i0; rewrite /alpha /merge_subscript /str_int.
have -> : (i <? 0)%Z by apply/Z.ltb_lt.
by rewrite all_cat /= !andbF.
Qed.

(** The generators of the polynomial only contain a plainly used variable if it
    is a scalar. *)
Lemma plain_gen names inds (par0 : seq sym) v n : all alpha names ->
  plain par0 v n -> n \in names -> v \in var_symbols names inds ->
  (n, None) \in zip names inds.
Proof.
move=> al [vp Ev] nN /in_var_symbols[m [ind [mz]]].
have [mN _] := mem_zip_both mz; have /andP[m0 am] := allP al _ mN.
case: ind mz => [l|] mz /=; last first.
  by rewrite inE => /eqP E; move: Ev; rewrite E split_plain // => -[<-].
case/mapP => i il E; move: Ev; rewrite E; case: (Z_lt_le_dec i 0) => i0.
  by rewrite split_negative // => -[E']; have := merge_neg_alpha m i0; rewrite E' (allP al).
by rewrite merge_split.
Qed.

Lemma mem_zip_map (A B : eqType) (f : A -> B) (s : seq A) x y :
  (x, y) \in zip s (map f s) -> y = f x.
Proof.
elim: s => [//|a s IH] /=; rewrite inE => /orP[/eqP[-> ->]//|/IH //].
Qed.

Lemma sympy_Poly_ok e gens par sp : sympy_Poly norm e gens par = Ok sp ->
  [/\ uniq (gens ++ par), {subset esyms e <= gens ++ par} & sp = SPoly gens (norm e)].
Proof.
rewrite /sympy_Poly; case: ifP => // /and3P[_ u /allP H] [<-]; split=> //.
Qed.

Lemma fs_no_mix e syms names params P : uniq syms -> syms =i esyms e -> all alpha names ->
  from_sympy norm e syms (Some names) params None = Ok P -> no_mix names (par_of params) syms.
Proof.
move=> us es al /(fs_names_sound us)[_ _ [sp /sympy_Poly_ok[_ sub _] _]] v n vs pv nN.
have [vp Ev] := pv.
have Er : canon names (par_of params) v = v by rewrite /canon /ren_at (negbTE vp) Ev.
have : v \in esyms (erename (ren_list names (par_of params) syms) e).
  rewrite erenameE // => [|s]; last by rewrite es.
  by rewrite esyms_ren -Er; apply: map_f; rewrite -es.
move=> /sub; rewrite mem_cat => /orP[/(plain_gen al pv nN)|].
  rewrite /idx_form => /mem_zip_map; by case: sub_list.
rewrite /par_form; case: params {sub Er} vp pv => [s|] /= vp pv.
  by rewrite (negbTE vp).
by rewrite mem_sort mem_filter /is_par Ev nN andbF.
Qed.

Lemma sub_list_perm par0 n s t : perm_eq s t -> perm_eq (sub_list par0 n s) (sub_list par0 n t).
Proof. exact: perm_pmap. Qed.

Lemma idx_form_perm names params s t : perm_eq s t ->
  idx_form names params s = idx_form names params t.
Proof.
move=> pst; apply: eq_map => n; have := sub_list_perm (par_of params) n pst.
case: (sub_list _ n s) => [|i l].
  by rewrite perm_sym => /perm_nilP ->.
case: (sub_list _ n t) => [/perm_nilP //|j l'] H.
by rewrite (sort_Z_perm H).
Qed.

Lemma par_form_perm names params s t : perm_eq s t ->
  par_form names params s = par_form names params t.
Proof.
by move=> pst; case: params => [//|] /=; apply: sort_sym_perm; apply: perm_filter.
Qed.

(** Names given, indices collected. *)
Lemma from_sympy_order_free e syms syms' names params P :
  uniq syms -> syms =i esyms e -> perm_eq syms syms' -> all alpha names ->
  from_sympy norm e syms (Some names) params None = Ok P ->
  from_sympy norm e syms' (Some names) params None = Ok P.
Proof.
move=> us es pst al H; have us' : uniq syms' by rewrite -(perm_uniq pst).
have nm := fs_no_mix us es al H.
have [Ec Hg [sp Hs ->]] := fs_names_sound us H.
rewrite (idx_form_perm _ _ pst) (par_form_perm _ _ pst).
apply: fs_names_complete => //.
- by rewrite -(perm_all _ pst).
- move=> v n vs pv nN; have Hn := nm v n _ pv nN.
  have := sub_list_perm (par_of params) n pst; rewrite Hn ?(perm_mem pst) //.
  by rewrite perm_sym => /perm_nilP.
rewrite -(idx_form_perm _ _ pst) -(par_form_perm _ _ pst) -Hs.
rewrite !erenameE // => s; by rewrite -?(perm_mem pst) es.
Qed.

(** Names and indices given. *)
Lemma fs_hi e syms names params idx P : uniq syms -> {subset esyms e <= syms} ->
  from_sympy norm e syms (Some names) params (Some idx) = Ok P <->
  [/\ check_signature [::] names = Ok tt,
      all (fits_idx names (par_of params) (isSome params) idx) syms &
      exists2 sp, sympy_Poly norm (esubst (fun s => ESym (canon names (par_of params) s)) e)
        (var_symbols names idx) (par_form names params syms) = Ok sp &
      P = MkPoly names idx (par_form names params syms) sp].
Proof.
move=> us sub; rewrite /from_sympy /= -/(par_of params).
case Ec: (check_signature [::] names) => [[]|x]; last first.
  split; last by case.
  case El: fs_loop => [st|//] /=; have /= -> := loop_names El.
  by rewrite Ec.
have un := check_uniq Ec.
have [] := @loop_hi names (par_of params) (isSome params) un
  (FsState names idx (nseq (size names) false) [::] (par_of params)) syms erefl us.
  by [].
move=> /=; case fi: (all (fits_idx _ _ _ _) syms); last first.
  by case: fs_loop => // x _ _; split=> //; case.
move=> _ /(_ isT) El.
rewrite El /= Ec /= erenameE //.
have Epar : (if isSome params then par_of params ++ [seq v <- syms | is_par names (par_of params) v]
   else sort sym_leb (par_of params ++ [seq v <- syms | is_par names (par_of params) v])) =
   par_form names params syms.
  case: params fi {El} => [s|] //= fi; rewrite no_par_filter ?cats0 //.
  apply: sub_all fi => v; rewrite /fits_idx /good; case: (v \in s) => //=.
  case: split_subscript => // -[n ix]; by case: ifP.
rewrite Epar; split.
  by case E: sympy_Poly => [sp|//] /= [<-]; split=> //; exists sp.
by case=> _ _ [sp -> ->].
Qed.

Lemma from_sympy_hi_order_free e syms syms' names params idx P :
  uniq syms -> syms =i esyms e -> perm_eq syms syms' ->
  from_sympy norm e syms (Some names) params (Some idx) = Ok P ->
  from_sympy norm e syms' (Some names) params (Some idx) = Ok P.
Proof.
move=> us es pst; have us' : uniq syms' by rewrite -(perm_uniq pst).
rewrite !fs_hi //.
- by rewrite (perm_all _ pst) (par_form_perm _ _ pst).
- by move=> s; rewrite -(perm_mem pst) es.
- by move=> s; rewrite es.
Qed.

(** Either way. *)
Lemma from_sympy_perm e syms syms' names params indices :
  uniq syms -> syms =i esyms e -> perm_eq syms syms' -> all alpha names ->
  is_ok (from_sympy norm e syms (Some names) params indices) =
    is_ok (from_sympy norm e syms' (Some names) params indices) /\
  forall P, from_sympy norm e syms (Some names) params indices = Ok P ->
            from_sympy norm e syms' (Some names) params indices = Ok P.
Proof.
have main s s' : uniq s -> s =i esyms e -> perm_eq s s' -> all alpha names ->
  forall P, from_sympy norm e s (Some names) params indices = Ok P ->
            from_sympy norm e s' (Some names) params indices = Ok P.
  case: indices => [idx|] us es pst al P.
    exact: from_sympy_hi_order_free.
  exact: from_sympy_order_free.
move=> us es pst al; split; last exact: main.
have us' : uniq syms' by rewrite -(perm_uniq pst).
have es' : syms' =i esyms e by move=> x; rewrite -(perm_mem pst) es.
case E: from_sympy => [P|x] /=; first by rewrite (main _ _ us es pst al _ E).
case E': from_sympy => [P|//] /=.
by rewrite perm_sym in pst; rewrite (main _ _ us' es' pst al _ E') in E.
Qed.

(** ** What the constructed polynomial is *)
Lemma canonE names (par0 : seq sym) v :
  canon names par0 v =
  if v \in par0 then v else
  if split_subscript v is Ok (n, Some i) then if n \in names then merge_subscript n i else v
  else v.
Proof.
rewrite /canon /ren_at; case: ifP => // _; case: split_subscript => // -[n [i|]] //.
by case: ifP.
Qed.

Lemma from_sympy_result e syms names params indices P :
  uniq syms -> syms =i esyms e ->
  from_sympy norm e syms (Some names) params indices = Ok P ->
  [/\ variable_names P = names /\ uniq names,
      (forall s, params = Some s -> parameters P = s),
      (forall l, indices = Some l -> variable_indices P = l),
      (params = None -> parameters P = sort sym_leb [seq v <- syms | is_par names [::] v]) &
      [/\ indices = None -> variable_indices P = idx_form names params syms,
      all (good names (par_of params) (isSome params)) syms,
      sympy_poly P = SPoly (var_symbols names (variable_indices P))
        (norm (esubst (fun s => ESym (canon names (par_of params) s)) e)) &
      {subset map (canon names (par_of params)) (esyms e) <= all_symbols P}]].
Proof.
move=> us es; case: indices => [idx|] H.
  have sub : {subset esyms e <= syms} by move=> s; rewrite es.
  move/(fs_hi _ _ _ _ us sub): H => [Ec fi [sp /sympy_Poly_ok[_ Hs ->] ->]] /=.
  split=> //; first by split=> //; exact: check_uniq Ec.
  - by move=> s ->.
  - by move=> l [].
  - by move=> ->.
  split=> //.
    apply: sub_all fi => v; rewrite /fits_idx /good; case: (v \in par_of params) => //=.
    by case: split_subscript => // -[n ix]; case: (n \in names).
  by move=> s; rewrite -esyms_ren => /Hs.
have [Ec Hg [sp /sympy_Poly_ok[_ Hs ->] ->]] := fs_names_sound us H.
have E := @erenameE names (par_of params) syms e us.
rewrite E in Hs *; try by move=> s; rewrite es.
split=> //=; first by split=> //; exact: check_uniq Ec.
- by move=> s ->.
- by move=> ->.
by split=> // s; rewrite -esyms_ren => /Hs.
Qed.
End FromSympy.
