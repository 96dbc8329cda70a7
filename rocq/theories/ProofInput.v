(** from_sympy of a sympy.Poly: the order of the names and keyword calls. *)
From Coq Require Import ZArith Lia Ascii String.
From mathcomp Require Import all_ssreflect all_algebra.
From mathcomp Require Import zify ssrZ.
From Verif Require Import Base ModelStr ProofStr ModelExpr ModelPoly ModelInput SpecPoly SpecInput
  ProofPoly ProofPoly2 ProofPoly3 ProofPoly4 ProofPoly5 ProofPoly7 ProofClash.
Delimit Scope Z_scope with Z.

Set Implicit Arguments.
Unset Strict Implicit.
Unset Printing Implicit Defensive.

Import GRing.Theory Num.Theory.
Local Open Scope ring_scope.

Section Input.
Variable C : numClosedFieldType.
Variable norm : expr C -> expr C.
Notation expr := (expr C).

Lemma eval_dict_ext (names names' : seq sym) reo reo' pari (e : expr) :
  names =i names' -> (forall n, n \in names -> dict_get reo n = dict_get reo' n) ->
  eval_sympy names reo pari e = eval_sympy names' reo' pari e.
Proof.
move=> en er; elim/expr_nest_ind: e => [c||s|es IH|es IH|e n IH] //=.
- case: (split_subscript s) => [[n ix]|] //=; rewrite -en; case: ifP => // nn; by rewrite er.
- by rewrite (rseq_ext IH).
- by rewrite (rseq_ext IH).
- by rewrite IH.
Qed.

Lemma eval_var_ext names reo pari (e : expr) fn (var var' : sym -> option (pyval C)) par :
  (forall n, n \in names -> var n = var' n) -> eval_sympy names reo pari e = Ok fn -> fn var par = fn var' par.
Proof.
move=> ev; elim/expr_nest_ind: e fn => [c||s|es IH|es IH|e n IH] fn //=.
- by case=> <-.
- case: (split_subscript s) => [[n ix]|] //=; case: ifP => nn.
    case: (dict_get reo n) => [[r|]|] //; last by case=> <-; rewrite ev.
    by case: ix => [j|] //; case: (dict_get r j) => // i [<-]; rewrite ev.
  by case: (dict_get pari s) => [i|] // [<-].
- case E: (rseq _) => [fns|] //= -[<-]; congr rbind.
  by apply: rseq_ext => f fi; have [e [ei Ee]] := rseq_In E fi; exact: IH ei _ Ee.
- case E: (rseq _) => [fns|] //= -[<-]; congr rbind.
  by apply: rseq_ext => f fi; have [e [ei Ee]] := rseq_In E fi; exact: IH ei _ Ee.
- by case E: (eval_sympy _ _ _ e) => [f|] //= -[<-]; rewrite (IH _ E).
Qed.

(** Values looked up by name. *)
Definition look (kw : seq (sym * pyval C)) (n : sym) : res (pyval C) :=
  if dict_get kw n is Some v then Ok v else Err KeyError.

Lemma look_ok kw (names : seq sym) : (forall n, n \in names -> isSome (dict_get kw n)) ->
  rseq (map (look kw) names) = Ok (map (fun n => odflt PNone (dict_get kw n)) names).
Proof.
elim: names => [//|n names IH] H /=; rewrite IH => [|m mn]; last by apply: H; rewrite inE mn orbT.
by have := H n (mem_head _ _); rewrite /look; case: (dict_get kw n).
Qed.

Lemma look_err kw (names : seq sym) : ~~ all (fun n => isSome (dict_get kw n)) names ->
  rseq (map (look kw) names) = Err KeyError.
Proof.
elim: names => [//|n names IH] /=; rewrite negb_and {1}/look; case: (dict_get kw n) => [v|] //= /IH -> //.
Qed.

Definition finish (np : nat) (p : pyval C) (more : seq (pyval C)) : res (seq (pyval C) * pyval C) :=
  match p with
  | PNone => Ok (more, p)
  | PArr a => do _ <- rassert (size a == np); Ok (more, p)
  | PNum _ => Err TypeError
  end.
Definition others (kw : seq (sym * pyval C)) : seq (sym * pyval C) :=
  if dict_get kw (lit "params") is Some _ then [seq kv <- kw | kv.1 != lit "params"] else kw.

Lemma sort_kw names np kw : sort_var_args names np [::] kw =
  (do more <- rseq (map (look (others kw)) names);
   finish np (odflt PNone (dict_get kw (lit "params"))) more).
Proof.
rewrite /sort_var_args /others; case E: (dict_get kw _) => [p|] /=; rewrite drop0 //.
Qed.

Lemma dict_get_zip_map (names : seq sym) (f : sym -> pyval C) n :
  dict_get (zip names (map f names)) n = if n \in names then Some (f n) else None.
Proof.
elim: names => [//|m names IH] /=; rewrite IH inE [n == m]eq_sym.
by case: (n \in names); rewrite ?orbT ?orbF //; case: eqP => // ->.
Qed.

Lemma dict_get_zip_opt (V : Type) (names : seq sym) (f : sym -> V) (g : V -> option (seq (Z * nat))) n :
  dict_get [seq (ni.1, g ni.2) | ni <- zip names (map f names)] n =
  if n \in names then Some (g (f n)) else None.
Proof.
elim: names => [//|m names IH] /=; rewrite IH inE [n == m]eq_sym.
by case: (n \in names); rewrite ?orbT ?orbF //; case: eqP => // ->.
Qed.

(** Keyword calls of two polynomials that differ in the order of the variables. *)
Lemma kw_call_order (names names' : seq sym) (f : sym -> option (seq Z)) par g g' (e : expr) kw :
  perm_eq names names' ->
  call_num (MkPoly names (map f names) par (SPoly g e)) [::] kw =
  call_num (MkPoly names' (map f names') par (SPoly g' e)) [::] kw.
Proof.
move=> pn; have en := perm_mem pn; rewrite /call_num /= !sort_kw.
case: (boolP (all (fun n => isSome (dict_get (others kw) n)) names)) => al; last first.
  by rewrite !look_err // -(perm_all _ pn).
rewrite !look_ok; first last.
- exact/allP.
- by apply/allP; rewrite -(perm_all _ pn).
cbn [rbind]; rewrite /finish; set p := odflt _ _.
have H q : (do e0 <- Ok e;
   do fn <- eval_sympy names (variable_index_dict (MkPoly names (map f names) par (SPoly g e)))
     (parameter_position (MkPoly names (map f names) par (SPoly g e))) e0;
   fn (dict_get (zip names (map (fun n => odflt PNone (dict_get (others kw) n)) names))) q) =
  (do e0 <- Ok e;
   do fn <- eval_sympy names' (variable_index_dict (MkPoly names' (map f names') par (SPoly g' e)))
     (parameter_position (MkPoly names' (map f names') par (SPoly g' e))) e0;
   fn (dict_get (zip names' (map (fun n => odflt PNone (dict_get (others kw) n)) names'))) q) :> res C.
  cbn [rbind]; rewrite (@eval_dict_ext names names' _
    (variable_index_dict (MkPoly names' (map f names') par (SPoly g' e)))) //; last first.
    pose gz (l : option (seq Z)) := if l is Some l then Some (zip l (iota 0 (size l))) else None.
    move=> n nn; rewrite /variable_index_dict /=.
    by rewrite (dict_get_zip_opt names f gz) (dict_get_zip_opt names' f gz) -en nn.
  rewrite -[parameter_position (MkPoly names' _ _ _)]/(parameter_position (MkPoly names (map f names) par (SPoly g e))).
  case E: (eval_sympy _ _ _ e) => [fn|] //; cbn [rbind].
  apply: eval_var_ext E => n nn; by rewrite !dict_get_zip_map en.
case: p => [|c|a] //; first exact: H.
by case: (rassert _) => // ?; exact: H.
Qed.

(** The same expression with the names in another order. *)
Lemma names_order (e : expr) syms names names' params P :
  uniq syms -> syms =i esyms e -> all alpha names -> perm_eq names names' ->
  from_sympy norm e syms (Some names) params None = Ok P ->
  exists P', [/\ from_sympy norm e syms (Some names') params None = Ok P',
    variable_names P' = names', parameters P' = parameters P,
    (forall n, n \in names -> nth None (variable_indices P') (index n names') =
                             nth None (variable_indices P) (index n names)) &
    forall kw, call_num P' [::] kw = call_num P [::] kw].
Proof.
move=> us es al pn H; have en := perm_mem pn.
have nm := fs_no_mix us es al H.
have [Ec Hg [sp Hsp EP]] := fs_names_sound us H.
have [usp sub Esp] := sympy_Poly_ok Hsp.
pose f n := if sub_list (par_of params) n syms is [::] then None
        else Some (sort Z.leb (sub_list (par_of params) n syms)).
have Ei s : idx_form s params syms = map f s by [].
have Epar : par_form names' params syms = par_form names params syms.
  rewrite /par_form; clear -en; case: params => // ; congr sort.
  by apply: eq_filter => v; rewrite /is_par; case: split_subscript => // -[n ?]; rewrite en.
have Er : ren_list names' (par_of params) syms = ren_list names (par_of params) syms.
  by apply: eq_pmap => v; rewrite /ren_at; case: ifP => // _; case: split_subscript => // -[n [i|]] //; rewrite en.
have pv : perm_eq (var_symbols names (map f names)) (var_symbols names' (map f names')).
  have vE s : var_symbols s (map f s) = flatten [seq symbols_of n (f n) | n <- s].
    by rewrite /var_symbols; congr flatten; elim: s => //= a s ->.
  rewrite !vE; exact: perm_flatten (perm_map _ pn).
exists (MkPoly names' (map f names') (par_form names params syms)
  (SPoly (var_symbols names' (map f names')) (norm (erename (ren_list names (par_of params) syms) e)))).
have EP' : from_sympy norm e syms (Some names') params None =
  Ok (MkPoly names' (idx_form names' params syms) (par_form names' params syms)
    (SPoly (var_symbols names' (map f names')) (norm (erename (ren_list names (par_of params) syms) e)))).
  apply: fs_names_complete => //.
  - by move: Ec; rewrite /check_signature -(perm_all _ pn) -(perm_uniq (perm_cat pn (perm_refl _))).
  - by apply: sub_all Hg => v; rewrite /good; case: split_subscript => // -[n ?]; rewrite en.
  - by move=> v n vs pl nn; apply: (nm v n vs pl); rewrite en.
  rewrite Er Epar Ei; move: Hsp; rewrite /sympy_Poly Ei.
  case: ifP => // /and3P[g0 ug al'] _.
  have -> : (var_symbols names' (map f names') != [::]).
    by apply: contra g0 => /eqP E; move: pv; rewrite E => /perm_nilP ->.
  rewrite -(perm_uniq (perm_cat pv (perm_refl _))) ug /=.
  have -> // : all (fun s => s \in var_symbols names' (map f names') ++ par_form names params syms)
    (esyms (erename (ren_list names (par_of params) syms) e)).
  by apply: sub_all al' => s; rewrite !mem_cat (perm_mem pv).
rewrite EP' Ei Epar EP Ei Esp; split=> //.
- move=> n nn; rewrite !(nth_map [::]) ?index_mem -?en //.
  by rewrite !nth_index // -en.
- move=> kw; apply: kw_call_order; by rewrite perm_sym.
Qed.
End Input.

Section Obj.
Variable C : numClosedFieldType.
Variable norm : expr C -> expr C.
Notation expr := (expr C).

Lemma gen_basesP gens bases : gen_bases gens = Ok bases ->
  uniq bases /\ forall n, n \in bases <-> exists2 g, g \in gens & has_base g n.
Proof.
rewrite /gen_bases; case E: (rseq _) => [ns|] //= -[<-]; split; first exact: undup_uniq.
move=> n; rewrite mem_undup; elim: gens ns E => [|g gens IH] ns /=.
  by case=> <-; split=> // -[].
case Eg: (split_subscript g) => [[m i]|] //=; case E: (rseq _) => [r|] //= -[<-]; rewrite inE.
split=> [/orP[/eqP ->|/(IH _ E)[g' gg hb]]|[g']].
- by exists g; rewrite ?mem_head //; exists i.
- by exists g'; rewrite ?inE ?gg ?orbT.
- rewrite inE => /orP[/eqP -> [j]|gg hb]; first by rewrite Eg => -[-> _]; rewrite eqxx.
  by apply/orP; right; apply/(IH _ E); exists g'.
Qed.

Lemma obj_order gens dom (e : expr) syms l1 l2 params P :
  (forall s, perm_eq (l1 s) s) -> (forall s, perm_eq (l2 s) s) ->
  uniq syms -> syms =i esyms e ->
  (forall g n, g \in gens -> has_base g n -> alpha n) ->
  from_sympy_obj norm gens dom e syms l1 None params None = Ok P ->
  exists P', [/\ from_sympy_obj norm gens dom e syms l2 None params None = Ok P',
    perm_eq (variable_names P') (variable_names P), parameters P' = parameters P,
    (forall n, n \in variable_names P -> nth None (variable_indices P') (index n (variable_names P')) =
                             nth None (variable_indices P) (index n (variable_names P))) &
    forall kw, call_num P' [::] kw = call_num P [::] kw].
Proof.
move=> p1 p2 us es ga; rewrite /from_sympy_obj /=.
case Eb: (gen_bases gens) => [bs|] //=; have [ub mb] := gen_basesP Eb.
set ps := if params is Some _ then _ else _ => H.
have al : all alpha (l1 bs).
  by apply/allP => n; rewrite (perm_mem (p1 _)) => /mb[g gg hb]; exact: ga gg hb.
have pl : perm_eq (l1 bs) (l2 bs) by apply: perm_trans (p1 _) _; rewrite perm_sym.
have [P' [H' En Ep Ei Ec]] := names_order us es al pl H.
have [[En1 _] _ _ _ _] := from_sympy_result us es H.
by exists P'; rewrite En En1 perm_sym.
Qed.

Lemma obj_value gens dom (e : expr) syms l params P (rho : sym -> C) extra :
  norm_ok norm -> (forall s, perm_eq (l s) s) -> uniq syms -> syms =i esyms e -> no_I e ->
  (forall g n, g \in gens -> has_base g n -> alpha n) ->
  let pars := if params is Some s then Some s else dom in
  (forall p, p \in odflt [::] pars -> exists2 n, has_base p n & forall g, g \in gens -> ~ has_base g n) ->
  (forall v n i, v \in syms -> split_subscript v = Ok (n, Some i) -> (0 <= i)%Z) ->
  from_sympy_obj norm gens dom e syms l None params None = Ok P ->
  [/\ forall n, n \in variable_names P <-> exists2 g, g \in gens & has_base g n,
      (forall s, pars = Some s -> parameters P = s) &
      call_num P (rcons (var_inputs P rho extra) (par_input P rho)) [::] =
        Ok (sem (fun v => rho (canonical (variable_names P) (odflt [::] pars) v)) e)].
Proof.
move=> nk pl us es nI ga pars wp nn; rewrite /from_sympy_obj /=.
case Eb: (gen_bases gens) => [bs|] //=; have [ub mb] := gen_basesP Eb => H.
have ml n : n \in l bs <-> exists2 g, g \in gens & has_base g n by rewrite (perm_mem (pl _)).
have Epar : (if params is Some _ then params else dom) = pars by rewrite /pars; case: (params).
rewrite Epar in H; have [[En _] Ep _ _ _] := from_sympy_result us es H; rewrite En.
split=> //; apply: (@from_sympy_call C norm e syms (l bs) pars None P rho extra) => //.
- by apply/allP => n /ml[g gg hb]; exact: ga gg hb.
- move=> s Es p ps.
  have [|n hb ng] := wp p; first by rewrite Es.
  by exists n => //; apply/negP => /ml[g gg hg]; exact: ng gg hg.
Qed.
End Obj.

(** Two squares among many generators. *)
Section Drop.
Variable C : numClosedFieldType.
Variable norm : expr C -> expr C.


Lemma zsym_split i : split_subscript (zsym i) = Ok (lit "z", Some (Z.of_nat i)).
Proof. by rewrite /zsym merge_split //; lia. Qed.

#[local] Arguments zsym : simpl never.
#[local] Arguments split_subscript : simpl never.

Lemma two_squares_made n l : (0 < n)%N -> (forall s, perm_eq (l s) s) ->
  from_sympy_obj norm [seq zsym i | i <- iota 0 n.+1] None (two_squares C n) [:: zsym 0; zsym n] l None None None =
  Ok (MkPoly [:: lit "z"] [:: Some [:: 0%Z; Z.of_nat n]] [::]
       (SPoly [:: zsym 0; zsym n] (norm (two_squares C n)))).
Proof.
move=> n0 pl; rewrite /from_sympy_obj.
have -> : gen_bases [seq zsym i | i <- iota 0 n.+1] = Ok [:: lit "z"].
  rewrite /gen_bases -map_comp (@rseq_map_ok _ _ _ (fun=> lit "z")); last by move=> i _ /=; rewrite zsym_split.
  congr Ok; elim: (n) 0%N => [//|m IH] k; rewrite -[RHS](IH k.+1).
  by [].
have El : l [:: lit "z"] = [:: lit "z"] by apply: perm_small_eq (pl _).
have zn : zsym n != zsym 0.
  by apply/eqP => E; have := zsym_split n; rewrite E zsym_split => -[]; lia.
rewrite /= El /from_sympy [fs_loop _ _ _ _ _ _]/= /fs_step zsym_split.
have Es : sort Z.leb [:: 0%Z; Z.of_nat n] = [:: 0%Z; Z.of_nat n].
  by apply: sorted_sort; [exact: Zleb_trans|rewrite /= andbT; lia].
rewrite /= -!/(zsym _) Es.
rewrite -[merge_subscript _ 0]/(zsym 0).
have -> : erename [:: (zsym 0, zsym 0); (zsym n, zsym n)] (two_squares C n) = two_squares C n.
  have rid s : rename_fun [:: (zsym 0, zsym 0); (zsym n, zsym n)] s = s.
    by rewrite /rename_fun /=; case: eqP => [->//|_]; case: eqP => [->//|_].
  by rewrite /erename /= !rid.
have -> : var_symbols [:: [:: "z"%char]] [:: Some [:: 0%Z; Z.of_nat n]] = [:: zsym 0; zsym n] by [].
have -> : sort sym_leb [::] = [::] by [].
by rewrite /sympy_Poly /= !inE !eqxx !orbT /= [zsym 0 == zsym n]eq_sym (negbTE zn).
Qed.

Lemma two_squares_call n l P (a b : C) rest : (0 < n)%N -> (forall s, perm_eq (l s) s) -> norm_ok norm ->
  from_sympy_obj norm [seq zsym i | i <- iota 0 n.+1] None (two_squares C n) [:: zsym 0; zsym n] l None None None = Ok P ->
  variable_indices P = [:: Some [:: 0%Z; Z.of_nat n]] /\
  call_num P [:: PArr (a :: b :: rest); PArr [::]] [::] = Ok (a ^+ 2 + b ^+ 2).
Proof.
move=> n0 pl nk; rewrite two_squares_made // => -[<-]; split=> //.
have zn : zsym n != zsym 0.
  by apply/eqP => E; have := zsym_split n; rewrite E zsym_split => -[]; lia.
set P' := MkPoly _ _ _ _.
pose rho s := if s == zsym 0 then a else b.
have wP : wf_poly P'.
  split=> //; first by split=> //=; rewrite ?andbT; lia.
  exists [:: zsym 0; zsym n], (norm (two_squares C n)); split=> //; last by have [_ _ h] := nk; exact: h.
  have [_ h _] := nk; move=> s /h hs; change (s \in [:: zsym 0; zsym n]).
  by move: hs; rewrite /= !inE.
have := call_value rho (fun=> rest) wP.
have -> : rcons (var_inputs P' rho (fun=> rest)) (par_input P' rho) = [:: PArr (a :: b :: rest); PArr [::]].
  by rewrite /var_inputs /par_input /= /var_input /= -!/(zsym _) -[merge_subscript _ 0]/(zsym 0) /rho eqxx (negbTE zn).
move=> ->; congr Ok; have [h _ _] := nk.
rewrite -[value _ _]/(sem rho (norm (two_squares C n))) h /= !big_cons big_nil addr0 /rho.
by rewrite eqxx (negbTE zn).
Qed.
End Drop.
