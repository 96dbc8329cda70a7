(** from_sympy: rejected inputs, automatic variables, end-to-end evaluation. *)
From Coq Require Import ZArith Lia Ascii String.
From mathcomp Require Import all_ssreflect all_algebra.
From mathcomp Require Import zify ssrZ.
From Verif Require Import Base ModelStr ProofStr ModelExpr ModelPoly SpecPoly ProofPoly ProofPoly2
  ProofPoly3 ProofPoly4.
Delimit Scope Z_scope with Z.

Set Implicit Arguments.
Unset Strict Implicit.
Unset Printing Implicit Defensive.

Import GRing.Theory Num.Theory.
Local Open Scope ring_scope.

Section FromSympy.
Variable C : numClosedFieldType.
Variable norm : expr C -> expr C.
Implicit Types (e : expr C) (names syms : seq sym).

(** ** Mixed use *)
Lemma mem_sub_list par0 n syms v i : v \in syms -> v \notin par0 ->
  split_subscript v = Ok (n, Some i) -> i \in sub_list par0 n syms.
Proof.
move=> vs vp Ev; rewrite /sub_list mem_pmap; apply/mapP; exists v => //.
by rewrite /sub_at (negbTE vp) Ev eqxx.
Qed.

Lemma from_sympy_mixed e syms names params v w n i :
  uniq syms -> syms =i esyms e -> all alpha names -> n \in names ->
  v \in syms -> v \notin par_of params -> split_subscript v = Ok (n, None) ->
  w \in syms -> w \notin par_of params -> split_subscript w = Ok (n, Some i) ->
  is_ok (from_sympy norm e syms (Some names) params None) = false.
Proof.
move=> us es al nN vs vp Ev ws wp Ew; case E: from_sympy => [P|//].
have /(_ v n vs (conj vp Ev) nN) E' := fs_no_mix us es al E.
by have := mem_sub_list ws wp Ew; rewrite E'.
Qed.

(** ** Two spellings of one indexed variable *)
Lemma count_sub_list par0 n syms v w i : uniq syms -> v != w ->
  v \in syms -> w \in syms -> v \notin par0 -> w \notin par0 ->
  split_subscript v = Ok (n, Some i) -> split_subscript w = Ok (n, Some i) ->
  ~~ uniq (sub_list par0 n syms).
Proof.
move=> us vw vs ws vp wp Ev Ew.
have E x : x \notin par0 -> split_subscript x = Ok (n, Some i) -> sub_at par0 n x = Some i.
  by move=> xp Ex; rewrite /sub_at (negbTE xp) Ex eqxx.
elim: syms us vs ws => [//|a s IH] /= /andP[na us]; rewrite !inE.
have go b x : b = a -> x \in s -> sub_at par0 n b = Some i -> sub_at par0 n x = Some i ->
   ~~ uniq (sub_list par0 n (a :: s)).
  move=> <- xs Eb Ex; rewrite /sub_list /= Eb /= negb_and negbK.
  by apply/orP; left; rewrite mem_pmap; apply/mapP; exists x.
case/orP => [/eqP va|vs]; case/orP => [/eqP wa|ws].
- by rewrite va wa eqxx in vw.
- by apply: go (va) ws _ _; exact: E.
- by apply: go (wa) vs _ _; exact: E.
- rewrite /sub_list /=; case: sub_at => [j|] /=; rewrite -/(sub_list par0 n s) ?IH //.
  by rewrite (negbTE (IH us vs ws)) andbF.
Qed.

Lemma merge_uniq n l : uniq [seq merge_subscript n i | i <- l] -> uniq l.
Proof. exact: map_uniq. Qed.

Lemma uniq_flatten_in (T : eqType) (ss : seq (seq T)) s : uniq (flatten ss) -> s \in ss -> uniq s.
Proof.
elim: ss => [//|a ss IH] /=; rewrite cat_uniq inE => /and3P[ua _ us] /orP[/eqP ->|] //.
exact: IH.
Qed.

Lemma var_symbols_uniq_in names inds n l : uniq (var_symbols names inds) ->
  (n, Some l) \in zip names inds -> uniq l.
Proof.
move=> u nz; apply: (@merge_uniq n); apply: uniq_flatten_in u _.
by apply/mapP; exists (n, Some l).
Qed.

Lemma mem_zip_map_in (A B : eqType) (f : A -> B) (s : seq A) x :
  x \in s -> (x, f x) \in zip s (map f s).
Proof.
elim: s => [//|a s IH]; rewrite !inE => /orP[/eqP ->|/IH ->]; first by rewrite eqxx.
by rewrite orbT.
Qed.

Lemma from_sympy_spellings e syms names params v w n i :
  uniq syms -> n \in names -> v != w ->
  v \in syms -> v \notin par_of params -> split_subscript v = Ok (n, Some i) ->
  w \in syms -> w \notin par_of params -> split_subscript w = Ok (n, Some i) ->
  is_ok (from_sympy norm e syms (Some names) params None) = false.
Proof.
move=> us nN vw vs vp Ev ws wp Ew; case E: from_sympy => [P|//].
have [_ _ [sp /sympy_Poly_ok[u _ _] _]] := fs_names_sound us E.
have := count_sub_list us vw vs ws vp wp Ev Ew.
move: u; rewrite cat_uniq => /andP[u _].
have := @mem_zip_map_in _ _ (fun n => if sub_list (par_of params) n syms is [::] then None
        else Some (sort Z.leb (sub_list (par_of params) n syms))) _ _ nN.
have := mem_sub_list vs vp Ev; case Esl: sub_list => [//|j l] _ /=.
by move=> /(var_symbols_uniq_in u); rewrite sort_uniq /= => ->.
Qed.

(** ** Automatic variables *)
Definition auto_idx (ix : option Z) : option (seq Z) := if ix is Some i then Some [:: i] else None.

Lemma esubst_id e : esubst (fun s => ESym s) e = e.
Proof.
elim/expr_nest_ind: e => [c||s|es IH|es IH|e n IH] //=; last by rewrite IH.
- by congr EAdd; elim: es IH => [//|a es IHes] IH /=; rewrite IH ?IHes //;
    [move=> e ei; apply: IH; right|left].
- by congr EMul; elim: es IH => [//|a es IHes] IH /=; rewrite IH ?IHes //;
    [move=> e ei; apply: IH; right|left].
Qed.

Lemma loop_auto hp st syms :
  fs_loop false false hp [::] st syms =
  (do infos <- rseq [seq split_subscript v | v <- syms & v \notin st_par st];
   Ok (FsState (st_names st ++ map fst infos) (st_idx st ++ [seq auto_idx x.2 | x <- infos])
        (st_app st ++ nseq (size infos) true) (st_ren st) (st_par st))).
Proof.
elim: syms st => [|v syms IH] st /=; first by rewrite !cats0; case: st.
rewrite /fs_step; case: (v \in st_par st) => /=; first exact: IH.
case: split_subscript => [[n ix]|//] /=; rewrite IH /=.
by case: rseq => //= infos; rewrite !cat_rcons.
Qed.

Lemma from_sympy_auto e syms params :
  from_sympy norm e syms None params None =
  (do infos <- rseq [seq split_subscript v | v <- syms & v \notin par_of params];
   do _ <- check_signature [::] (map fst infos);
   do sp <- sympy_Poly norm e (var_symbols (map fst infos) [seq auto_idx x.2 | x <- infos])
     (par_of params);
   Ok (MkPoly (map fst infos) [seq auto_idx x.2 | x <- infos] (par_of params) sp)).
Proof.
rewrite /from_sympy /= loop_auto /= -/(par_of params).
case: rseq => [infos|//] /=; case: check_signature => //= _.
have -> : (if isSome params then par_of params else sort sym_leb (par_of params)) = par_of params.
  by case: params.
have -> : [seq (if ind is Some l then Some (sort Z.leb l) else None)
          | ind <- [seq auto_idx x.2 | x <- infos]] = [seq auto_idx x.2 | x <- infos].
  by rewrite -map_comp; apply: eq_map => -[n [i|]].
by rewrite /erename (@eq_esubst _ _ (fun s => ESym s)) // esubst_id.
Qed.

Lemma rseq_split_ok (l : seq sym) : all (fun v => is_ok (split_subscript v)) l ->
  exists2 infos, rseq [seq split_subscript v | v <- l] = Ok infos &
    size infos = size l /\
    forall k, (k < size l)%N ->
      split_subscript (nth [::] l k) = Ok (nth ([::], None) infos k).
Proof.
elim: l => [|v l IH] /=; first by exists [::].
case E: split_subscript => [x|//] /= /IH[infos -> [sz H]].
by exists (x :: infos) => //=; rewrite sz; split=> // -[|k] //=; apply: H.
Qed.

Lemma from_sympy_auto_dup e syms params v w n i j :
  uniq syms -> v != w -> v \in syms -> w \in syms ->
  v \notin par_of params -> w \notin par_of params ->
  all (fun v => is_ok (split_subscript v)) syms ->
  split_subscript v = Ok (n, i) -> split_subscript w = Ok (n, j) ->
  from_sympy norm e syms None params None = Err ValueError.
Proof.
move=> us vw vs ws vp wp ok Ev Ew; rewrite from_sympy_auto.
set l := [seq v <- syms | v \notin par_of params].
have ul : uniq l by exact: filter_uniq.
have vl : v \in l by rewrite mem_filter vp.
have wl : w \in l by rewrite mem_filter wp.
have [infos -> [sz H]] : exists2 infos, rseq [seq split_subscript v | v <- l] = Ok infos &
    size infos = size l /\ forall k, (k < size l)%N ->
      split_subscript (nth [::] l k) = Ok (nth ([::], None) infos k).
  by apply: rseq_split_ok; rewrite all_filter; apply: sub_all ok => x Hx; apply/implyP.
rewrite /=; have -> // : check_signature [::] (map fst infos) = Err ValueError.
rewrite /check_signature; case: ifP => // /andP[_].
rewrite cat_uniq => /andP[un _].
have iv : (index v l < size l)%N by rewrite index_mem.
have iw : (index w l < size l)%N by rewrite index_mem.
have := H _ iv; rewrite nth_index // Ev => -[E1].
have := H _ iw; rewrite nth_index // Ew => -[E2].
have : nth [::] (map fst infos) (index v l) == nth [::] (map fst infos) (index w l).
  by rewrite !(nth_map ([::], None)) ?sz // -E1 -E2.
rewrite nth_uniq ?size_map ?sz // => /eqP E.
by rewrite -(nth_index [::] vl) E nth_index ?eqxx in vw.
Qed.

(** ** From expression to evaluation *)
Lemma canon_canonical names par0 : canon names par0 =1 canonical names par0.
Proof. by move=> v; rewrite canonE. Qed.

Lemma from_sympy_value e syms names params indices P rho :
  norm_ok norm -> uniq syms -> syms =i esyms e ->
  from_sympy norm e syms (Some names) params indices = Ok P ->
  value P rho = sem (fun v => rho (canonical names (par_of params) v)) e.
Proof.
move=> [ns _ _] us es H; have [_ _ _ _ [_ _ Esp _]] := from_sympy_result us es H.
rewrite /value Esp ns sem_esubst; apply: eq_sem => s _ /=.
by rewrite canon_canonical.
Qed.

Definition nonneg_idx (idx : seq (option (seq Z))) : bool :=
  all (fun ind => if ind is Some l then all (Z.leb 0) l else true) idx.

Lemma from_sympy_wf e syms names params indices P :
  norm_ok norm -> uniq syms -> syms =i esyms e -> all alpha names -> no_I e ->
  (forall s, params = Some s -> wf_params names s) ->
  (forall l, indices = Some l -> size l = size names /\ nonneg_idx l) ->
  (forall v n i, v \in syms -> split_subscript v = Ok (n, Some i) -> (0 <= i)%Z) ->
  from_sympy norm e syms (Some names) params indices = Ok P -> wf_poly P.
Proof.
move=> [_ nsub nI] us es al eI Hp Hi Hn H.
have [[En un] Ep Ei Ep' [Ei' Hg Esp Hs]] := from_sympy_result us es H.
split.
- rewrite En; case: indices Hi Ei Ei' {H} => [l|] Hi Ei Ei'.
    by rewrite (Ei _ erefl); have [sz nn] := Hi _ erefl; split.
  rewrite Ei' //; split=> //; first by rewrite size_map.
  apply/allP => ind /mapP[n _ ->]; case Esl: sub_list => [//|j l'].
  rewrite -Esl; apply/allP => i; rewrite mem_sort mem_pmap => /mapP[v vs].
  rewrite /sub_at; case: ifP => // _; case Ev: split_subscript => [[m [k|]]|] //.
  by case: eqP => // _ [->]; have := Hn _ _ _ vs Ev; lia.
- rewrite En; case: params Hp Ep Ep' {H Esp Hs Ei' Hg} => [s|] Hp Ep Ep'.
    by rewrite (Ep _ erefl); apply: Hp.
  rewrite Ep' // => p; rewrite mem_sort mem_filter => /andP[/andP[_]].
  case Ev: split_subscript => [[m k]|//] mN _; exists m => //.
  by exists k.
- do 2 eexists; split; first exact: Esp.
    move=> s /nsub; rewrite esyms_ren => Hin; exact: Hs.
  by apply: nI; rewrite no_I_ren.
Qed.

Lemma from_sympy_call e syms names params indices P rho extra :
  norm_ok norm -> uniq syms -> syms =i esyms e -> all alpha names -> no_I e ->
  (forall s, params = Some s -> wf_params names s) ->
  (forall l, indices = Some l -> size l = size names /\ nonneg_idx l) ->
  (forall v n i, v \in syms -> split_subscript v = Ok (n, Some i) -> (0 <= i)%Z) ->
  from_sympy norm e syms (Some names) params indices = Ok P ->
  call_num P (rcons (var_inputs P rho extra) (par_input P rho)) [::] =
    Ok (sem (fun v => rho (canonical names (par_of params) v)) e).
Proof.
move=> nk us es al eI Hp Hi Hn H.
by rewrite -(from_sympy_value rho nk us es H) call_value //; apply: from_sympy_wf H.
Qed.
End FromSympy.
