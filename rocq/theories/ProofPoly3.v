(** Substitution, and from_sympy with given variable names. *)
From Coq Require Import ZArith Lia Ascii String.
From mathcomp Require Import all_ssreflect all_algebra.
From mathcomp Require Import zify ssrZ.
From Verif Require Import Base ModelStr ProofStr ModelExpr ModelPoly SpecPoly ProofPoly ProofPoly2.
Delimit Scope Z_scope with Z.

Set Implicit Arguments.
Unset Strict Implicit.
Unset Printing Implicit Defensive.

Import GRing.Theory Num.Theory.
Local Open Scope ring_scope.

Section Subst.
Variable C : numClosedFieldType.
Implicit Types (e : expr C) (rho : sym -> C).

Lemma map_ext_List (A B : Type) (f g : A -> B) s :
  (forall x, List.In x s -> f x = g x) -> map f s = map g s.
Proof.
elim: s => [//|a s IH] H /=; rewrite H; last by left.
by rewrite IH // => x xs; apply: H; right.
Qed.

Lemma sub_flatten (A : Type) (B : eqType) (f : A -> seq B) (s : seq A) x y :
  List.In x s -> y \in f x -> y \in flatten (map f s).
Proof.
elim: s => [//|a s IH] /= [<-|xs] yx; rewrite mem_cat ?yx //.
by rewrite (IH xs yx) orbT.
Qed.

Lemma flatten_List (A : Type) (B : eqType) (f : A -> seq B) (s : seq A) y :
  y \in flatten (map f s) -> exists2 x, List.In x s & y \in f x.
Proof.
elim: s => [//|a s IH] /=; rewrite mem_cat => /orP[H|/IH[x xs yx]].
  by exists a => //; left.
by exists x => //; right.
Qed.

Lemma eq_sem rho rho' e : (forall s, s \in esyms e -> rho s = rho' s) -> sem rho e = sem rho' e.
Proof.
elim/expr_nest_ind: e => [c||s|es IH|es IH|e n IH] H //=.
- by apply: H; rewrite inE.
- by congr (\sum_(v <- _) v); apply: map_ext_List => e ei; apply: IH => // s se;
     apply: H; apply: sub_flatten ei se.
- by congr (\prod_(v <- _) v); apply: map_ext_List => e ei; apply: IH => // s se;
     apply: H; apply: sub_flatten ei se.
- by rewrite IH.
Qed.

Lemma sem_esubst rho f e : sem rho (esubst f e) = sem (fun s => sem rho (f s)) e.
Proof.
elim/expr_nest_ind: e => [c||s|es IH|es IH|e n IH] //=; last by rewrite IH.
- by rewrite -map_comp; congr (\sum_(v <- _) v); apply: map_ext_List => e /IH.
- by rewrite -map_comp; congr (\prod_(v <- _) v); apply: map_ext_List => e /IH.
Qed.

Lemma eq_esubst (f g : sym -> expr C) e :
  (forall s, s \in esyms e -> f s = g s) -> esubst f e = esubst g e.
Proof.
elim/expr_nest_ind: e => [c||s|es IH|es IH|e n IH] H //=; last by rewrite IH.
- by apply: H; rewrite inE.
- by congr EAdd; apply: map_ext_List => e ei; apply: IH => // s se;
     apply: H; apply: sub_flatten ei se.
- by congr EMul; apply: map_ext_List => e ei; apply: IH => // s se;
     apply: H; apply: sub_flatten ei se.
Qed.

Lemma esyms_esubst f e s :
  s \in esyms (esubst f e) -> exists2 t, t \in esyms e & s \in esyms (f t).
Proof.
elim/expr_nest_ind: e => [c||t|es IH|es IH|e n IH] //=.
- by move=> H; exists t; rewrite ?inE.
- rewrite -map_comp => /flatten_List[e ei] /= /(IH _ ei)[t te st].
  by exists t => //; apply: sub_flatten ei te.
- rewrite -map_comp => /flatten_List[e ei] /= /(IH _ ei)[t te st].
  by exists t => //; apply: sub_flatten ei te.
Qed.

Lemma esyms_esubst_in f e s t :
  t \in esyms e -> s \in esyms (f t) -> s \in esyms (esubst f e).
Proof.
elim/expr_nest_ind: e => [c||t'|es IH|es IH|e n IH] //=.
- by rewrite inE => /eqP ->.
- move=> /flatten_List[e ei te] st; rewrite -map_comp.
  by apply: (sub_flatten ei) => /=; apply: IH.
- move=> /flatten_List[e ei te] st; rewrite -map_comp.
  by apply: (sub_flatten ei) => /=; apply: IH.
Qed.

Lemma no_I_ren (r : sym -> sym) e : no_I (esubst (fun s => ESym (r s)) e) = no_I e.
Proof.
elim/expr_nest_ind: e => [c||s|es IH|es IH|e n IH] //=.
- by elim: es IH => [//|a es IHes] IH /=; rewrite IH ?IHes //; [move=> e ei; apply: IH; right|left].
- by elim: es IH => [//|a es IHes] IH /=; rewrite IH ?IHes //; [move=> e ei; apply: IH; right|left].
Qed.

Lemma esyms_ren (r : sym -> sym) e : esyms (esubst (fun s => ESym (r s)) e) = map r (esyms e).
Proof.
elim/expr_nest_ind: e => [c||s|es IH|es IH|e n IH] //=.
- by rewrite -map_comp map_flatten -map_comp; congr flatten; apply: map_ext_List.
- by rewrite -map_comp map_flatten -map_comp; congr flatten; apply: map_ext_List.
Qed.

(** Replacements made one after the other act at once when the replaced symbols
    occurring in replacements are left alone. *)
Definition update rho (d : seq (sym * expr C)) (s : sym) : C :=
  if dict_get d s is Some v then sem rho v else rho s.

Lemma sem_subs rho d e :
  uniq (map fst d) ->
  (forall s v t, List.In (s, v) d -> t \in esyms v -> t \in map fst d ->
     dict_get d t = Some (ESym t)) ->
  sem rho (subs d e) = sem (update rho d) e.
Proof.
elim: d e => [|[s v] d IH] e; first by move=> _ _; apply: eq_sem.
move=> /= /andP[ns u] H; rewrite /subs /= -/(subs d _) IH //; last first.
  move=> s' v' t' di tv td; have := H s' v' t' (or_intror di) tv.
  rewrite inE td orbT => /(_ isT); case E: (dict_get d t') => [w|] //.
  case: eqP => // Et; by rewrite -Et td in ns.
rewrite /subs1 sem_esubst; apply: eq_sem => x _; rewrite /update /=.
case: eqP => [->|_]; last by rewrite /= /update; case: dict_get.
rewrite dict_get_notin //; apply: eq_sem => t tv.
have := H s v t (or_introl erefl) tv; rewrite inE.
case td: (t \in map fst d); last by rewrite dict_get_notin ?td.
rewrite orbT => /(_ isT); case E: (dict_get d t) => [w|] //; by case=> ->.
Qed.
End Subst.

(** ** The loop of from_sympy, variable names given *)
Section Loop.
Variables (names par0 : seq sym) (hp : bool).
Hypothesis un : uniq names.
Let vni := zip names (iota 0 (size names)).

Lemma vniE n : n \in names -> dict_get vni n = Some (index n names).
Proof.
move=> ni; rewrite /vni (dict_get_zip 0%N) ?size_iota //.
by rewrite nth_iota ?index_mem.
Qed.

(** What every symbol contributes. *)
Definition sub_at (n v : sym) : option Z :=
  if v \in par0 then None else
  if split_subscript v is Ok (m, Some i) then if m == n then Some i else None else None.
Definition sub_list (n : sym) (syms : seq sym) : seq Z := pmap (sub_at n) syms.
Definition is_par (v : sym) : bool :=
  (v \notin par0) && (if split_subscript v is Ok (n, _) then n \notin names else false).
Definition ren_at (v : sym) : option (sym * sym) :=
  if v \in par0 then None else
  if split_subscript v is Ok (n, Some i)
  then if n \in names then Some (v, merge_subscript n i) else None else None.
Definition ren_list (syms : seq sym) : seq (sym * sym) := pmap ren_at syms.
Definition comb (o : option (seq Z)) (l : seq Z) : option (seq Z) :=
  if l is [::] then o else Some ((if o is Some l0 then l0 else [::]) ++ l).
Definition good (v : sym) : bool :=
  (v \in par0) || (if split_subscript v is Ok (n, _) then (n \in names) || ~~ hp else false).

Definition plain (v : sym) (n : sym) : Prop := v \notin par0 /\ split_subscript v = Ok (n, None).

Lemma comb_nil o : comb o [::] = o. Proof. by []. Qed.
Lemma comb_cons o i l : comb o (i :: l) =
  comb (Some (rcons (if o is Some l0 then l0 else [::]) i)) l.
Proof. by case: l => [|j l] /=; rewrite -cats1 // -catA. Qed.

#[local] Arguments comb : simpl never.

Lemma loop_sound st syms st' :
  fs_loop true false hp vni st syms = Ok st' ->
  st_names st = names -> size (st_idx st) = size names -> uniq syms ->
  (forall v, v \in syms -> (v \in st_par st) = (v \in par0)) ->
  [/\ [/\ st_names st' = names, size (st_idx st') = size names &
          st_ren st' = st_ren st ++ ren_list syms],
      st_par st' = st_par st ++ [seq v <- syms | is_par v],
      hp -> [seq v <- syms | is_par v] = [::],
      (forall k, (k < size names)%N -> nth None (st_idx st') k =
         comb (nth None (st_idx st) k) (sub_list (nth [::] names k) syms)) &
      all good syms].
Proof.
elim: syms st => [|v syms IH] st /=.
  by case=> <- -> sz _ _; rewrite !cats0.
case Es: fs_step => [st1|//] /= El En sz /andP[nv us] Hpar.
move: Es; rewrite /fs_step En.
have Ev := Hpar v (mem_head _ _); rewrite Ev.
have Eip : is_par v = (v \notin par0) && (if split_subscript v is Ok (n, _)
  then n \notin names else false) by [].
have Egv : good v = (v \in par0) || (if split_subscript v is Ok (n, _)
  then (n \in names) || ~~ hp else false) by [].
have Hp' : forall v', v' \in syms -> (v' \in st_par st) = (v' \in par0).
  by move=> v' Hv'; apply: Hpar; rewrite inE Hv' orbT.
case: ifPn => [vp [E]|vp] /=; rewrite Eip Egv.
  rewrite vp; have [] := IH st1 El; rewrite -?E //; case=> -> -> -> -> Hnil H Hg.
  rewrite /ren_list /sub_list /= /ren_at vp; split=> // k kn; rewrite H //.
  by rewrite /sub_at vp.
rewrite vp (negbTE vp); case Esp: (split_subscript v) => [[n ix]|//] /=.
case nN: (n \in names) => /=; last first.
  case Ehp: hp => // -[E].
  have [] := IH st1 El; rewrite -?E //=.
    move=> v' Hv'; rewrite mem_rcons inE Hp' //.
    by case: eqP => // Ev'; rewrite -Ev' Hv' in nv.
  case=> -> -> -> -> _ H Hg; rewrite cat_rcons.
  split=> //.
    by split=> //; rewrite /ren_list /= /ren_at (negbTE vp) Esp; case: ix {Esp} => [i|]; rewrite /= ?nN.
  move=> k kn; rewrite H //; congr comb; rewrite /sub_list /= /sub_at (negbTE vp) Esp.
  case: ix {Esp} => //= i; case: eqP => //= E'.
  by move: nN; rewrite E' mem_nth.
rewrite vniE //; have kn : (index n names < size (st_idx st))%N by rewrite sz index_mem.
rewrite (item_ok None kn) /=.
case: ix Esp => [i|] Esp; last first.
  case Ek: nth => [//|] /= [E].
  have [] := IH st1 El; rewrite -?E //; case=> -> -> -> -> Hnil H Hg.
  split=> //.
    by rewrite /ren_list /= /ren_at (negbTE vp) Esp /=.
  by move=> k kn'; rewrite H // /sub_list /= /sub_at (negbTE vp) Esp.
have Hgen : forall app l, st1 = FsState names
    (set_nth None (st_idx st) (index n names) (Some l)) app
    (rcons (st_ren st) (v, merge_subscript n i)) (st_par st) ->
  l = rcons (if nth None (st_idx st) (index n names) is Some l0 then l0 else [::]) i ->
  [/\ [/\ st_names st' = names, size (st_idx st') = size names &
          st_ren st' = st_ren st ++ ren_list (v :: syms)],
      st_par st' = st_par st ++ [seq v <- syms | is_par v],
      hp -> [seq v <- syms | is_par v] = [::],
      (forall k, (k < size names)%N -> nth None (st_idx st') k =
         comb (nth None (st_idx st) k) (sub_list (nth [::] names k) (v :: syms))) &
      all good syms].
  move=> app l E Ell.
  have [] := IH st1 El; rewrite ?E //=.
    by rewrite size_set_nth; move/maxn_idPr: kn => ->.
  case=> -> -> -> -> Hnil H Hg; split=> //.
    by split=> //; rewrite /ren_list /= /ren_at (negbTE vp) Esp nN /= cat_rcons.
  move=> k kn'; rewrite H // nth_set_nth /=.
  have Esub m : sub_at m v = if n == m then Some i else None.
    by rewrite /sub_at (negbTE vp) Esp.
  rewrite /sub_list /= Esub.
  case: eqP => [->|nk]; first by rewrite nth_index // eqxx /= comb_cons Ell.
  case: eqP => // E'; case: nk; by rewrite E' index_uniq.
case Ek: nth => [l|].
  by case=> E; apply: (Hgen _ _ (esym E)); rewrite Ek.
by case: ifP => // _ [E]; apply: (Hgen _ _ (esym E)); rewrite Ek.
Qed.

(** Success of the loop when no variable is used with and without subscript. *)
Lemma loop_complete st syms :
  st_names st = names -> size (st_idx st) = size names -> uniq syms ->
  (forall v, v \in syms -> (v \in st_par st) = (v \in par0)) ->
  (forall k, nth false (st_app st) k -> nth None (st_idx st) k != None) ->
  all good syms ->
  (forall v n, v \in syms -> plain v n -> n \in names ->
     nth None (st_idx st) (index n names) = None /\ sub_list n syms = [::]) ->
  exists st', fs_loop true false hp vni st syms = Ok st'.
Proof.
elim: syms st => [|v syms IH] st /=; first by move=> *; exists st.
move=> En sz /andP[nv us] Hpar Happ /andP[gv gs] Hmix.
have Hp' : forall v', v' \in syms -> (v' \in st_par st) = (v' \in par0).
  by move=> v' Hv'; apply: Hpar; rewrite inE Hv' orbT.
have Hm' : forall v' n, v' \in syms -> plain v' n -> n \in names ->
   [/\ nth None (st_idx st) (index n names) = None, sub_list n syms = [::] & sub_at n v = None].
  move=> v' n Hv' pv nN; have [|-> E] := Hmix v' n _ pv nN; first by rewrite inE Hv' orbT.
  by move: E; rewrite /sub_list /=; case: (sub_at n v).
have {}Hm : forall v' n, v' \in syms -> plain v' n -> n \in names ->
   nth None (st_idx st) (index n names) = None /\ sub_list n syms = [::].
  by move=> v' n a b c; have [-> -> _] := Hm' v' n a b c.
rewrite /fs_step En (Hpar v (mem_head _ _)).
case: ifPn => vp /=; first exact: IH.
move: gv; rewrite /good (negbTE vp) /=.
case Esp: (split_subscript v) => [[n ix]|//] /=.
case nN: (n \in names) => /= Hh; last first.
  rewrite {1}(negbTE Hh); apply: IH => //= v' Hv'; rewrite mem_rcons inE Hp' //.
  by case: eqP => // Ev'; rewrite -Ev' Hv' in nv.
rewrite vniE //; have kn : (index n names < size (st_idx st))%N by rewrite sz index_mem.
rewrite (item_ok None kn) /=.
case: ix Esp => [i|] Esp; last first.
  have [|-> _] := Hmix v n (mem_head _ _) _ nN; first by split.
  exact: IH.
have Esub m : sub_at m v = if n == m then Some i else None.
  by rewrite /sub_at (negbTE vp) Esp.
have Hgen app l : (forall k, nth false app k -> k = index n names \/ nth false (st_app st) k) ->
  exists st', fs_loop true false hp vni (FsState names
    (set_nth None (st_idx st) (index n names) (Some l)) app
    (rcons (st_ren st) (v, merge_subscript n i)) (st_par st)) syms = Ok st'.
  move=> Ha; apply: IH => //=.
  - by rewrite size_set_nth; move/maxn_idPr: kn => ->.
  - move=> k /Ha Hk; rewrite nth_set_nth /=; case: (k =P index n names) => // nk.
    by case: Hk => // /Happ.
  - move=> v' m Hv' pv mN; have [E1 E2 E3] := Hm' v' m Hv' pv mN; split=> //.
    rewrite nth_set_nth /=; case: eqP => // Ei.
    move: E3; rewrite Esub; case: eqP => // -[].
    by rewrite -(nth_index [::] nN) -(nth_index [::] mN) Ei.
case Ek: nth => [l|].
  apply: Hgen => k; rewrite nth_set_nth /=; case: eqP => [->|_ ?]; first by left.
  by right.
case: ifP => [/Happ|_]; first by rewrite Ek.
by apply: Hgen => k; right.
Qed.

(** With given indices. *)
Definition fits_idx (idx : seq (option (seq Z))) (v : sym) : bool :=
  (v \in par0) ||
  match split_subscript v with
  | Ok (n, ix) =>
    if n \in names then
      match item idx (index n names), ix with
      | Ok None, None => true
      | Ok (Some l), Some i => i \in l
      | _, _ => false
      end
    else ~~ hp
  | Err _ => false
  end.

Lemma loop_hi st syms (ok := all (fits_idx (st_idx st)) syms) :
  st_names st = names -> uniq syms ->
  (forall v, v \in syms -> (v \in st_par st) = (v \in par0)) ->
  is_ok (fs_loop true true hp vni st syms) = ok /\
  (ok -> fs_loop true true hp vni st syms =
    Ok (FsState names (st_idx st) (st_app st) (st_ren st ++ ren_list syms)
         (st_par st ++ [seq v <- syms | is_par v]))).
Proof.
rewrite {}/ok; elim: syms st => [|v syms IH] st En /=.
  by rewrite !cats0; case: st En => /= ? ? ? ? ? ->.
move=> /andP[nv us] Hpar.
have Hp' : forall v', v' \in syms -> (v' \in st_par st) = (v' \in par0).
  by move=> v' Hv'; apply: Hpar; rewrite inE Hv' orbT.
have Eip : is_par v = (v \notin par0) && (if split_subscript v is Ok (n, _)
  then n \notin names else false) by [].
rewrite /fs_step En (Hpar v (mem_head _ _)) {1 3}/fits_idx.
rewrite /ren_list /= /ren_at Eip.
case: ifPn => vp /=; first exact: IH.
case Esp: (split_subscript v) => [[n ix]|//] /=.
case nN: (n \in names) => /=; last first.
  case Ehp: hp => //=.
  have := IH (FsState names (st_idx st) (st_app st) (st_ren st) (rcons (st_par st) v)) erefl us.
  rewrite Ehp /= cat_rcons => /(_ _)[|E1 E2].
    move=> v' Hv'; rewrite mem_rcons inE Hp' //.
    by case: eqP => // Ev'; rewrite -Ev' Hv' in nv.
  split; first exact: E1.
  move=> H; rewrite E2 //; congr (Ok (FsState _ _ _ (_ ++ _) _)).
  by case: ix {Esp} => [i|].
rewrite vniE //; case Eit: (item _ _) => [ik|//] /=.
case: ix Esp => [i|] Esp; case: ik Eit => [l|] Eit //=; last exact: IH.
case: ifP => // il /=.
have := IH (FsState names (st_idx st) (st_app st)
  (rcons (st_ren st) (v, merge_subscript n i)) (st_par st)) erefl us Hp'.
by rewrite /= cat_rcons.
Qed.
End Loop.
