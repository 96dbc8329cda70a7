(** Arithmetic of polynomials. *)
From Coq Require Import ZArith Lia Ascii String.
From mathcomp Require Import all_ssreflect all_algebra.
From mathcomp Require Import zify ssrZ.
From Verif Require Import Base ModelStr ProofStr ModelExpr ModelPoly SpecPoly ProofPoly ProofPoly2
  ProofPoly3 ProofPoly4 ProofPoly5.
Delimit Scope Z_scope with Z.

Set Implicit Arguments.
Unset Strict Implicit.
Unset Printing Implicit Defensive.

Import GRing.Theory Num.Theory.
Local Open Scope ring_scope.

(** Members of the union, also for lists with repetitions. *)
Lemma union_loop_mem f l r nl nr ind x :
  let '(l', r', nl', nr', ind') := union_loop f l r nl nr ind in
  ((x \in ind') || (x \in ocons nl' l') || (x \in ocons nr' r')) =
  ((x \in ind) || (x \in ocons nl l) || (x \in ocons nr r)).
Proof.
elim: f l r nl nr ind => [|f IH] l r nl nr ind //=.
have step a l1 b r1 : ocons nl l = a :: l1 -> ocons nr r = b :: r1 ->
  let '(l', r', nl', nr', ind') :=
    (if (a <? b)%Z then union_loop f l1 r1 None (Some b) (add_new ind a)
     else union_loop f l1 r1 (Some a) None (add_new ind b)) in
  ((x \in ind') || (x \in ocons nl' l') || (x \in ocons nr' r')) =
  ((x \in ind) || (x \in ocons nl l) || (x \in ocons nr r)).
  move=> -> ->; case: ifP => _.
    have := IH l1 r1 None (Some b) (add_new ind a).
    case: union_loop => [[[[? ?] ?] ?] ?] ->; rewrite add_new_mem /= !inE.
    by do !case: (_ == _); do !case: (_ \in _).
  have := IH l1 r1 (Some a) None (add_new ind b).
  case: union_loop => [[[[? ?] ?] ?] ?] ->; rewrite add_new_mem /= !inE.
  by do !case: (_ == _); do !case: (_ \in _).
case: nl l step => [a|] l step.
  case: nr r step => [b|] r step; first exact: step.
  by case: r step => [|b r] step //; exact: step.
case: l step => [|a l] step //.
case: nr r step => [b|] r step; first exact: step.
by case: r step => [|b r] step //; exact: step.
Qed.

Lemma union_indices_mem l r x : (x \in union_indices l r) = (x \in l) || (x \in r).
Proof.
rewrite /union_indices; have := @union_loop_mem (size l + size r).+1 l r None None [::] x.
case: union_loop => [[[[l' r'] nl] nr] ind] /= <-.
case: nl nr => [a|] [b|] /=; rewrite !mem_cat !mem_filter ?add_new_mem ?inE;
  by do ?case: (_ == _); do ?case: (_ \in _).
Qed.

(** ** Merging of variables and parameters *)
Lemma merge_paramsE (ps qs : seq sym) : uniq qs ->
  merge_params ps qs = ps ++ [seq q <- qs | q \notin ps].
Proof.
elim: qs ps => [|q qs IH] ps /=; first by rewrite cats0.
move=> /andP[nq us]; rewrite IH //; case: ifP => // /negbT qp /=.
rewrite cat_rcons; congr (_ ++ _ :: _); apply: eq_in_filter => x xs.
rewrite mem_rcons inE negb_or; case: eqP => // E; by rewrite -E xs in nq.
Qed.

Lemma merge_params_mem (ps qs : seq sym) x :
  (x \in merge_params ps qs) = (x \in ps) || (x \in qs).
Proof.
elim: qs ps => [|q qs IH] ps /=; first by rewrite orbF.
rewrite IH inE; case: ifP => [qp|_]; last first.
  by rewrite mem_rcons inE; case: (x == q); rewrite /= ?orbT.
by case: eqP => [->|_] /=; rewrite ?qp ?orbT.
Qed.

Definition kinds_agree (a b : option (seq Z)) : bool :=
  match a, b with None, None | Some _, Some _ => true | _, _ => false end.

(** Indices of a variable name (None also for unknown names). *)
Definition ind_of (names : seq sym) (inds : seq (option (seq Z))) (n : sym) : option (seq Z) :=
  nth None inds (index n names).

Definition all_nonneg (inds : seq (option (seq Z))) : bool :=
  all (fun ind => if ind is Some l then all (Z.leb 0) l else true) inds.

Lemma all_set_nth (T : Type) (p : pred T) x0 s k y : (k < size s)%N ->
  all p s -> p y -> all p (set_nth x0 s k y).
Proof.
elim: s k => [//|a s IH] [|k] /= kn /andP[pa ps] py; first by rewrite py.
by rewrite pa IH.
Qed.

Lemma var_symbols_cat N1 N2 I1 I2 : size N1 = size I1 ->
  var_symbols (N1 ++ N2) (I1 ++ I2) = var_symbols N1 I1 ++ var_symbols N2 I2.
Proof. by move=> sz; rewrite /var_symbols zip_cat // map_cat flatten_cat. Qed.

Lemma var_symbols_mem names inds s : uniq names -> size names = size inds ->
  (s \in var_symbols names inds) = has (fun n => s \in symbols_of n (ind_of names inds n)) names.
Proof.
move=> un sz; apply/idP/hasP.
  case/in_var_symbols => n [ind [nz sn]]; have [nN _] := mem_zip_both nz; exists n => //.
  suff -> : ind_of names inds n = ind by [].
  elim: names inds un sz nz {nN sn} => [|m names IH] [|j inds] //= /andP[nm un] [sz].
  rewrite /ind_of /= inE => /orP[/eqP[-> ->]|nz]; first by rewrite eqxx.
  have [nN _] := mem_zip_both nz.
  case: eqP => [E|_] /=; first by rewrite E nN in nm.
  exact: IH.
case=> n nN sn; apply/flattenP; exists (symbols_of n (ind_of names inds n)) => //.
apply/mapP; exists (n, ind_of names inds n) => //.
have := @mem_nth _ ([::], None) (zip names inds) (index n names).
by rewrite size_zip -sz minnn index_mem nN nth_zip //= nth_index // => /(_ isT).
Qed.

Lemma ind_of_set names inds n o m : uniq names -> n \in names -> m \in names ->
  ind_of names (set_nth None inds (index n names) o) m =
  if m == n then o else ind_of names inds m.
Proof.
move=> un nN mN; rewrite /ind_of nth_set_nth /=.
case: (m =P n) => [->|ne]; first by rewrite eqxx.
case: eqP => // E; case: ne; by rewrite -(nth_index [::] mN) E nth_index.
Qed.

Lemma ind_of_rcons names inds n o m : uniq names -> size names = size inds -> n \notin names ->
  ind_of (rcons names n) (rcons inds o) m = if m == n then o else ind_of names inds m.
Proof.
move=> un sz nN; rewrite /ind_of -!cats1 index_cat /= nth_cat.
case mN: (m \in names).
  rewrite -sz index_mem mN; case: eqP => // E; by rewrite -E mN in nN.
rewrite -sz ltnNge leq_addr /= addKn eq_sym; case: eqP => //= _.
by rewrite nth_default // -sz memNindex ?mN.
Qed.

(** One variable of the second polynomial. *)
Definition merge1 names inds (n : sym) (l : option (seq Z)) : option (seq sym * seq (option (seq Z))) :=
  if n \in names then
    match ind_of names inds n, l with
    | None, None => Some (names, inds)
    | Some a, Some l => Some (names, set_nth None inds (index n names) (Some (union_indices a l)))
    | _, _ => None
    end
  else Some (rcons names n, rcons inds l).

Lemma merge_varsE names inds n l other :
  merge_vars names inds ((n, l) :: other) =
  if merge1 names inds n l is Some NI then merge_vars NI.1 NI.2 other else Err AssertionError.
Proof.
rewrite /= /merge1 -/(ind_of names inds n); case: ifP => // _.
by case: (ind_of names inds n) => [a|]; case: l.
Qed.

Lemma symbols_union n a l s : s \in symbols_of n (Some (union_indices a l)) =
  (s \in symbols_of n (Some a)) || (s \in symbols_of n (Some l)).
Proof.
rewrite /= -mem_cat -map_cat; apply: eq_mem_map => x.
by rewrite mem_cat union_indices_mem.
Qed.

Lemma has_or (T : Type) (p q : pred T) s : has (fun x => p x || q x) s = has p s || has q s.
Proof. by rewrite -has_predU. Qed.

Lemma merge1P names inds n l N I :
  uniq names -> size names = size inds -> merge1 names inds n l = Some (N, I) ->
  [/\ uniq N /\ size N = size I,
      (forall m, (m \in N) = (m == n) || (m \in names)),
      (forall s, (s \in var_symbols N I) = (s \in var_symbols names inds) || (s \in symbols_of n l)),
      (all_nonneg inds -> (if l is Some l' then all (Z.leb 0) l' else true) -> all_nonneg I) &
      (forall m, m != n -> ind_of N I m = ind_of names inds m)].
Proof.
move=> un sz; rewrite /merge1; case: ifP => nN; last first.
  case=> <- <-; split.
  - by rewrite rcons_uniq nN !size_rcons sz.
  - by move=> m; rewrite mem_rcons inE.
  - by move=> s; rewrite -!cats1 var_symbols_cat // mem_cat /var_symbols /= cats0.
  - by rewrite /all_nonneg all_rcons => -> ->.
  - by move=> m mn; rewrite ind_of_rcons ?nN // (negbTE mn).
have Em m : (m \in names) = (m == n) || (m \in names) by case: eqP => // ->; rewrite nN.
have kn : (index n names < size inds)%N by rewrite -sz index_mem.
case Ei: (ind_of names inds n) => [a|]; case: l => [l|] // [<- <-]; last first.
  split=> // s; apply/idP/idP => [->//|/orP[//|]]; rewrite /= inE => /eqP ->.
  rewrite var_symbols_mem //; apply/hasP; exists n => //.
  by rewrite Ei /= inE.
have szs o : size names = size (set_nth None inds (index n names) o).
  by rewrite size_set_nth sz; apply/esym/maxn_idPr.
split=> //.
- move=> s; rewrite !var_symbols_mem //.
  have -> : has (fun m => s \in symbols_of m (ind_of names
        (set_nth None inds (index n names) (Some (union_indices a l))) m)) names =
     has (fun m => (s \in symbols_of m (ind_of names inds m)) ||
                   ((m == n) && (s \in symbols_of n (Some l)))) names.
    apply: eq_in_has => m mN; rewrite ind_of_set //; case: eqP => [->|_]; last by rewrite orbF.
    by rewrite symbols_union Ei.
  rewrite has_or; congr (_ || _); apply/hasP/idP => [[m _ /andP[]]//|sn].
  by exists n => //; rewrite eqxx.
- move=> nn nl; apply: all_set_nth => //.
  have na : all (Z.leb 0) a.
    have := allP nn (nth None inds (index n names)) (mem_nth _ kn).
    by rewrite -/(ind_of names inds n) Ei.
  apply/allP => x; rewrite union_indices_mem => /orP[/(allP na)|/(allP nl)] //.
- move=> m mn; case mN: (m \in names); first by rewrite ind_of_set // (negbTE mn).
  rewrite /ind_of !nth_default //; first by rewrite -sz memNindex ?mN.
  by rewrite -szs memNindex ?mN.
Qed.

Lemma merge_varsP names inds other N I :
  uniq names -> size names = size inds -> merge_vars names inds other = Ok (N, I) ->
  [/\ uniq N /\ size N = size I,
      (forall m, (m \in N) = (m \in names) || (m \in map fst other)),
      (forall s, (s \in var_symbols N I) = (s \in var_symbols names inds) ||
         (s \in flatten [seq symbols_of ni.1 ni.2 | ni <- other])) &
      (all_nonneg inds -> all_nonneg (map snd other) -> all_nonneg I)].
Proof.
elim: other names inds => [|[n l] other IH] names inds un sz.
  by case=> <- <-; split=> // s; rewrite orbF.
rewrite merge_varsE; case E: merge1 => [[N1 I1]|//] /=.
have [[u1 s1] m1 v1 n1 _] := merge1P un sz E.
move=> /IH [] // uu mm vv nn; split=> //.
- by move=> m; rewrite mm m1 inE; do !case: (_ \in _); case: (_ == _).
- by move=> s; rewrite vv v1 mem_cat orbA.
- by move=> a /andP[b c]; apply: nn => //; apply: n1.
Qed.

Lemma merge_vars_ok names inds other :
  uniq names -> size names = size inds -> uniq (map fst other) ->
  (exists NI, merge_vars names inds other = Ok NI) <->
  all (fun ni => (ni.1 \in names) ==> kinds_agree (ind_of names inds ni.1) ni.2) other.
Proof.
elim: other names inds => [|[n l] other IH] names inds un sz.
  by split=> // _; exists (names, inds).
move=> /= /andP[nn uo]; rewrite -/(merge_vars names inds ((n, l) :: other)) merge_varsE.
case E: merge1 => [[N1 I1]|] /=; last first.
  split=> [[]//|/andP[H _]]; move: H E; rewrite /merge1; case: ifP => //= _.
  by case: (ind_of names inds n) => [a|]; case: l.
have [[u1 s1] m1 v1 n1 i1] := merge1P un sz E; rewrite IH //.
have -> : ((n \in names) ==> kinds_agree (ind_of names inds n) l).
  move: E; clear; rewrite /merge1; case: ifP => //= _.
  by case: (ind_of names inds n) => [a|]; case: l.
suff -> : all (fun ni : sym * option (seq Z) =>
     (ni.1 \in N1) ==> kinds_agree (ind_of N1 I1 ni.1) ni.2) other =
   all (fun ni => (ni.1 \in names) ==> kinds_agree (ind_of names inds ni.1) ni.2) other by [].
apply: eq_in_all => -[m k] mo /=.
have mn : m != n by apply: contraNneq nn => <-; apply: (map_f fst mo).
by rewrite m1 (negbTE mn) /= i1.
Qed.

Lemma merge_vars_err names inds other x : merge_vars names inds other = Err x -> x = AssertionError.
Proof.
elim: other names inds => [//|[n l] other IH] names inds; rewrite merge_varsE.
by case: merge1 => [[N I]|[]] //; exact: IH.
Qed.

Section Arith.
Variable C : numClosedFieldType.
Variable norm : expr C -> expr C.
Hypothesis nk : norm_ok norm.
Implicit Types (P Q R : poly C).

Definition op_ok (op : expr C -> expr C -> expr C) (f : C -> C -> C) : Prop :=
  forall a b, [/\ forall rho, sem rho (op a b) = f (sem rho a) (sem rho b),
    esyms (op a b) = esyms a ++ esyms b & no_I (op a b) = no_I a && no_I b].

Lemma combine_value op f P Q R rho : op_ok op f -> combine norm op P Q = Ok R ->
  value R rho = f (value P rho) (value Q rho).
Proof.
move=> ok; rewrite /combine; case: merge_vars => [[N I]|//] /=.
case: check_signature => //= _.
case EP: (sympy_poly P) => [gP eP|//] /=; case EQ: (sympy_poly Q) => [gQ eQ|//] /=.
rewrite /sympy_Poly; case: ifP => // _ /= [<-].
by rewrite /value /= EP EQ; have [-> _ _] := nk; have [-> _ _] := ok eP eQ.
Qed.

Lemma flat_zip names inds :
  flatten [seq symbols_of ni.1 ni.2 | ni <- zip names inds] = var_symbols names inds.
Proof. by []. Qed.

Lemma map_snd_zip (A B : Type) (s : seq A) (t : seq B) : size s = size t -> map snd (zip s t) = t.
Proof. by move=> E; rewrite -/unzip2 unzip2_zip ?E. Qed.

Lemma combine_meta op P Q R : combine norm op P Q = Ok R ->
  wf_poly P -> wf_poly Q ->
  [/\ forall m, (m \in variable_names R) = (m \in variable_names P) || (m \in variable_names Q),
      forall s, (s \in var_symbols (variable_names R) (variable_indices R)) =
        (s \in var_symbols (variable_names P) (variable_indices P)) ||
        (s \in var_symbols (variable_names Q) (variable_indices Q)),
      parameters R = merge_params (parameters P) (parameters Q) &
      wf_vars (variable_names R) (variable_indices R)].
Proof.
move=> H [[uP aP sP nP] _ _] [[uQ aQ sQ nQ] _ _]; move: H; rewrite /combine.
case Em: merge_vars => [[N I]|//] /=; case: check_signature => //= _.
case: sp_expr => //= eP; case: sp_expr => //= eQ; case: sympy_Poly => //= sp [<-] /=.
have [[uN sN] mN vN nN] := merge_varsP uP sP Em.
rewrite map_fst_zip // in mN; rewrite flat_zip in vN; rewrite map_snd_zip // in nN.
split=> //; split=> //; last exact: nN.
by apply/allP => m; rewrite mN => /orP[/(allP aP)|/(allP aQ)].
Qed.

Lemma combine_wf op f P Q R : op_ok op f -> combine norm op P Q = Ok R ->
  wf_poly P -> wf_poly Q ->
  wf_params (variable_names P) (parameters Q) -> wf_params (variable_names Q) (parameters P) ->
  wf_poly R.
Proof.
move=> ok H wP wQ pQ qP; have [mN vN Ep wv] := combine_meta H wP wQ.
have [_ pP [gP [eP [EP sP iP]]]] := wP; have [_ qQ [gQ [eQ [EQ sQ iQ]]]] := wQ.
split=> //.
  rewrite Ep => p; rewrite merge_params_mem => /orP[pi|pi].
    have [n [i En] nP] := pP _ pi; have [n' [i' En'] nQ] := qP _ pi.
    exists n; first by exists i.
    by rewrite mN negb_or nP /=; move: En'; rewrite En => -[-> _].
  have [n [i En] nP] := qQ _ pi; have [n' [i' En'] nQ] := pQ _ pi.
  exists n; first by exists i.
  by rewrite mN negb_or nP andbT; move: En'; rewrite En => -[-> _].
move: H; rewrite /combine; case: merge_vars => [[N I]|//] /=.
case: check_signature => //= _; rewrite EP EQ /=.
rewrite /sympy_Poly; case: ifP => // _ /= [ER].
have [_ nsub nI] := nk; have [_ oe oI] := ok eP eQ.
do 2 eexists; split; first by rewrite -ER; reflexivity.
  move=> s /nsub; rewrite oe mem_cat /all_symbols mem_cat vN Ep merge_params_mem.
  case/orP => [/sP|/sQ]; rewrite /all_symbols mem_cat => /orP[] ->; by rewrite ?orbT.
by apply: nI; rewrite oI iP iQ.
Qed.

(** Sums, differences and products are pointwise. *)
Lemma combine_call op f P Q R rho extra : op_ok op f -> combine norm op P Q = Ok R ->
  wf_poly P -> wf_poly Q ->
  wf_params (variable_names P) (parameters Q) -> wf_params (variable_names Q) (parameters P) ->
  exists p q, [/\ call_num P (rcons (var_inputs P rho extra) (par_input P rho)) [::] = Ok p,
    call_num Q (rcons (var_inputs Q rho extra) (par_input Q rho)) [::] = Ok q &
    call_num R (rcons (var_inputs R rho extra) (par_input R rho)) [::] = Ok (f p q)].
Proof.
move=> ok H wP wQ pQ qP; exists (value P rho), (value Q rho).
by rewrite !call_value ?(combine_value rho ok H) //; apply: combine_wf H wP wQ pQ qP.
Qed.

Lemma add_op : op_ok (fun a b => EAdd [:: a; b]) (fun x y => x + y).
Proof.
by move=> a b; split=> /= [rho||]; rewrite ?big_cons ?big_nil ?addr0 ?cats0 ?andbT.
Qed.
Lemma mul_op : op_ok (fun a b => EMul [:: a; b]) (fun x y => x * y).
Proof.
by move=> a b; split=> /= [rho||]; rewrite ?big_cons ?big_nil ?mulr1 ?cats0 ?andbT.
Qed.
Lemma sub_op : op_ok (fun a b => EAdd [:: a; EMul [:: ENum (-1); b]]) (fun x y => x - y).
Proof.
move=> a b; split=> /= [rho||]; rewrite ?big_cons ?big_nil ?cats0 ?andbT //.
by rewrite ?addr0 ?mulr1 mulN1r.
Qed.

(** When the operation succeeds. *)
Lemma combine_ok op f P Q : op_ok op f -> wf_poly P -> wf_poly Q ->
  sp_gens (sympy_poly P) = var_symbols (variable_names P) (variable_indices P) ->
  sp_gens (sympy_poly Q) = var_symbols (variable_names Q) (variable_indices Q) ->
  sp_gens (sympy_poly P) != [::] ->
  uniq (parameters P) -> uniq (parameters Q) ->
  all is_ident (variable_names P ++ variable_names Q) ->
  lit "params" \notin variable_names P ++ variable_names Q ->
  ~~ has (mem (parameters P ++ parameters Q))
     (sp_gens (sympy_poly P) ++ sp_gens (sympy_poly Q)) ->
  (forall n, n \in variable_names P -> n \in variable_names Q ->
     kinds_agree (ind_of (variable_names P) (variable_indices P) n)
                 (ind_of (variable_names Q) (variable_indices Q) n)) ->
  exists R, combine norm op P Q = Ok R.
Proof.
move=> ok wP wQ gP gQ g0 uP uQ idn npar dis kin; rewrite /combine.
have [[unP aP sP nP] pP [hP [eP [EP sbP iP]]]] := wP.
have [[unQ aQ sQ nQ] pQ [hQ [eQ [EQ sbQ iQ]]]] := wQ.
have [[N I] Em] : exists NI, merge_vars (variable_names P) (variable_indices P)
    (zip (variable_names Q) (variable_indices Q)) = Ok NI.
  apply/merge_vars_ok => //; first by rewrite map_fst_zip.
  apply/allP => -[n l] nl /=; apply/implyP => nN.
  have [nQn _] := mem_zip_both nl.
  have := kin n nN nQn; suff -> : ind_of (variable_names Q) (variable_indices Q) n = l by [].
  move: nl unQ sQ; elim: (variable_names Q) (variable_indices Q) {nQn} => [|m ms IH] [|i iz] //=.
  rewrite inE => /orP[/eqP[-> ->] _ _|ml /andP[nm um] [sm]]; first by rewrite /ind_of /= eqxx.
  rewrite /ind_of /=; have [mm _] := mem_zip_both ml.
  case: eqP => [E|_]; first by rewrite E mm in nm.
  exact: IH.
rewrite Em /=; have [[uN sN] mN vN _] := merge_varsP unP sP Em.
rewrite map_fst_zip // in mN; rewrite flat_zip in vN.
have -> : check_signature [::] N = Ok tt.
  rewrite /check_signature cat_uniq uN /= orbF andbT.
  have -> : all is_ident N.
    by apply/allP => m; rewrite mN -mem_cat => /(allP idn).
  by rewrite mN -mem_cat npar.
rewrite EP EQ /= in gP gQ g0 dis *; rewrite gP gQ in dis *.
rewrite /sympy_Poly; case: ifP => [_|]; first by eexists.
move/negbT/negP; case; apply/and3P; split.
- case E: (undup _) => [|//]; move: g0; rewrite gP.
  case: (var_symbols (variable_names P) _) E => [//|s ss] E.
  by have := mem_head s (ss ++ var_symbols (variable_names Q) (variable_indices Q));
     rewrite -cat_cons -mem_undup E.
- rewrite cat_uniq undup_uniq /= merge_paramsE // cat_uniq uP filter_uniq // andbT /=.
  apply/andP; split.
    apply/hasPn => x; rewrite -merge_paramsE // merge_params_mem -mem_cat => xp.
    rewrite /= mem_undup; apply: contraNN dis => xv; apply/hasP.
    by exists x.
  by apply/hasPn => x; rewrite mem_filter => /andP[].
- apply/allP => s; have [_ -> _] := ok eP eQ; rewrite !mem_cat mem_undup mem_cat merge_params_mem.
  case/orP => [/sbP|/sbQ]; rewrite mem_cat => /orP[] ->; by rewrite ?orbT.
Qed.
End Arith.

Section Arith2.
Variable C : numClosedFieldType.
Variable norm : expr C -> expr C.

Lemma combine_meta_mem op (P Q R : poly C) : combine norm op P Q = Ok R ->
  wf_poly P -> wf_poly Q ->
  [/\ forall m, (m \in variable_names R) = (m \in variable_names P) || (m \in variable_names Q),
      forall s, (s \in var_symbols (variable_names R) (variable_indices R)) =
        (s \in var_symbols (variable_names P) (variable_indices P)) ||
        (s \in var_symbols (variable_names Q) (variable_indices Q)),
      forall p, (p \in parameters R) = (p \in parameters P) || (p \in parameters Q) &
      wf_vars (variable_names R) (variable_indices R)].
Proof.
move=> H wP wQ; have [a b Ep d] := combine_meta H wP wQ; split=> // p.
by rewrite Ep merge_params_mem.
Qed.

Lemma kinds_isSome a b : kinds_agree a b = (isSome a == isSome b).
Proof. by case: a; case: b. Qed.

Lemma combine_succeeds : norm_ok norm -> forall (P Q : poly C),
  wf_poly P -> wf_poly Q ->
  sp_gens (sympy_poly P) = var_symbols (variable_names P) (variable_indices P) ->
  sp_gens (sympy_poly Q) = var_symbols (variable_names Q) (variable_indices Q) ->
  sp_gens (sympy_poly P) != [::] ->
  uniq (parameters P) -> uniq (parameters Q) ->
  all is_ident (variable_names P ++ variable_names Q) ->
  lit "params" \notin variable_names P ++ variable_names Q ->
  ~~ has (mem (parameters P ++ parameters Q))
     (sp_gens (sympy_poly P) ++ sp_gens (sympy_poly Q)) ->
  (forall n, n \in variable_names P -> n \in variable_names Q ->
     isSome (nth None (variable_indices P) (index n (variable_names P))) =
     isSome (nth None (variable_indices Q) (index n (variable_names Q)))) ->
  [/\ exists R, poly_add norm P Q = Ok R, exists R, poly_mul norm P Q = Ok R &
      exists R, poly_sub norm P Q = Ok R].
Proof.
move=> nk P Q wP wQ gP gQ g0 uP uQ idn np dis kin.
have kin' n : n \in variable_names P -> n \in variable_names Q ->
     kinds_agree (ind_of (variable_names P) (variable_indices P) n)
                 (ind_of (variable_names Q) (variable_indices Q) n).
  by move=> nP nQ; rewrite kinds_isSome; apply/eqP/kin.
by split; [apply: (combine_ok norm (@add_op C))|apply: (combine_ok norm (@mul_op C))
  |apply: (combine_ok norm (@sub_op C))].
Qed.

Lemma combine_mixed op (P Q : poly C) n :
  wf_poly P -> wf_poly Q -> n \in variable_names P -> n \in variable_names Q ->
  isSome (nth None (variable_indices P) (index n (variable_names P))) !=
  isSome (nth None (variable_indices Q) (index n (variable_names Q))) ->
  combine norm op P Q = Err AssertionError.
Proof.
move=> [[uP _ sP _] _ _] [[uQ _ sQ _] _ _] nP nQ ne; rewrite /combine.
case E: merge_vars => [NI|x] /=; last by rewrite (merge_vars_err E).
have uz : uniq (map fst (zip (variable_names Q) (variable_indices Q))) by rewrite map_fst_zip.
have H := (merge_vars_ok uP sP uz).1 (ex_intro _ NI E).
have mz : (n, nth None (variable_indices Q) (index n (variable_names Q))) \in
    zip (variable_names Q) (variable_indices Q).
  have := @mem_nth _ ([::], None) (zip (variable_names Q) (variable_indices Q))
    (index n (variable_names Q)).
  by rewrite size_zip -sQ minnn index_mem nQ nth_zip //= nth_index // => /(_ isT).
by move/allP: H => /(_ _ mz); rewrite /= nP kinds_isSome (negbTE ne).
Qed.
End Arith2.
