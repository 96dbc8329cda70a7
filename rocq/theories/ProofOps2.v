(** Arithmetic of polynomials with numbers and symbols. *)
From Coq Require Import ZArith Lia Ascii String.
From Coq Require Import Permutation.
From mathcomp Require Import all_ssreflect all_algebra.
From mathcomp Require Import zify ssrZ ring.
From Verif Require Import Base ModelStr ModelUtil ModelExpr ModelPoly ModelHom ModelVariety ModelPipe ModelOps.
From Verif Require Import SpecPoly SpecVariety SpecOps ProofStr ProofPoly ProofPoly2 ProofPoly3 ProofPoly6 ProofPoly7 ProofPipe6 ProofPipe9 ProofOps.
Delimit Scope Z_scope with Z.

Set Implicit Arguments.
Unset Strict Implicit.
Unset Printing Implicit Defensive.

Import GRing.Theory Num.Theory.
Local Open Scope ring_scope.

Section Ops.
Variable C : numClosedFieldType.
Variable norm : expr C -> expr C.
Hypothesis nk : norm_ok norm.
Notation expr := (expr C).
Implicit Types (P Q R : poly C).

Lemma op_ok_k k : op_ok (@op_expr C k) (@op_val C k).
Proof. case: k; [exact: add_op|exact: sub_op|exact: mul_op]. Qed.

Lemma poly_op_poly k P Q : poly_op norm k P (OPoly Q) = combine norm (op_expr k) P Q.
Proof. by rewrite /poly_op /combine /=; case: merge_vars. Qed.

(** Operands as polynomials *)
Definition num_poly (c : C) : poly C := MkPoly [::] [::] [::] (SPoly [::] (num_expr c)).
Definition par_poly (s : sym) : poly C := MkPoly [::] [::] [:: s] (SPoly [::] (ESym s)).
Definition var_poly (n : sym) (i : option Z) (s : sym) : poly C :=
  MkPoly [:: n] [:: omap (fun i => [:: i]) i] [::] (SPoly [:: s] (ESym s)).

Lemma poly_op_num k P c : poly_op norm k P (ONum c) = combine norm (op_expr k) P (num_poly c).
Proof. by []. Qed.

Lemma poly_op_old k P s : s \in parameters P -> poly_op norm k P (OSym s) = combine norm (op_expr k) P (par_poly s).
Proof. by rewrite /poly_op /combine /= => ->. Qed.

Lemma poly_op_new k P s n i : s \notin parameters P -> split_subscript s = Ok (n, i) -> n \notin variable_names P ->
  poly_op norm k P (OSym s) = combine norm (op_expr k) P (par_poly s).
Proof. by rewrite /poly_op /combine /= => /negbTE -> -> /= /negbTE ->. Qed.

Lemma poly_op_var k P s n i : s \notin parameters P -> split_subscript s = Ok (n, i) -> n \in variable_names P ->
  poly_op norm k P (OSym s) = combine norm (op_expr k) P (var_poly n i s).
Proof.
rewrite /poly_op /combine /= => /negbTE -> -> /= ->.
by case: (nth _ _ _) => [a|]; case: i.
Qed.

Lemma num_wf c : c \is Num.real -> wf_poly (num_poly c).
Proof.
move=> rc; split=> //; exists [::], (num_expr c); split=> //.
  by rewrite num_syms.
by rewrite /num_expr rc.
Qed.

Lemma made_call P rho : wf_poly P -> call_at P rho = Ok (value P rho).
Proof. by move=> wP; rewrite /call_at (call_value rho (fun=> [::]) wP). Qed.

(** Putting numbers for symbols *)
Lemma closed_subs sigma rho (d : seq (sym * expr)) e : (forall t v, List.In (t, v) d -> v = ENum (rho t)) ->
  sem sigma (subs d e) = sem (fun t => if t \in map fst d then rho t else sigma t) e.
Proof.
elim: d e => [|[s v] d IH] e H; first exact: eq_sem.
rewrite /subs /= -/(subs d _) IH; last by move=> t w tw; apply: H; right.
rewrite /subs1 sem_esubst; apply: eq_sem => t _; rewrite inE; case: eqP => [->|_] /=.
  by rewrite (H s v) //; left.
by [].
Qed.

Section P.
Variables (k : arith) (P : poly C).
Hypothesis mP : made P.

Lemma made_par : uniq (parameters P).
Proof. by have [_ _ _ + _] := mP; rewrite /all_symbols cat_uniq => /and3P[]. Qed.

Lemma made_dis s : s \in var_symbols (variable_names P) (variable_indices P) -> s \in parameters P -> false.
Proof.
have [_ _ _ + _] := mP; rewrite /all_symbols cat_uniq => /and3P[_ /hasPn H _] sv sp.
by have := H _ sp; rewrite /= sv.
Qed.

Lemma made_sig : all is_ident (variable_names P) /\ lit "params" \notin variable_names P.
Proof.
have [_ _ _ _] := mP; rewrite /check_signature; case: ifP => // /andP[-> +] _.
by rewrite cat_uniq /= orbF => /and3P[].
Qed.

Lemma op_num c : c \is Num.real -> exists R, [/\ poly_op norm k P (ONum c) = Ok R, made R,
  [/\ variable_names R = variable_names P, variable_indices R = variable_indices P & parameters R = parameters P] &
  forall rho x, call_at P rho = Ok x -> call_at R rho = Ok (op_val k x c)].
Proof.
move=> rc; have [wP gP g0 uP cs] := mP; have [si sp] := made_sig; have wQ := num_wf rc.
have [R ER] : exists R, combine norm (op_expr k) P (num_poly c) = Ok R.
  apply: (combine_ok norm (op_ok_k k)); rewrite //= ?cats0 //; first exact: made_par.
  rewrite gP; apply/hasPn => s sv; by apply/negP => ps; have := made_dis sv ps.
have pw : wf_params (variable_names (num_poly c)) (parameters P).
  by have [_ wp _] := wP; move=> s /wp [n bn _]; exists n.
have pn : wf_params (variable_names P) (parameters (num_poly c)) by [].
have wR := combine_wf nk (op_ok_k k) ER wP wQ pn pw.
have [] : [/\ variable_names R = variable_names P, variable_indices R = variable_indices P, parameters R = parameters P &
    sp_gens (sympy_poly R) = sp_gens (sympy_poly P)].
  move: ER; rewrite /combine /=; case: check_signature => //= _; case: (sympy_poly P) gP => [g e|//] /= Eg.
  rewrite /sympy_Poly; case: ifP => //= _ [<-]; split=> //=; rewrite cats0 undup_id // Eg.
  by move: uP; rewrite /all_symbols cat_uniq => /and3P[].
move=> En Ei Ep Eg; exists R; rewrite poly_op_num; split=> //.
  by split=> //; rewrite ?Eg ?En ?Ei // /all_symbols En Ei Ep.
move=> rho x; rewrite !made_call // => -[<-]; rewrite (combine_value nk rho (op_ok_k k) ER); congr (Ok (op_val _ _ _)).
exact: sem_num.
Qed.

(** a parameter, old or new *)
Lemma op_par s : s \in parameters P \/ (exists2 n, has_base s n & n \notin variable_names P) ->
  exists R, [/\ poly_op norm k P (OSym s) = Ok R, made R,
  [/\ variable_names R = variable_names P, variable_indices R = variable_indices P &
      parameters R = if s \in parameters P then parameters P else rcons (parameters P) s] &
  forall rho x, call_at P rho = Ok x -> call_at R rho = Ok (op_val k x (rho s))].
Proof.
move=> H; have [wP gP g0 uP cs] := mP; have [si sp] := made_sig.
have [n bn nn] : exists2 n, has_base s n & n \notin variable_names P.
  by case: H => // ps; have [_ wp _] := wP; apply: wp.
have wQ : wf_poly (par_poly s).
  split=> //; first by move=> t; rewrite inE => /eqP ->; exists n.
  by exists [::], (ESym s); split.
have EQ : poly_op norm k P (OSym s) = combine norm (op_expr k) P (par_poly s).
  case ps: (s \in parameters P); first exact: poly_op_old.
  by case: bn => i Es; apply: poly_op_new Es nn; rewrite ps.
have nv : s \notin var_symbols (variable_names P) (variable_indices P).
  apply/negP => /in_var_symbols[m [ind [mz sm]]]; have [wv _ _] := wP.
  have := wf_var_split wv mz sm; have [mN _] := mem_zip_both mz; case: bn => i Es.
  by case: ind {mz sm} => [l [j jl [_ E]]|[_ E]]; move: Es nn; rewrite E => -[<- _]; rewrite mN.
have [R ER] : exists R, combine norm (op_expr k) P (par_poly s) = Ok R.
  apply: (combine_ok norm (op_ok_k k)); rewrite //= ?cats0 //; first exact: made_par.
  rewrite gP; apply/hasPn => t tv; rewrite /= mem_cat inE negb_or; apply/andP; split.
    by apply/negP => pt; have := made_dis tv pt.
  by apply: contraNneq nv => <-.
have pw : wf_params (variable_names (par_poly s)) (parameters P).
  by have [_ wp _] := wP; move=> t /wp [m bm _]; exists m.
have pn : wf_params (variable_names P) (parameters (par_poly s)).
  by move=> t; rewrite inE => /eqP ->; exists n.
have wR := combine_wf nk (op_ok_k k) ER wP wQ pn pw.
have [] : [/\ variable_names R = variable_names P, variable_indices R = variable_indices P,
    parameters R = (if s \in parameters P then parameters P else rcons (parameters P) s) &
    sp_gens (sympy_poly R) = sp_gens (sympy_poly P)].
  move: ER; rewrite /combine /=; case: check_signature => //= _; case: (sympy_poly P) gP => [g e|//] /= Eg.
  rewrite /sympy_Poly; case: ifP => //= _ [<-]; split=> //=; rewrite cats0 undup_id // Eg.
  by move: uP; rewrite /all_symbols cat_uniq => /and3P[].
move=> En Ei Ep Eg; exists R; rewrite EQ; split=> //.
  split=> //; rewrite ?Eg ?En ?Ei // /all_symbols En Ei Ep.
  case: ifP => // ps; move: uP; rewrite /all_symbols -rcons_cat rcons_uniq => ->.
  by rewrite mem_cat ps orbF nv.
move=> rho x; rewrite !made_call // => -[<-].
by rewrite (combine_value nk rho (op_ok_k k) ER).
Qed.

(** one more coordinate of a variable *)
Lemma op_var s n (i : option Z) : n \in variable_names P -> (if i is Some i then 0 <= i else True)%Z ->
  s = (if i is Some i then merge_subscript n i else n) ->
  isSome (nth None (variable_indices P) (index n (variable_names P))) = isSome i ->
  exists R, [/\ poly_op norm k P (OSym s) = Ok R, wf_poly R,
  [/\ variable_names R = variable_names P, parameters R = parameters P &
      forall t, (t \in var_symbols (variable_names R) (variable_indices R)) =
        (t == s) || (t \in var_symbols (variable_names P) (variable_indices P))] &
  forall rho x, call_at P rho = Ok x -> call_at R rho = Ok (op_val k x (rho s))].
Proof.
move=> nN i0 Es Ek; have [wP gP g0 uP cs] := mP; have [si sp] := made_sig.
have [[un al szn nn] wpar _] := wP; have /andP[n0 an] := allP al _ nN.
have Esp : split_subscript s = Ok (n, i).
  by rewrite Es; case: i i0 {Es Ek} => [i|] i0; rewrite ?merge_split ?split_plain.
have ns : s \notin parameters P.
  apply/negP => /wpar [m [j Ej] mN]; move: Ej; rewrite Esp => -[E _].
  by rewrite -E nN in mN.
have EQ := poly_op_var k ns Esp nN.
have Evs : var_symbols (variable_names (var_poly n i s)) (variable_indices (var_poly n i s)) = [:: s].
  by rewrite /var_symbols /= cats0 Es; case: (i).
have wQ : wf_poly (var_poly n i s).
  split=> //.
    split=> //=; first by rewrite /alpha n0 an.
    by case: i i0 {Es Ek EQ Esp Evs} => [i|] //= i0; rewrite !andbT; apply/Z.leb_spec0.
  exists [:: s], (ESym s); split=> // t; by rewrite /all_symbols Evs cats0.
have [R ER] : exists R, combine norm (op_expr k) P (var_poly n i s) = Ok R.
  apply: (combine_ok norm (op_ok_k k)) => //; first exact: made_par.
  - by rewrite all_cat si /= (allP si).
  - by rewrite mem_cat negb_or sp inE; apply/negP => /eqP E; move: sp; rewrite [in _ \in _]E nN.
  - rewrite gP cats0; apply/hasPn => t; rewrite mem_cat => /orP[tv|/=].
      by apply/negP => pt; have := made_dis tv pt.
    by rewrite inE => /eqP ->.
  - move=> m mN; rewrite inE => /eqP E; rewrite kinds_isSome /ind_of E Ek /= eqxx.
    by case: (i).
have pw : wf_params (variable_names (var_poly n i s)) (parameters P).
  move=> t /wpar [m bm mN]; exists m => //; rewrite inE; apply: contraNneq mN => ->; exact: nN.
have pn : wf_params (variable_names P) (parameters (var_poly n i s)) by [].
have wR := combine_wf nk (op_ok_k k) ER wP wQ pn pw.
have [mm vv Ep _] := combine_meta ER wP wQ.
exists R; rewrite EQ; split=> //.
  split=> //; last by move=> t; rewrite vv Evs inE orbC.
  move: ER; rewrite /combine /= nN; case: (nth _ _ _) => [a|]; case: (i) => [j|] //=;
  case: check_signature => //= _; case: (sp_expr _) => [e|//] /=;
  by rewrite /sympy_Poly; case: ifP => //= _ [<-].
move=> rho x; rewrite !made_call // => -[<-].
by rewrite (combine_value nk rho (op_ok_k k) ER).
Qed.

Lemma op_mixed s n i : s \notin parameters P -> split_subscript s = Ok (n, i) -> n \in variable_names P ->
  isSome (nth None (variable_indices P) (index n (variable_names P))) != isSome i ->
  poly_op norm k P (OSym s) = Err AssertionError.
Proof.
move=> sp Es nN; rewrite (poly_op_var k sp Es nN) /combine /= nN.
by case: (nth _ _ _) => [a|]; case: i {Es}.
Qed.

(** Another spelling of the symbol of a coordinate *)
Lemma op_spelled s n i : s \notin parameters P -> split_subscript s = Ok (n, Some i) -> n \in variable_names P -> (0 <= i)%Z ->
  isSome (nth None (variable_indices P) (index n (variable_names P))) -> s != merge_subscript n i ->
  exists R, [/\ poly_op norm k P (OSym s) = Ok R,
    [/\ variable_names R = variable_names P, parameters R = parameters P &
      forall t, (t \in var_symbols (variable_names R) (variable_indices R)) =
        (t == merge_subscript n i) || (t \in var_symbols (variable_names P) (variable_indices P))],
    forall rho x, call_at P rho = Ok x -> call_at R rho = Ok (op_val k x (rho (merge_subscript n i))),
    forall (order : seq (sym * expr) -> seq (sym * expr)) rho x, (forall d, Permutation d (order d)) ->
      call_at P rho = Ok x ->
      exists2 e, call_sym R (sym_inputs R (fun t => ENum (rho t))) (Some (map (fun t => ENum (rho t)) (parameters R))) order = Ok e &
        forall sigma, sem sigma e = op_val k x (sigma s) &
    merge_subscript n i \notin var_symbols (variable_names P) (variable_indices P) ->
      poly_diff norm R (merge_subscript n i) = Err OtherError].
Proof.
move=> ns Es nN i0 Ek nsm; have [wP gP g0 uP cs] := mP; have [si sp] := made_sig; have [k1 k2 k3] := nk.
have [[un al szn nn] wpar [g [eP [EP sP iP]]]] := wP; have /andP[n0 an] := allP al _ nN.
rewrite EP /= in gP g0.
have nv : s \notin var_symbols (variable_names P) (variable_indices P).
  apply/negP => /in_var_symbols[m [ind [mz sm]]]; have [wv _ _] := wP.
  have := wf_var_split wv mz sm; case: ind {mz sm} => [l [j jl [E1 E]]|[_ E]]; move: E; rewrite Es => -[] // E2 E3.
  by move/eqP: nsm; rewrite [X in X <> _]E1 -E2 -E3.
have [a Ea] : exists a, nth None (variable_indices P) (index n (variable_names P)) = Some a.
  by case: (nth _ _ _) Ek => // a; exists a.
pose I' := set_nth None (variable_indices P) (index n (variable_names P)) (Some (union_indices a [:: i])).
pose R := MkPoly (variable_names P) I' (parameters P) (SPoly (undup (g ++ [:: s])) (norm (op_expr k eP (ESym s)))).
have [_ opS opI] := op_ok_k k eP (ESym s).
have ER : poly_op norm k P (OSym s) = Ok R.
  rewrite /poly_op /= (negbTE ns) Es /= nN Ea /= cs /= EP /= /sympy_Poly; case: ifP => // /negbT /negP []; apply/and3P; split.
  - case E: (undup _) => [|//]; have := mem_undup (g ++ [:: s]) s; by rewrite E mem_cat mem_head orbT.
  - rewrite cat_uniq undup_uniq /= (made_par) andbT; apply/hasPn => t pt /=.
    rewrite mem_undup mem_cat inE negb_or gP; apply/andP; split.
      by apply/negP => tv; have := made_dis tv pt.
    by apply: contraNneq ns => <-.
  - apply/allP => t; rewrite opS mem_cat /= inE mem_cat mem_undup mem_cat inE gP => /orP[/sP|->]; last by rewrite orbT.
    by rewrite mem_cat => /orP[] ->; rewrite ?orbT.
have Em : merge_vars (variable_names P) (variable_indices P) [:: (n, Some [:: i])] = Ok (variable_names P, I').
  by rewrite /= nN Ea.
have [[_ sI'] _ vI' nI'] := merge_varsP un szn Em.
have vR t : (t \in var_symbols (variable_names R) (variable_indices R)) =
    (t == merge_subscript n i) || (t \in var_symbols (variable_names P) (variable_indices P)).
  by rewrite /= vI' /= inE orbC.
have wvR : wf_vars (variable_names R) (variable_indices R).
  split=> //; apply: nI' => //=; by rewrite /all_nonneg /= !andbT; apply/Z.leb_spec0.
have sPR : {subset all_symbols P <= all_symbols R}.
  by move=> t; rewrite /all_symbols !mem_cat vR => /orP[] ->; rewrite ?orbT.
have nR : s \notin all_symbols R by rewrite /all_symbols mem_cat vR !negb_or nsm nv ns.
have PE rho : value P rho = sem rho eP by rewrite /value EP.
exists R; split=> //.
- move=> rho x; rewrite made_call // => -[<-] {x}.
  pose rho' := upd rho s (rho (merge_subscript n i)).
  have miR : merge_subscript n i \in all_symbols R by rewrite mem_cat vR eqxx.
  have rd t : t \in esyms (norm (op_expr k eP (ESym s))) ->
    readable (variable_names R) (variable_index_dict R) (parameter_position R)
    (dict_get (zip (variable_names R) (var_inputs R rho (fun=> [::])))) (par_input R rho) rho' t.
    move/k2; rewrite opS mem_cat inE => /orP[/sP/sPR tR|/eqP ->].
      have [fn E1 E2] := poly_readable rho (fun=> [::]) wvR wpar tR; exists fn => //.
      by rewrite E2 /rho' /upd; case: eqP => // Et; move: tR; rewrite Et (negbTE nR).
    have [fn E1 E2] := poly_readable rho (fun=> [::]) wvR wpar miR; exists fn; last first.
      by rewrite E2 /rho' /upd eqxx.
    by move: E1; rewrite /= Es merge_split //= nN.
  have nI : no_I (norm (op_expr k eP (ESym s))) by apply: k3; rewrite opI iP.
  have [fn E1 E2] := eval_sound rd nI.
  rewrite /call_at (@call_bound _ R _ _ (var_inputs R rho (fun=> [::])) (par_input R rho)) /=; last first.
    apply: sort_args_pos => //; last by rewrite /= size_map.
    by apply: (@size_var_inputs _ R); case: wvR.
  rewrite E1 /= E2 k1; have [-> _ _] := op_ok_k k eP (ESym s); congr (Ok (op_val _ _ _)); last by rewrite /= /rho' /upd eqxx.
  rewrite PE; apply: eq_sem => t /sP/sPR tR; rewrite /rho' /upd; case: eqP => // Et.
  by move: tR; rewrite Et (negbTE nR).
- move=> order rho x ho; rewrite made_call // => -[<-] {x}; rewrite call_symE /=; last by case: wvR.
  eexists; first by []; move=> sigma; set d := order _.
  have pd := ho [seq (t, ENum (rho t)) | t <- all_symbols R]; rewrite -/d in pd.
  have md t : (t \in map fst d) = (t \in all_symbols R).
    by rewrite -(perm_mem (Perm_map_fst pd)) -map_comp map_id.
  have vd t v : List.In (t, v) d -> v = ENum (rho t).
    by move=> /(Permutation_in _ (Permutation_sym pd)) /(@In_graph _ _ (fun t => ENum (rho t))) [].
  rewrite (closed_subs sigma (rho := rho)) // k1; have [-> _ _] := op_ok_k k eP (ESym s).
  congr (op_val _ _ _); last by rewrite /= md (negbTE nR).
  by rewrite PE; apply: eq_sem => t /sP/sPR tR; rewrite md tR.
- move=> nm; apply: poly_diff_bad; rewrite /= mem_undup mem_cat inE negb_or gP nm /=.
  by rewrite eq_sym.
Qed.
End P.
End Ops.
