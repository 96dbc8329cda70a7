(** Sampling by intersection with parameters whose names have the base name p or q. *)
From Coq Require Import ZArith Lia Ascii String.
From mathcomp Require Import all_ssreflect all_algebra.
From mathcomp Require Import zify ssrZ.
From Verif Require Import Base ModelStr ProofStr ModelExpr ModelPoly SpecPoly SpecUniv SpecHom
  ProofPoly ProofPoly2 ProofPoly3 ProofPoly4 ProofPoly5 ProofPoly7 ProofUniv
  ModelUtil ModelProjective ModelDiff ModelHom ModelVariety SpecVariety ProofVariety ProofVariety2.
Delimit Scope Z_scope with Z.

Set Implicit Arguments.
Unset Strict Implicit.
Unset Printing Implicit Defensive.

Import GRing.Theory Num.Theory.
Local Open Scope ring_scope.

Lemma rseq_mem (A : Type) (B : eqType) (f : A -> res B) (s : seq A) r y :
  rseq (map f s) = Ok r -> y \in r -> exists x, List.In x s /\ f x = Ok y.
Proof.
elim: s r => [|x s IH] r /=; first by case=> <-.
case E: (f x) => [b|] //=; case E2: (rseq _) => [r'|] //= [<-].
rewrite inE => /predU1P[->|yr]; first by exists x; split=> //; left.
by have [x' [xs e]] := IH _ E2 yr; exists x'; split=> //; right.
Qed.

Lemma rseq_In (A B : Type) (f : A -> res B) (s : seq A) r y :
  rseq (map f s) = Ok r -> List.In y r -> exists x, List.In x s /\ f x = Ok y.
Proof.
elim: s r => [|x s IH] r /=; first by case=> <-.
case E: (f x) => [b|] //=; case E2: (rseq _) => [r'|] //= [<-] /= [<-|yr].
  by exists x; split=> //; left.
by have [x' [xs e]] := IH _ E2 yr; exists x'; split=> //; right.
Qed.

Lemma rseq_ext (A B : Type) (f g : A -> res B) (s : seq A) :
  (forall x, List.In x s -> f x = g x) -> rseq (map f s) = rseq (map g s).
Proof.
elim: s => [//|x s IH] H /=; rewrite H; last by left.
by rewrite IH // => y ys; apply: H; right.
Qed.

Section Clash.
Variable C : numClosedFieldType.
Notation expr := (expr C).
Variable norm : expr -> expr.

Lemma fs_loop_fields vni st syms st' : fs_loop true true true vni st syms = Ok st' ->
  [/\ st_names st' = st_names st, st_idx st' = st_idx st & st_par st' = st_par st].
Proof.
elim: syms st => [|v syms IH] st /=; first by case=> <-.
case E: (fs_step _ _ _ _ _ _) => [s1|] //= /IH[-> -> ->]; move: E; rewrite /fs_step.
case: ifP => _; first by case=> <-.
case: (split_subscript v) => [[n ix]|] //=; case: ifP => // _.
case: (dict_get _ _) => [k|] //; case: (item _ _) => [ik|] //=.
case: ix => [i|]; last by case: ik => // -[<-].
by case: ik => // l; case: ifP => // _ [<-].
Qed.

Lemma from_sympy_fields e syms names params idx P :
  from_sympy norm e syms (Some names) (Some params) (Some idx) = Ok P ->
  [/\ variable_names P = names, variable_indices P = idx, parameters P = params & uniq names].
Proof.
rewrite /from_sympy /=; case E: (fs_loop _ _ _ _ _ _) => [st|] //=.
have [/= E1 E2 E3] := fs_loop_fields E; rewrite E1 E2 E3.
rewrite /check_signature; case: ifP => // /andP[_ u] /=.
case: (sympy_Poly _ _ _ _) => [sp|] //= -[<-]; split=> //.
by move: u; rewrite cat_uniq => /andP[].
Qed.

(** What is read does not depend on the values of the hidden parameters. *)
Section Eval.
Variables (names : seq sym) (reo : seq (sym * option (seq (Z * nat)))) (pari : seq (sym * nat)).
Variables (ps ps' : seq C).
Hypothesis same : forall s i n ix, dict_get pari s = Some i -> split_subscript s = Ok (n, ix) ->
  n \notin names -> item ps i = item ps' i.

Lemma eval_hidden (e : expr) fn var : eval_sympy names reo pari e = Ok fn ->
  fn var (PArr ps) = fn var (PArr ps').
Proof.
elim/expr_nest_ind: e fn => [c||s|es IH|es IH|e n IH] fn //=.
- by case=> <-.
- case Es: (split_subscript s) => [[n ix]|] //=; case: ifP => [nn|/negbT nn].
    case: (dict_get reo n) => [[r|]|] //; last by case=> <-.
    by case: ix {Es} => [j|] //; case: (dict_get r j) => // i [<-].
  case Ep: (dict_get pari s) => [i|] // [<-]; exact: same Ep Es nn.
- case E: (rseq _) => [fns|] //= -[<-]; congr rbind.
  by apply: rseq_ext => f fi; have [e [ei Ee]] := rseq_In E fi; exact: IH ei _ Ee.
- case E: (rseq _) => [fns|] //= -[<-]; congr rbind.
  by apply: rseq_ext => f fi; have [e [ei Ee]] := rseq_In E fi; exact: IH ei _ Ee.
- by case E: (eval_sympy _ _ _ e) => [f|] //= -[<-]; rewrite (IH _ E).
Qed.
End Eval.

(** Positions of the parameters at which the values may differ. *)
Definition hidden (params names : seq sym) (ps ps' : seq C) : Prop :=
  forall j, (j < size params)%N -> nth 0 ps j <> nth 0 ps' j ->
  exists n ix, split_subscript (nth [::] params j) = Ok (n, ix) /\ n \in names.

Lemma dict_get_pos (l : seq sym) k s i : dict_get (zip l (iota k (size l))) s = Some i ->
  (k <= i < k + size l)%N /\ nth [::] l (i - k) = s.
Proof.
elim: l k i => [//|a l IH] k i /=.
case E: (dict_get _ s) => [v|].
  case=> <-; have [/andP[l1 l2] Hn] := IH _ _ E.
  have -> : (v - k = (v - k.+1).+1)%N by lia.
  by split=> //; lia.
case: eqP => // -> [<-]; rewrite subnn; split=> //; lia.
Qed.

Lemma call_hidden (Q : poly C) vs ps ps' : size vs = size (variable_names Q) -> size ps = size ps' ->
  hidden (parameters Q) (variable_names Q) ps ps' ->
  call_num Q (rcons vs (PArr ps)) [::] = call_num Q (rcons vs (PArr ps')) [::].
Proof.
move=> sv sp hid; case: (eqVneq (size ps) (size (parameters Q))) => np; last first.
  rewrite /call_num /sort_var_args /= !size_rcons sv eqxx /= !last_rcons.
  rewrite -!cats1 -sv !take_size_cat // sv.
  by case: (rseq _) => [m|] //=; rewrite -sp (negbTE np).
have np' : size ps' = size (parameters Q) by rewrite -sp.
rewrite /call_num !sort_args_pos ?np ?np' //=.
case: (sp_expr _) => [e|] //=; case E: (eval_sympy _ _ _ e) => [fn|] //=.
apply: eval_hidden E => s i n ix /dict_get_pos; rewrite add0n subn0 => -[/andP[_ ip] En] Es nn.
rewrite !(@item_ok _ 0) ?np ?np' //; case: (eqVneq (nth 0 ps i) (nth 0 ps' i)) => [->//|/eqP ne].
by have [n' [ix' [E' nn']]] := hid _ ip ne; move: E'; rewrite En Es => -[E' _]; rewrite E' nn' in nn.
Qed.

Variable order : seq (sym * expr) -> seq (sym * expr).
Variable visit : expr -> seq sym.
Variable terms : poly C -> sym -> seq (nat * expr).
Variable roots : seq C -> seq C.

Lemma line_poly_fields n e params L : line_poly_of norm visit n e params = Ok L ->
  [/\ (0 < n)%N, variable_names L = line_names, variable_indices L = line_inds n &
      parameters L = params].
Proof.
rewrite /line_poly_of /from_symarrays; case: (posnP n) => [->|n0].
  by rewrite /= => /from_sympy_fields[_ _ _].
have -> : rseq (map symarray_name [:: [:: lit "t"]; symarray (lit "p") n; symarray (lit "q") n]) = Ok line_names.
  by rewrite [map _ _]/= !symarray_name_ok.
have -> : rseq (map symarray_indices [:: [:: lit "t"]; symarray (lit "p") n; symarray (lit "q") n])
    = Ok (line_inds n).
  by rewrite [map _ _]/= !symarray_indices_ok.
by rewrite /= => /from_sympy_fields[-> -> -> _].
Qed.

Lemma coeff_fields n (L : poly C) cs Q : (0 < n)%N ->
  variable_names L = line_names -> variable_indices L = line_inds n ->
  univariate_coefficients norm L (lit "t") (terms L (lit "t")) visit = Ok cs ->
  List.In (UPoly Q) cs -> variable_names Q = [:: lit "p"; lit "q"] /\ parameters Q = parameters L.
Proof.
move=> n0 E1 E2; rewrite /univariate_coefficients E1 E2.
set consts := [seq _ | v <- _ & _].
have ms c (i : nat) : alpha c -> split_subscript (merge_subscript c (Z.of_nat i)) = Ok (c, Some (Z.of_nat i)).
  by move=> /andP[c0 ac]; rewrite merge_split //; lia.
have Ec : rseq (map symarray_name consts) = Ok [:: lit "p"; lit "q"].
  have ne c i : alpha c -> i \in line_range n -> merge_subscript c i != lit "t".
    move=> ac /mapP[j _ ->]; apply/eqP => E; have := ms _ j ac; by rewrite E.
  have fc c : alpha c -> [seq s <- symbols_of c (Some (line_range n)) | s != lit "t"]
      = symbols_of c (Some (line_range n)).
    by move=> ac; apply/all_filterP/allP => s /mapP[i ir ->]; exact: ne.
  have hc c : alpha c -> has (fun s => s != lit "t") (symbols_of c (Some (line_range n))).
    move=> ac; apply/hasP; exists (merge_subscript c (Z.of_nat 0)).
      by apply/map_f/map_f; rewrite mem_iota.
    by apply: ne => //; apply/map_f; rewrite mem_iota.
  have nc c : alpha c -> symarray_name (symbols_of c (Some (line_range n))) = Ok c.
    by move=> ac; rewrite -(prednK n0) /symarray_name /= (ms _ 0%N ac).
  have G (A B : seq sym) : [seq s <- A | s != lit "t"] = A -> [seq s <- B | s != lit "t"] = B ->
      has (fun s => s != lit "t") A -> has (fun s => s != lit "t") B ->
      symarray_name A = Ok (lit "p") -> symarray_name B = Ok (lit "q") ->
      rseq (map symarray_name [seq [seq s <- v | s != lit "t"] | v <- [:: [:: lit "t"]; A; B]
        & has (fun s => s != lit "t") v]) = Ok [:: lit "p"; lit "q"].
    by move=> fA fB hA hB nA nB; rewrite /= hA hB /= fA fB nA nB.
  by apply: G; [exact: fc|exact: fc|exact: hc|exact: hc|exact: nc|exact: nc].
case: (rassert _) => //= _; case E: (rseq _) => [ds|] //= -[<-] /List.in_map_iff[i [Hi _]].
have {Hi} [k dk] : exists k, List.In (k, UPoly Q) ds.
  move: Hi; case Ed: (dict_get ds i) => [c|] // Ec'; rewrite {}Ec' in Ed; exists i; move: Ed.
  elim: ds {E} => [//|[k c'] ds IH] /=; case Ed: (dict_get ds i) => [w|].
    by case=> Ew; right; apply: IH; rewrite -Ew.
  by case: eqP => // <- [->]; left.
have [t [_ ]] := rseq_In E dk; case: ifP => // _.
case F: (from_symarrays _ _ _ _ _) => [R|] //= -[_ ER]; rewrite {}ER in F; move: F.
rewrite /from_symarrays Ec; case: (rassert _) => //= _; case: (rseq _) => //= inds.
by case/from_sympy_fields.
Qed.

Theorem sample_hidden (P : poly C) ps ps' count lines :
  size ps = size ps' -> hidden (parameters P) [:: lit "p"; lit "q"] ps ps' ->
  sample_hom norm order visit terms roots P ps count lines =
  sample_hom norm order visit terms roots P ps' count lines.
Proof.
move=> sp hid; rewrite /sample_hom /line_poly; case: (dim_complex P) => [n|] //=.
case: (call_sym _ _ _ _) => [e|] //=; case E: (line_poly_of _ _ _ _ _) => [L|] //=.
have [n0 E1 E2 E3] := line_poly_fields E; rewrite /sample_line.
case Eu: (univariate_coefficients _ _ _ _ _) => [cs|] //=; congr rbind.
apply: rseq_ext => pq _; rewrite /solve_intersect; congr rbind; apply: rseq_ext => -[x|Q] Hc //=.
have [F1 F2] := coeff_fields n0 E1 E2 Eu Hc.
by apply: (@call_hidden Q [:: PArr pq.1; PArr pq.2]); rewrite ?F1 ?F2 ?E3.
Qed.
End Clash.
