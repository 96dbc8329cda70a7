(** Index union, argument binding and numeric evaluation of polynomials. *)
From Coq Require Import ZArith Lia Ascii String.
From mathcomp Require Import all_ssreflect all_algebra.
From mathcomp Require Import zify ssrZ.
From Verif Require Import Base ModelStr ProofStr ModelExpr ModelPoly.
Delimit Scope Z_scope with Z.

Set Implicit Arguments.
Unset Strict Implicit.
Unset Printing Implicit Defensive.

Import GRing.Theory Num.Theory.

(** ** _union_indices *)
Definition ocons (T : Type) (o : option T) (s : seq T) : seq T :=
  if o is Some x then x :: s else s.

Definition Zlt_b (a b : Z) : bool := (a <? b)%Z.

Lemma Zlt_b_trans : transitive Zlt_b.
Proof. by move=> a b c; rewrite /Zlt_b; lia. Qed.

Lemma add_newE ind i : add_new ind i = ind ++ (if i \in ind then [::] else [:: i]).
Proof. by rewrite /add_new; case: ifP => _; rewrite ?cats0 ?cats1. Qed.

Lemma add_new_uniq ind i : uniq ind -> uniq (add_new ind i).
Proof. by rewrite /add_new; case: ifP => // H u; rewrite rcons_uniq H. Qed.

Lemma add_new_mem ind i j : (j \in add_new ind i) = (j == i) || (j \in ind).
Proof.
rewrite /add_new; case: ifP => H; last by rewrite mem_rcons inE.
by case: eqP => // ->; rewrite H.
Qed.

Definition union_inv (l0 r0 l r : seq Z) (nl nr : option Z) (ind : seq Z) : Prop :=
  [/\ uniq ind, uniq (ocons nl l), uniq (ocons nr r) &
      forall x, ((x \in ind) || (x \in ocons nl l) || (x \in ocons nr r)) =
                (x \in l0) || (x \in r0)].

Definition union_exit (res : seq Z * seq Z * option Z * option Z * seq Z) : Prop :=
  let '(l, r, nl, nr, ind) := res in
  (nl = None /\ l = [::]) \/ ([/\ nl <> None, nr = None & r = [::]]).

Lemma union_loopP l0 r0 f l r nl nr ind :
  union_inv l0 r0 l r nl nr ind -> (size (ocons nl l) + size (ocons nr r) < f)%N ->
  let '(l', r', nl', nr', ind') := union_loop f l r nl nr ind in
  union_inv l0 r0 l' r' nl' nr' ind' /\ union_exit (l', r', nl', nr', ind').
Proof.
elim: f l r nl nr ind => // f IH l r nl nr ind I Hf.
have step a l1 b r1 : ocons nl l = a :: l1 -> ocons nr r = b :: r1 ->
  let '(l', r', nl', nr', ind') :=
    (if (a <? b)%Z then union_loop f l1 r1 None (Some b) (add_new ind a)
     else union_loop f l1 r1 (Some a) None (add_new ind b)) in
  union_inv l0 r0 l' r' nl' nr' ind' /\ union_exit (l', r', nl', nr', ind').
  move=> El Er; case: I => ui ul ur um; rewrite El Er in ul ur um Hf.
  case: ifP => _; apply: IH => //=; try by move: Hf => /=; lia.
    split; [exact: add_new_uniq|by case/andP: ul|exact: ur|move=> x].
    by rewrite -um add_new_mem /= !inE; do !case: (_ == _); do !case: (_ \in _).
  split; [exact: add_new_uniq|exact: ul|by case/andP: ur|move=> x].
  by rewrite -um add_new_mem /= !inE; do !case: (_ == _); do !case: (_ \in _).
rewrite /=; case: nl l I Hf step => [a|] l I Hf step.
  case: nr r I Hf step => [b|] r I Hf step; first exact: step.
  case: r I Hf step => [|b r] I Hf step; last exact: step.
  by split=> //; right.
case: l I Hf step => [|a l] I Hf step; first by split=> //; left.
case: nr r I Hf step => [b|] r I Hf step; first exact: step.
case: r I Hf step => [|b r] I Hf step; last exact: step.
by split=> //; right.
Qed.

Lemma filter_add (ind : seq Z) i s : uniq (i :: s) ->
  ind ++ [seq j <- i :: s | j \notin ind] =
  add_new ind i ++ [seq j <- s | j \notin add_new ind i].
Proof.
move=> /= /andP[ns us].
have -> : [seq j <- s | j \notin add_new ind i] = [seq j <- s | j \notin ind].
  apply: eq_in_filter => j js; rewrite add_new_mem negb_or.
  by case: eqP => // E; rewrite -E js in ns.
by rewrite add_newE /=; case: (i \in ind); rewrite /= ?cats0 // -catA.
Qed.

Lemma union_indicesE l r : uniq l -> uniq r ->
  exists l' r' ind, [/\ union_indices l r = ind ++ [seq j <- l' ++ r' | j \notin ind],
    union_inv l r l' r' None None ind,
    (l' = [::] \/ r' = [::]) &
    exists nl nr l1 r1, [/\ l' = ocons nl l1, r' = ocons nr r1 &
    union_loop (size l + size r).+1 l r None None [::] = (l1, r1, nl, nr, ind)]].
Proof.
move=> ul ur; rewrite /union_indices.
have I0 : union_inv l r l r None None [::] by split.
have := union_loopP I0 (leqnn _).
case: union_loop => [[[[l1 r1] nl] nr] ind] /= [I E].
exists (ocons nl l1), (ocons nr r1), ind; split.
- case: I => ui; case: E => [[-> ->]|[nn -> ->]] /= U1 U2 _.
    by case: nr U2 => [b|] /= U2 //; rewrite filter_add.
  case: nl nn U1 => [a|//] _ /= U1.
  by rewrite !cats0 filter_add.
- by case: I => *; split.
- by case: E => [[-> ->]|[_ -> ->]]; [left|right].
- by exists nl, nr, l1, r1.
Qed.

Lemma union_mem l r : uniq l -> uniq r ->
  uniq (union_indices l r) /\ forall x, (x \in union_indices l r) = (x \in l) || (x \in r).
Proof.
move=> ul ur; have [l' [r' [ind [E [ui /= ul' ur' um] EE _]]]] := union_indicesE ul ur.
rewrite E; split.
  rewrite cat_uniq ui filter_uniq ?andbT /=; last first.
    by case: EE ul' ur' => -> //; rewrite cats0.
  by apply/hasPn => x; rewrite mem_filter => /andP[].
move=> x; rewrite -um mem_cat mem_filter mem_cat.
by case: (x \in ind).
Qed.

Lemma add_new_sorted ind i : sorted Zlt_b ind -> all (fun x => (x <=? i)%Z) ind ->
  sorted Zlt_b (add_new ind i).
Proof.
rewrite /add_new; case: ifP => // H s al.
case: ind H s al => [//|a ind] H s al; rewrite rcons_cons /= rcons_path.
move: s => /= ->; have := mem_last a ind => Hl.
have := allP al _ Hl; rewrite /Zlt_b => Hle.
have /eqP : last a ind != i by apply: contraFneq H => <-.
by move: (last a ind : Z) Hle => y Hle ne; rewrite andTb; clear -Hle ne; lia.
Qed.

Definition below (ind s : seq Z) : bool := all (fun x => all (fun y => (x <=? y)%Z) s) ind.

Lemma below_add ind s i : below ind s -> all (fun y => (i <=? y)%Z) s -> below (add_new ind i) s.
Proof. by rewrite /below /add_new; case: ifP => // _; rewrite all_rcons => -> ->. Qed.

Lemma below_behead ind x s : below ind (x :: s) ->
  below ind s /\ all (fun y => (y <=? x)%Z) ind.
Proof. by move=> /allP H; split; apply/allP => y /H /= /andP[]. Qed.

Lemma sorted_all a s : sorted Zlt_b (a :: s) -> all (fun y => (a <=? y)%Z) s.
Proof.
move=> /=; rewrite (path_sortedE Zlt_b_trans) => /andP[H _].
by apply: sub_all H => y; rewrite /Zlt_b; lia.
Qed.

Lemma union_loop_sorted f l r nl nr ind :
  sorted Zlt_b ind -> sorted Zlt_b (ocons nl l) -> sorted Zlt_b (ocons nr r) ->
  below ind (ocons nl l) -> below ind (ocons nr r) ->
  let '(l', r', nl', nr', ind') := union_loop f l r nl nr ind in
  [/\ sorted Zlt_b ind', sorted Zlt_b (ocons nl' l'), sorted Zlt_b (ocons nr' r'),
      below ind' (ocons nl' l') & below ind' (ocons nr' r')].
Proof.
elim: f l r nl nr ind => // f IH l r nl nr ind si sl sr bl br.
have step a l1 b r1 : ocons nl l = a :: l1 -> ocons nr r = b :: r1 ->
  let '(l', r', nl', nr', ind') :=
    (if (a <? b)%Z then union_loop f l1 r1 None (Some b) (add_new ind a)
     else union_loop f l1 r1 (Some a) None (add_new ind b)) in
  [/\ sorted Zlt_b ind', sorted Zlt_b (ocons nl' l'), sorted Zlt_b (ocons nr' r'),
      below ind' (ocons nl' l') & below ind' (ocons nr' r')].
  move=> El Er; rewrite El in sl bl; rewrite Er in sr br.
  have [bl1 al] := below_behead bl; have [br1 ar] := below_behead br.
  have sa := sorted_all sl; have sb := sorted_all sr.
  case: ifP => Hab; apply: IH => //=.
  - exact: add_new_sorted.
  - by move: sl => /= /path_sorted.
  - exact: below_add.
  - apply: below_add => //=; apply/andP; split; first by lia.
    by apply: sub_all sb => y; lia.
  - exact: add_new_sorted.
  - by move: sr => /= /path_sorted.
  - apply: below_add => //=; apply/andP; split; first by lia.
    by apply: sub_all sa => y; lia.
  - exact: below_add.
rewrite /=; case: nl l sl bl step => [a|] l sl bl step.
  case: nr r sr br step => [b|] r sr br step; first exact: step.
  by case: r sr br step => [|b r] sr br step; last exact: step.
case: l sl bl step => [|a l] sl bl step //.
case: nr r sr br step => [b|] r sr br step; first exact: step.
by case: r sr br step => [|b r] sr br step; last exact: step.
Qed.

Lemma sorted_uniq_Z s : sorted Zlt_b s -> uniq s.
Proof. by apply: sorted_uniq; [exact: Zlt_b_trans|move=> x; rewrite /Zlt_b; lia]. Qed.

Lemma union_sorted l r : sorted Zlt_b l -> sorted Zlt_b r -> sorted Zlt_b (union_indices l r).
Proof.
move=> sl sr.
have [l' [r' [ind [E _ EE [nl [nr [l1 [r1 [El Er EL]]]]]]]]] :=
  union_indicesE (sorted_uniq_Z sl) (sorted_uniq_Z sr).
have := @union_loop_sorted (size l + size r).+1 l r None None [::] isT sl sr isT isT.
rewrite EL -El -Er => -[si sl' sr' bl br].
rewrite E; have {EE} : exists s, [/\ l' ++ r' = s, sorted Zlt_b s & below ind s].
  by case: EE => EE; [exists r'|exists l']; rewrite EE ?cats0; split.
case=> s [-> ss bs]; rewrite (@sorted_pairwise _ Zlt_b Zlt_b_trans) pairwise_cat.
rewrite -!(sorted_pairwise Zlt_b_trans) si (sorted_filter Zlt_b_trans) // !andbT.
apply/allrelP => x y xi; rewrite mem_filter => /andP[ny ys].
have := allP (allP bs _ xi) _ ys; rewrite /Zlt_b.
have /eqP : x != y by apply: contraNneq ny => <-.
by lia.
Qed.

(** ** Dictionaries and lists of results *)
Lemma dict_get_notin (K : eqType) (V : Type) (d : seq (K * V)) k :
  k \notin map fst d -> dict_get d k = None.
Proof.
elim: d => [//|[k' v] d IH] /=; rewrite inE negb_or => /andP[ne nd].
by rewrite IH // (negbTE ne).
Qed.

Lemma dict_get_zip (K : eqType) (V : Type) (ks : seq K) (vs : seq V) k v0 :
  uniq ks -> size ks = size vs -> k \in ks ->
  dict_get (zip ks vs) k = Some (nth v0 vs (index k ks)).
Proof.
elim: ks vs => [//|a ks IH] [//|v vs] /= /andP[na u] [sz]; rewrite inE.
case: (eqVneq k a) => [-> _|ne /= ki].
  by rewrite dict_get_notin ?eqxx //= -/unzip1 unzip1_zip ?sz.
by rewrite (IH vs u sz ki).
Qed.

Lemma rseq_map_ok (A B : Type) (f : A -> res B) (g : A -> B) s :
  (forall x, List.In x s -> f x = Ok (g x)) -> rseq (map f s) = Ok (map g s).
Proof.
elim: s => [//|a s IH] H /=; rewrite H /=; last by left.
by rewrite IH // => x xs; apply: H; right.
Qed.

Lemma item_ok (T : Type) (x0 : T) s i : (i < size s)%N -> item s i = Ok (nth x0 s i).
Proof. by move=> H; rewrite /item (drop_nth x0). Qed.

Lemma item_err (T : Type) (s : seq T) i : (size s <= i)%N -> item s i = Err IndexError.
Proof. by move=> H; rewrite /item drop_oversize. Qed.

(** ** Induction on expressions *)
Section ExprInd.
Variable C : numClosedFieldType.
Variable P : expr C -> Prop.
Hypothesis Hn : forall c, P (ENum c).
Hypothesis HI : P EI.
Hypothesis Hs : forall s, P (ESym s).
Hypothesis Ha : forall es, (forall e, List.In e es -> P e) -> P (EAdd es).
Hypothesis Hm : forall es, (forall e, List.In e es -> P e) -> P (EMul es).
Hypothesis Hp : forall e n, P e -> P (EPow e n).

Fixpoint expr_nest_ind (e : expr C) : P e :=
  let fix all_in (es : seq (expr C)) : forall e, List.In e es -> P e :=
    match es with
    | [::] => fun e H => match H with end
    | a :: es' => fun e H => match H with
        | or_introl E => eq_ind a P (expr_nest_ind a) e E
        | or_intror H' => all_in es' e H'
        end
    end in
  match e with
  | ENum c => Hn c
  | EI => HI
  | ESym s => Hs s
  | EAdd es => Ha (all_in es)
  | EMul es => Hm (all_in es)
  | EPow e n => Hp n (expr_nest_ind e)
  end.
End ExprInd.

(** ** Argument binding *)
Section Args.
Variable C : numClosedFieldType.
Notation pyval := (pyval C).
Implicit Types (names : seq sym) (vals args : seq pyval) (kw : seq (sym * pyval)).

Definition params_fit (np : nat) (p : pyval) : Prop :=
  match p with PNone => True | PArr a => size a = np | PNum _ => False end.

Lemma dict_get_filter (K : eqType) (V : Type) (d : seq (K * V)) k k' : k != k' ->
  dict_get [seq kv <- d | kv.1 != k'] k = dict_get d k.
Proof.
move=> ne; elim: d => [//|[a v] d IH] /=; case: eqP => [E|_] /=; rewrite IH //.
by rewrite E (negbTE ne); case: dict_get.
Qed.

Lemma rseq_drop (names : seq sym) (vals : seq pyval) (k : nat) kw :
  size names = size vals ->
  (forall i, (k <= i < size names)%N ->
     dict_get kw (nth [::] names i) = Some (nth PNone vals i)) ->
  rseq [seq (if dict_get kw name is Some v then Ok v else Err KeyError)
       | name <- drop k names] = Ok (drop k vals).
Proof.
elim: names vals k => [|n names IH] [|v vals] //= k [sz] H.
case: k H => [|k] H /=; last by apply: IH => // i Hi; apply: (H i.+1).
have /= -> := H 0 isT.
have := IH vals 0 sz; rewrite !drop0 => -> // i Hi; exact: (H i.+1).
Qed.

(** First [k] values (or more) positionally, the others by keyword; parameters by
    keyword. *)
Lemma sort_args_kw names np vals kw p extra (k : nat) :
  size names = size vals -> lit "params" \notin names -> (k <= size names)%N ->
  (k = size names \/ extra = [::]) ->
  (forall i, (k <= i < size names)%N ->
     dict_get kw (nth [::] names i) = Some (nth PNone vals i)) ->
  dict_get kw (lit "params") = Some p -> params_fit np p ->
  sort_var_args names np (take k vals ++ extra) kw = Ok (vals, p).
Proof.
move=> sz np0 kn ke H Hp fit; rewrite /sort_var_args Hp.
cbn [rbind].
have -> : take (size names) (take k vals ++ extra) = take k vals.
  case: ke => [E|->]; last by rewrite cats0 take_oversize // size_take -sz; case: ltnP.
  by rewrite E sz take_size take_size_cat.
rewrite size_takel -?sz // (@rseq_drop _ vals); first 1 last => //.
  move=> i Hi; rewrite dict_get_filter; first exact: H.
  by apply: contraNneq np0 => <-; apply: mem_nth; case/andP: Hi.
rewrite /= cat_take_drop.
by case: p fit {Hp} => //= a ->; rewrite eqxx.
Qed.

(** Parameters positionally (after all the variables). *)
Lemma sort_args_pos names np vals kw p :
  size names = size vals -> dict_get kw (lit "params") = None -> params_fit np p ->
  sort_var_args names np (rcons vals p) kw = Ok (vals, p).
Proof.
move=> sz Hp fit; rewrite /sort_var_args Hp size_rcons sz eqxx; cbn [rbind].
rewrite last_rcons -cats1 take_size_cat // take_size drop_oversize ?sz //= cats0.
by case: p fit {Hp} => //= a ->; rewrite eqxx.
Qed.

(** No parameters. *)
Lemma sort_args_none names np vals kw (k : nat) :
  size names = size vals -> (k <= size names)%N ->
  (forall i, (k <= i < size names)%N ->
     dict_get kw (nth [::] names i) = Some (nth PNone vals i)) ->
  dict_get kw (lit "params") = None ->
  sort_var_args names np (take k vals) kw = Ok (vals, PNone).
Proof.
move=> sz kn H Hp; rewrite /sort_var_args Hp size_takel -?sz //.
rewrite ltn_eqF ?ltnS // ltnNge (leqW kn); cbn [rbind negb].
rewrite (@take_oversize _ (size names)) ?size_takel -?sz ?kn // (@rseq_drop _ vals) //=.
by rewrite cat_take_drop.
Qed.

Lemma sort_args_many names np args kw :
  dict_get kw (lit "params") = None -> (size names + 1 < size args)%N ->
  sort_var_args names np args kw = Err RuntimeError.
Proof.
move=> Hp; rewrite /sort_var_args Hp addn1 => lt.
by rewrite eq_sym ltn_eqF // lt.
Qed.

Lemma rseq_missing names kw (k i : nat) :
  (k <= i < size names)%N -> dict_get kw (nth [::] names i) = None ->
  rseq [seq (if dict_get kw name is Some v then Ok v else Err KeyError)
       | name <- drop k names] = Err KeyError :> res (seq pyval).
Proof.
elim: names k i => [|n names IH] k i //=; first by rewrite ltn0 andbF.
case: k => [|k]; case: i => [|i] //=.
- by move=> _ ->.
- move=> Hi E; case: (dict_get kw n) => //= v.
  by have := IH 0 i Hi E; rewrite drop0 => ->.
- exact: IH.
Qed.

Lemma sort_args_missing names np args kw (i : nat) :
  lit "params" \notin names -> (size args <= i < size names)%N ->
  dict_get kw (nth [::] names i) = None ->
  sort_var_args names np args kw = Err KeyError.
Proof.
move=> np0 Hi E; rewrite /sort_var_args; have sN : (size args <= size names)%N.
  by case/andP: Hi => a /ltnW b; apply: leq_trans b.
have ne : nth [::] names i != lit "params".
  by apply: contraNneq np0 => <-; apply: mem_nth; case/andP: Hi.
case Hp: dict_get => [p|]; cbn [rbind].
  by rewrite take_oversize // (@rseq_missing _ _ _ i) // dict_get_filter.
rewrite ltn_eqF ?ltnS // ltnNge (leqW sN); cbn [rbind negb].
by rewrite take_oversize // (@rseq_missing _ _ _ i).
Qed.

Lemma sort_args_bad_params names np args kw (a : seq C) v p :
  sort_var_args names np args kw = Ok (v, p) -> p = PArr a -> size a = np.
Proof.
rewrite /sort_var_args; case: (match dict_get _ _ with Some _ => _ | None => _ end) => //= -[q [x y]].
case: rseq => //= m; case: q => [|c|b] //=; first by move=> [_ <-].
by case: eqP => //= E [_ <-] [<-].
Qed.
End Args.
