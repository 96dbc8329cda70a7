(** Evaluation with mutable inputs. *)
From Coq Require Import ZArith Lia Ascii String.
From mathcomp Require Import all_ssreflect all_algebra.
From mathcomp Require Import zify ring.
From Verif Require Import Base ModelStr ModelExpr ModelStore SpecStore ProofPoly.

Set Implicit Arguments.
Unset Strict Implicit.
Unset Printing Implicit Defensive.

Import GRing.Theory Num.Theory.
Local Open Scope ring_scope.

Section Store.
Variable C : numClosedFieldType.
Variable env : sym -> obj C.
Implicit Types (e : expr C) (h : store C).

(** The loops of the model. *)
Fixpoint sum_loop (es : seq (expr C)) (acc : C) h : obj C * store C :=
  if es is f :: fs then
    let vh := eval_store env f h in sum_loop fs (acc + deref vh.2 vh.1) vh.2
  else (Imm acc, h).
Fixpoint prod_loop (es : seq (expr C)) (pr : option (obj C)) h : obj C * store C :=
  if es is f :: fs then
    let vh := eval_store env f h in
    if pr is Some o then let ph := imul vh.2 o vh.1 in prod_loop fs (Some ph.1) ph.2
    else prod_loop fs (Some vh.1) vh.2
  else (if pr is Some o then o else Imm 1, h).

Lemma eval_addE es h : eval_store env (EAdd es) h = sum_loop es 0 h.
Proof. by []. Qed.
Lemma eval_mulE es h : eval_store env (EMul es) h = prod_loop es None h.
Proof. by []. Qed.

Definition value_in h e : C := sem (fun s => deref h (env s)) e.

Definition good h e : Prop :=
  (eval_store env e h).2 = h /\ deref h (eval_store env e h).1 = value_in h e.

Lemma sum_good es h acc : (forall f, List.In f es -> good h f) ->
  sum_loop es acc h = (Imm (acc + \sum_(f <- es) value_in h f), h).
Proof.
elim: es acc => [|f fs IH] acc H /=; first by rewrite big_nil addr0.
have [E1 E2] := H f (or_introl erefl).
by rewrite E1 E2 IH ?big_cons ?addrA // => g gs; apply: H; right.
Qed.

Lemma prod_good es h c : (forall f, List.In f es -> good h f) ->
  prod_loop es (Some (Imm c)) h = (Imm (c * \prod_(f <- es) value_in h f), h).
Proof.
elim: es c => [|f fs IH] c H /=; first by rewrite big_nil mulr1.
have [E1 E2] := H f (or_introl erefl).
by rewrite E1 E2 IH ?big_cons ?mulrA // => g gs; apply: H; right.
Qed.

Lemma sem_mul (rho : sym -> C) es : sem rho (EMul es) = \prod_(f <- es) sem rho f.
Proof. by rewrite /= big_map. Qed.
Lemma sem_add (rho : sym -> C) es : sem rho (EAdd es) = \sum_(f <- es) sem rho f.
Proof. by rewrite /= big_map. Qed.

Lemma all_In (p : pred (expr C)) s x : all p s -> List.In x s -> p x.
Proof. by elim: s => //= a s IH /andP[pa ps] [<-|] //; apply: IH. Qed.

Lemma eval_good e h : no_mutable_head env e ->
  good h e /\ (~~ starts_mutable env e -> exists c, (eval_store env e h).1 = Imm c).
Proof.
elim/expr_nest_ind: e => [c||s|es IH|es IH|e n IH].
- by move=> _; split=> //; exists c.
- by move=> _; split=> //; exists 'i.
- by move=> _; split=> //=; rewrite /is_mutable; case: (env s) => // c; exists c.
- rewrite [no_mutable_head _ _]/= => al; have al' f : List.In f es -> good h f.
    by move=> fi; have [] := IH f fi (all_In al fi).
  rewrite /good eval_addE sum_good //; split; last by eexists.
  by rewrite /value_in sem_add /= add0r.
- rewrite [no_mutable_head _ _]/= => /andP[al hd]; have al' f : List.In f es -> good h f.
    by move=> fi; have [] := IH f fi (all_In al fi).
  case: es IH al hd al' => [|f fs] IH al hd al'.
    by split; last (by exists 1); rewrite /good /value_in /= big_nil.
  have /andP[nf nfs] := al.
  have [[E1 E2] E3] := IH f (or_introl erefl) nf.
  rewrite /good eval_mulE [starts_mutable _ _]/= [prod_loop _ _ _]/= E1.
  case: fs IH al hd al' nfs => [|g fs] IH al hd al' nfs.
    by split=> //; split=> //; rewrite [prod_loop _ _ _]/= E2 /value_in sem_mul big_seq1.
  have [c Ec] := E3 hd; rewrite Ec prod_good; last by move=> k kin; apply: al'; right.
  split; last by eexists.
  split=> //; rewrite {2}/value_in sem_mul [RHS]big_cons; congr (_ * _).
  by move: E2; rewrite Ec.
- rewrite [no_mutable_head _ _]/= => /IH [[E1 E2] _]; split; last by eexists.
  by rewrite /good /= E1 E2.
Qed.

Lemma eval_preserved e h : no_mutable_head env e ->
  exists o, eval_store env e h = (o, h) /\ deref h o = sem (fun s => deref h (env s)) e.
Proof.
move/(eval_good h) => [[E1 E2] _]; exists (eval_store env e h).1; split=> //.
by case: (eval_store env e h) E1 => o h' /= ->.
Qed.

Lemma In_all (p : pred (expr C)) s : (forall x, List.In x s -> p x) -> all p s.
Proof. by elim: s => //= a s IH H; rewrite H ?IH //=; [move=> x xs; apply: H; right | left]. Qed.

Lemma all_esyms (p : pred sym) es f : all p (flatten (map (@esyms C) es)) -> List.In f es ->
  all p (esyms f).
Proof. by elim: es => //= a es IH; rewrite all_cat => /andP[pa ps] [<-|] //; apply: IH. Qed.

Lemma immutable_safe e : all (fun s => ~~ is_mutable env s) (esyms e) ->
  no_mutable_head env e /\ ~~ starts_mutable env e.
Proof.
elim/expr_nest_ind: e => [c||s|es IH|es IH|e n IH] //=.
- by rewrite andbT.
- move=> H; split=> //; apply: In_all => f fi.
  by have [] := IH f fi (all_esyms H fi).
- move=> H; split.
    apply/andP; split; first by apply: In_all => f fi; have [] := IH f fi (all_esyms H fi).
    case: es IH H => [|f [|g fs]] // IH H.
    by have [] := IH f (or_introl erefl) (all_esyms H (or_introl erefl)).
  case: es IH H => [|f fs] // IH H.
  by have [] := IH f (or_introl erefl) (all_esyms H (or_introl erefl)).
- by move=> /IH [].
Qed.

Lemma eval_immutable e h : (forall s, s \in esyms e -> exists c, env s = Imm c) ->
  exists o, eval_store env e h = (o, h) /\ deref h o = sem (fun s => deref h (env s)) e.
Proof.
move=> H; apply: eval_preserved; apply: (immutable_safe _).1.
by apply/allP => s /H [c E]; rewrite /is_mutable E.
Qed.

(** A product starting with a mutable input overwrites it. *)
Lemma sem_upd h l c e : (forall s, s \in esyms e -> env s <> Ref C l) ->
  value_in (upd h l c) e = value_in h e.
Proof.
rewrite /value_in => H; elim/expr_nest_ind: e H => [k||s|es IH|es IH|e n IH] //= H.
- have := H s (mem_head _ _); case: (env s) => //= k nk; rewrite /upd; case: eqP nk => // ->.
  by case.
- rewrite !big_map; elim: es IH H => [|f fs IHs] IH H; first by rewrite !big_nil.
  rewrite !big_cons IH ?IHs //; try by left.
  + by move=> g gs; apply: IH; right.
  + by move=> s ss; apply: H; rewrite /= mem_cat ss orbT.
  + by move=> s ss; apply: H; rewrite /= mem_cat ss.
- rewrite !big_map; elim: es IH H => [|f fs IHs] IH H; first by rewrite !big_nil.
  rewrite !big_cons IH ?IHs //; try by left.
  + by move=> g gs; apply: IH; right.
  + by move=> s ss; apply: H; rewrite /= mem_cat ss orbT.
  + by move=> s ss; apply: H; rewrite /= mem_cat ss.
- by rewrite IH.
Qed.

Lemma prod_overwrites fs h l : all (no_mutable_head env) fs ->
  (forall f s, List.In f fs -> s \in esyms f -> env s <> Ref C l) ->
  exists h', prod_loop fs (Some (Ref C l)) h = (Ref C l, h') /\
    forall k, h' k = if k == l then h l * \prod_(f <- fs) value_in h f else h k.
Proof.
elim: fs h => [|f fs IH] h /=.
  move=> _ _; exists h; split=> // k; rewrite big_nil mulr1; by case: eqP => [->|].
case/andP=> nf nfs H; have [[E1 E2] _] := eval_good h nf.
rewrite E1 E2; have [|h' [-> Hh]] := IH (upd h l (h l * value_in h f)) nfs.
  by move=> g s gs; apply: H; right.
exists h'; split=> // k; rewrite Hh big_cons /upd eqxx mulrA.
case: eqP => // _; congr (_ * _).
elim: fs H {IH nfs Hh} => [|g fs IHg] H; first by rewrite !big_nil.
rewrite !big_cons IHg; last by move=> g' s [<-|gs]; apply: H; [left | right; right].
congr (_ * _); apply: sem_upd => s; apply: H; by right; left.
Qed.

Lemma eval_overwrites s l fs h : env s = Ref C l -> all (no_mutable_head env) fs ->
  (forall f s, List.In f fs -> s \in esyms f -> env s <> Ref C l) ->
  exists h', eval_store env (EMul (ESym s :: fs)) h = (Ref C l, h') /\
    forall k, h' k = if k == l then sem (fun s => deref h (env s)) (EMul (ESym s :: fs)) else h k.
Proof.
move=> Es nf H; have [h' [E Hh]] := prod_overwrites h nf H.
exists h'; rewrite eval_mulE /= Es E; split=> // k; rewrite Hh; case: eqP => // _.
by rewrite big_cons big_map.
Qed.
End Store.

Lemma eval_history (C : numClosedFieldType) (x y z : C) (h : store C) :
  let env s := if s == lit "x" then Ref C 0 else if s == lit "y" then Imm y else Imm z in
  h 0%N = x ->
  (eval_store env (EAdd [:: EMul [:: ESym (lit "x"); ESym (lit "y")];
                            EMul [:: ESym (lit "x"); ESym (lit "z")]]) h).1 = Imm (x * y + x * y * z).
Proof. by move=> env /= hx; rewrite /upd /= hx add0r. Qed.
