(** Which names are accepted; the network of HNetMLP layer by layer. *)
From Coq Require Import ZArith Lia Ascii String.
From mathcomp Require Import all_ssreflect all_algebra.
From mathcomp Require Import zify ssrZ.
From Verif Require Import Base ModelStr ModelUtil ModelMC ModelExpr ModelPoly ModelHom ModelML ModelInput SpecSig ProofML3.
Delimit Scope Z_scope with Z.

Set Implicit Arguments.
Unset Strict Implicit.
Unset Printing Implicit Defensive.

Import GRing.Theory Num.Theory.
Local Open Scope ring_scope.

Lemma under_code c : (c == "_"%char) = (code c == 95%N).
Proof.
apply/eqP/eqP => [->|] // H; rewrite -(ascii_nat_embedding c); move: H; rewrite /code => ->.
by [].
Qed.

Lemma word_charP c : reflect (word_char c) [|| is_letter c, is_digit c | c == "_"%char].
Proof.
rewrite under_code /is_letter /is_digit /word_char -/(code c).
apply: (iffP idP); last by case=> [->|[->|[->|->]]]; rewrite ?orbT.
by case/or3P => [/orP[]|h|/eqP]; auto.
Qed.

Lemma identP s : reflect (identifier s) (is_ident s).
Proof.
case: s => [|c t]; first by right; case.
apply: (iffP idP) => [/=/andP[hc /allP ht]|[_ hw hd]].
- split=> // d /=; last first.
    case=> <-; rewrite -/(code c) => hd; move: hc; rewrite under_code /is_letter.
    by move: (code c) hd => k; case/andP=> ? ? /orP[/orP[]|]; lia.
  case=> [<-|]; last by move=> i; apply/word_charP/ht; elim: t i {ht} => //= a t IH [->|/IH h]; rewrite inE ?eqxx // h orbT.
  by apply/word_charP; case/orP: hc => ->; rewrite ?orbT.
apply/andP; split.
  have /word_charP := hw c (or_introl erefl); case/or3P => [->//|h|->]; rewrite ?orbT //.
  by case: (hd c erefl); exact: h.
by apply/allP=> d dt; apply/word_charP; apply: (hw d); right; elim: t dt {hw hd} => //= a t IH; rewrite inE => /orP[/eqP->|/IH]; auto.
Qed.

Lemma signature_ok extra names : check_signature extra names = Ok tt <->
  [/\ forall n, n \in names -> identifier n, uniq names, lit "params" \notin names,
      (forall n, n \in extra -> n \notin names) & uniq extra /\ lit "params" \notin extra].
Proof.
rewrite /check_signature cat_uniq /=; split.
  case: ifP => // /and3P[/allP hi un /and3P[/norP[pn /hasPn en] pe ue]] _.
  by split=> // n nn; apply/identP/hi.
case=> hi un pn en [ue pe]; have -> : all is_ident names by apply/allP=> n /hi /identP.
by rewrite un pe ue (negbTE pn) /= andbT; case: hasP => // -[n /en /negbTE nn]; rewrite /= nn.
Qed.

Lemma signature_err extra names : check_signature extra names = Ok tt \/ check_signature extra names = Err ValueError.
Proof. by rewrite /check_signature; case: ifP; auto. Qed.

Section Hom.
Variable C : numClosedFieldType.
Implicit Types (P : poly C) (H : hompoly C).

Lemma hom_names P : (exists H, hom_init P = Ok H) <->
  [/\ forall n, n \in variable_names P -> identifier n, uniq (variable_names P),
      lit "params" \notin variable_names P, lit "patch" \notin variable_names P &
      forall ind, ind \in variable_indices P -> exists l, ind = Some l].
Proof.
rewrite /hom_init; split.
  case=> H; case: (signature_err [:: lit "patch"] (variable_names P)) => E; rewrite E //=.
  have /signature_ok[h1 h2 h3 h4 _] := E; case: ifP => // /allP hs _; split=> // [|ind /hs].
    exact: h4 (mem_head _ _).
  by case: ind => // l; exists l.
case=> h1 h2 h3 h4 hs; have -> : check_signature [:: lit "patch"] (variable_names P) = Ok tt.
  by apply/signature_ok; split=> // n; rewrite inE => /eqP->.
by rewrite /= (_ : all _ _); [eexists|apply/allP => ind /hs[l ->]].
Qed.

Lemma hom_scalar P : (forall n, n \in variable_names P -> identifier n) -> uniq (variable_names P) ->
  lit "params" \notin variable_names P -> lit "patch" \notin variable_names P ->
  None \in variable_indices P -> hom_init P = Err TypeError.
Proof.
move=> h1 h2 h3 h4 hs; rewrite /hom_init (_ : check_signature _ _ = Ok tt); last first.
  by apply/signature_ok; split=> // n; rewrite inE => /eqP->.
by rewrite /=; case: ifP => // /allP/(_ _ hs).
Qed.
End Hom.

Section Input.
Variable C : numClosedFieldType.
Variable norm : expr C -> expr C.

Lemma obj_names gens gens' dom (e : expr C) syms l l' names params inds :
  from_sympy_obj norm gens dom e syms l (Some names) params inds =
  from_sympy_obj norm gens' dom e syms l' (Some names) params inds.
Proof. by []. Qed.

Lemma obj_expr gens dom (e : expr C) syms l names params inds :
  from_sympy_obj norm gens dom e syms l (Some names) (Some params) inds =
  from_sympy norm e syms (Some names) (Some params) inds.
Proof. by []. Qed.

Lemma obj_indices gens dom (e : expr C) syms l params inds :
  from_sympy_obj norm gens dom e syms l None params (Some inds) = Err AssertionError.
Proof. by []. Qed.
End Input.

Section Net.
Variable C : numClosedFieldType.
Implicit Types (x : seq C).

Lemma zpow_int (x : C) p : zpow x p = x ^ int_of p.
Proof.
rewrite /zpow /int_of; case: p => [|q|q] /=; [by []|by []|]; case: (Pos.to_nat q) => [|n].
  by rewrite invr1 oppr0.
by rewrite -[- _]/(Negz n).
Qed.

Lemma power_product_int (moduli : seq C) pw :
  power_product moduli pw = \prod_(p <- zip moduli pw) p.1 ^ (int_of p.2).
Proof. by apply: eq_bigr => p _; exact: zpow_int. Qed.

Lemma dense_nth K b x j : size b = size K -> (j < size K)%N ->
  size (nth [::] K j) = size x ->
  nth 0 (dense K b x) j = \sum_(i < size x) nth 0 x i * nth 0 (nth [::] K j) i + nth 0 b j.
Proof.
move=> sb jK sx; rewrite /dense (nth_map ([::], 0)) ?size_zip ?sb ?minnn // nth_zip //=.
congr (_ + _); rewrite (big_nth (0, 0)) size_zip sx minnn big_mkord.
by apply: eq_bigr => i _; rewrite nth_zip.
Qed.

Lemma dense_size K b x : size b = size K -> size (dense K b x) = size K.
Proof. by move=> sb; rewrite size_map size_zip sb minnn. Qed.

Variables (exp act : C -> C) (dropf : C -> seq C -> seq C).

Lemma forward_value (hidden : seq ((seq (seq C) * seq C) * option C)) fk fb (sup : bool) n x (xs : nat -> seq C) :
  xs 0%N = x ->
  (forall l, (l < size hidden)%N -> let '(K, b, r) := nth ([::], [::], None) hidden l in
     exists y : seq C, [/\ size b = size K, forall c, c \in K -> size c = size (xs l), size y = size K,
       forall j, (j < size K)%N ->
         nth 0 y j = act (\sum_(i < size (xs l)) nth 0 (xs l) i * nth 0 (nth [::] K j) i + nth 0 b j) &
       xs l.+1 = if r is Some rate then dropf rate y else y]) ->
  let z := xs (size hidden) in
  size fk = (if sup then (n ^ 2).*2 else n ^ 2)%N -> size fb = size fk -> (forall c, c \in fk -> size c = size z) ->
  let out j := \sum_(i < size z) nth 0 z i * nth 0 (nth [::] fk j) i + nth 0 fb j in
  forall j, (j < n ^ 2)%N ->
  nth 0 (hnet_forward exp act dropf hidden fk fb sup n x) j =
  if sup then (1 + exp (- out j))^-1 * out (n ^ 2 + j)%N else out j.
Proof.
move=> x0 step z sk sb sc out j jn.
have Ez : foldl (hidden_layer act dropf) x hidden = z.
  suff H l : (l <= size hidden)%N -> foldl (hidden_layer act dropf) (xs 0%N) (take l hidden) = xs l.
    by rewrite /z -H // take_size x0.
  elim: l => [|l IH] lh; first by rewrite take0.
  rewrite (take_nth ([::], [::], None)) // -cats1 foldl_cat /= IH 1?ltnW //.
  have := step l lh; case: (nth _ _ _) => -[K b] r /= [y [h1 h2 h3 h4 ->]].
  rewrite /hidden_layer /=; suff -> : [seq act u | u <- dense K b (xs l)] = y by [].
  apply: (@eq_from_nth _ 0); rewrite size_map dense_size // => i iK.
  by rewrite (nth_map 0) ?dense_size // h4 // dense_nth // h2 // mem_nth.
rewrite /hnet_forward Ez.
have od i : (i < size fk)%N -> nth 0 (dense fk fb z) i = out i.
  by move=> ik; rewrite dense_nth // sc // mem_nth.
case: sup sk => /= sk; last by rewrite od // sk.
have sd : size (dense fk fb z) = (n ^ 2).*2 by rewrite dense_size.
have st : size (take (n ^ 2) (dense fk fb z)) = (n ^ 2)%N by rewrite size_takel // sd -addnn leq_addr.
have sdr : size (drop (n ^ 2) (dense fk fb z)) = (n ^ 2)%N by rewrite size_drop sd -addnn addnK.
rewrite (nth_map (0, 0)) ?size_zip ?st ?sdr ?minnn // nth_zip ?st ?sdr //=.
by rewrite nth_take // nth_drop !od ?sk -?addnn ?ltn_add2l // ltn_addl.
Qed.
End Net.
