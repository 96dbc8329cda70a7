(** Lemmas about ModelStr.v *)
From Coq Require Import ZArith Lia Ascii String.
From mathcomp Require Import all_ssreflect.
From mathcomp Require Import zify ssrZ.
From Verif Require Import Base ModelStr.
Delimit Scope Z_scope with Z.

Set Implicit Arguments.
Unset Strict Implicit.
Unset Printing Implicit Defensive.

Arguments ascii_of_nat : simpl never.
Arguments nat_of_ascii : simpl never.

Lemma code_digit n : n < 10 -> code (ascii_of_nat (48 + n)) = 48 + n.
Proof. by move=> H; rewrite /code nat_ascii_embedding //; lia. Qed.

Lemma digit_char n (d := ascii_of_nat (48 + n)) : n < 10 ->
  is_digit d /\ (Z.of_nat (code d) - 48 = Z.of_nat n)%Z.
Proof. by move=> H; rewrite /is_digit /d code_digit //; split; lia. Qed.

Lemma nat_digitsP f n : n < f ->
  [/\ nat_digits f n != [::], all is_digit (nat_digits f n) &
      digits_val (nat_digits f n) = Z.of_nat n].
Proof.
elim: f n => // f IH n nf; rewrite [nat_digits _ _]/=.
have [dd dv] : is_digit (ascii_of_nat (48 + n %% 10)) /\
   (Z.of_nat (code (ascii_of_nat (48 + n %% 10))) - 48 = Z.of_nat (n %% 10))%Z.
  by apply: digit_char; rewrite ltn_mod.
move: (ascii_of_nat _) dd dv => d dd dv.
case: ltnP => n10.
  by rewrite (modn_small n10) in dv; split; rewrite /digits_val //= ?dd // dv; lia.
have [|ne al dv'] := IH (n %/ 10).
  by have := ltn_Pdiv (d := 10) isT (leq_trans (isT : 0 < 10) n10); lia.
split; first by case: nat_digits ne.
  by rewrite all_rcons al dd.
rewrite /digits_val foldl_rcons -/(digits_val _) dv' dv.
rewrite {3}(divn_eq n 10); move: (n %/ 10) (n %% 10) => a b; lia.
Qed.

Lemma str_natP n : [/\ str_nat n != [::], all is_digit (str_nat n) &
  digits_val (str_nat n) = Z.of_nat n].
Proof. exact: nat_digitsP. Qed.

Lemma digit_not c : is_digit c ->
  [/\ is_letter c = false, is_delim c = false, is_space c = false & True].
Proof.
rewrite /is_digit => H; split=> //.
- by rewrite /is_letter; lia.
- by apply/negbTE/negP => /orP[]/eqP E; rewrite E in H.
- by rewrite /is_space; lia.
Qed.

Lemma letter_not c : is_letter c -> is_delim c = false /\ is_digit c = false.
Proof.
move=> H; split; last by move: H; rewrite /is_digit /is_letter; lia.
by apply/negbTE/negP => /orP[]/eqP E; rewrite E in H.
Qed.

Lemma find_all T (p : pred T) s : all (predC p) s -> find p s = size s.
Proof. by move=> H; apply: hasNfind; rewrite -all_predC. Qed.

Lemma find_cat_all T (p : pred T) s t : all (predC p) s -> find p (s ++ t) = size s + find p t.
Proof. by rewrite all_predC => /negbTE H; rewrite find_cat H. Qed.

Lemma strip_none p s : all (predC p) s -> strip p s = s.
Proof.
move=> H; have F (t : sym) : all (predC p) t -> find (predC p) t = 0 \/ t = [::].
  by case: t => [|c t] /=; [right|case/andP => ->; left].
rewrite /strip; have -> : drop (find (predC p) s) s = s.
  by case: (F s H) => ->; rewrite ?drop0.
have -> : drop (find (predC p) (rev s)) (rev s) = rev s.
  by case: (F (rev s)) => [|->|->]; rewrite ?drop0 // all_rev.
exact: revK.
Qed.

(** Characters that no step of the parser treats specially. *)
Lemma sub_plain s : all is_digit s ->
  strip (pred1 "}"%char) (strip (pred1 "{"%char) s) = s /\ strip is_space s = s.
Proof.
move=> H; have E p : (forall c, is_digit c -> ~~ p c) -> strip p s = s.
  by move=> Hp; apply: strip_none; apply: sub_all H.
have E1 x : is_digit x = false -> strip (pred1 x) s = s.
  by move=> Hx; apply: E => c Hc; apply: contraTN Hc => /= /eqP ->; rewrite Hx.
by rewrite !E1 // E // => c /digit_not[_ _ ->].
Qed.

Lemma py_int_digits s : s != [::] -> all is_digit s -> py_int s = Some (digits_val s).
Proof.
move=> ne al; rewrite /py_int (sub_plain al).2.
case: s ne al => [//|c s] _ al.
have [dc _] := andP al.
have nc x : is_digit x = false -> c != x by move=> Hx; apply: contraTneq dc => ->; rewrite Hx.
have E : (match c :: s with
    | "-"%char :: t => ((-1)%Z, t)
    | "+"%char :: t => (1%Z, t)
    | _ => (1%Z, c :: s) end) = (1%Z, c :: s).
  by have := nc "-"%char erefl; have := nc "+"%char erefl; move: c {al dc nc};
     case=> [[] [] [] [] [] [] [] []].
by rewrite E al Z.mul_1_l.
Qed.

Lemma parts_step f c u rest :
  all (predC is_delim) u ->
  (c == "_"%char) = false \/ (u != [::]) || (rest == [::]) ->
  (if rest is d :: _ then is_delim d else true) ->
  text_parts f.+1 (c :: u ++ rest) = (c :: u) :: text_parts f rest.
Proof.
move=> al Hc Hr; rewrite [text_parts _ _]/=.
have -> : starts (lit "__") (c :: u ++ rest) = false.
  apply/negbTE/negP; rewrite /starts [take _ _]/= => /eqP[Ec].
  case: Hc => [|H]; first by rewrite Ec.
  case: u al H => [|d u] /=; first by move=> _ /eqP ->.
  by case/andP=> /norP[_ H] _ _ [Ed]; rewrite Ed in H.
have -> : find is_delim (drop 1 (c :: u ++ rest)) = size u.
  rewrite /= drop0 find_cat_all // -[RHS]addn0; congr (_ + _).
  by case: rest Hr {Hc} => //= d r ->.
by rewrite add1n /= take_size_cat // drop_size_cat.
Qed.

Lemma letters_nodelim n : all is_letter n -> all (predC is_delim) n.
Proof. by apply: sub_all => c /letter_not[/= ->]. Qed.
Lemma digits_nodelim n : all is_digit n -> all (predC is_delim) n.
Proof. by apply: sub_all => c /digit_not[_ /= ->]. Qed.

Lemma parts_name f n rest : n != [::] -> all (predC is_delim) n ->
  (if rest is d :: _ then is_delim d else true) ->
  text_parts f.+1 (n ++ rest) = n :: text_parts f rest.
Proof.
case: n => [//|c u] _ /= /andP[/norP[_ H] al] Hr; apply: parts_step => //; left.
exact: negbTE.
Qed.

Lemma parts_nil f : text_parts f [::] = [::].
Proof. by case: f. Qed.

Lemma parts_last f c u : all (predC is_delim) u -> text_parts f.+1 (c :: u) = [:: c :: u].
Proof.
move=> du; rewrite -[in LHS](cats0 u) parts_step ?parts_nil //.
by right; rewrite eqxx orbT.
Qed.

Lemma name_digits_cat n d : n != [::] -> all is_letter n -> d != [::] -> all is_digit d ->
  name_digits (n ++ d) = Some (n, d).
Proof.
move=> n0 al d0 ad; rewrite /name_digits.
have -> : find (predC is_letter) (n ++ d) = size n.
  rewrite find_cat_all; last by apply: sub_all al => c /= ->.
  by case: d d0 ad => [//|c d] _ /= /andP[/digit_not[-> _ _ _] _]; rewrite addn0.
by rewrite drop_size_cat // take_size_cat // lt0n size_eq0 n0 d0 ad.
Qed.

Lemma name_digits_letters n : all is_letter n -> name_digits n = None.
Proof.
move=> al; rewrite /name_digits find_all; last by apply: sub_all al => c /= ->.
by rewrite drop_size eqxx andbF.
Qed.

Lemma split_plain n : n != [::] -> all is_letter n -> split_subscript n = Ok (n, None).
Proof.
move=> n0 al; rewrite /split_subscript /split_super_sub.
rewrite -{1 2}(cats0 n) size_cat addn0; case: (size n) (size_eq0 n) => [|f _].
  by rewrite (negbTE n0).
by rewrite parts_name ?letters_nodelim // parts_nil name_digits_letters.
Qed.

Lemma split_digits n d : n != [::] -> all is_letter n -> d != [::] -> all is_digit d ->
  split_subscript (n ++ d) = Ok (n, Some (digits_val d)).
Proof.
move=> n0 al d0 ad; rewrite /split_subscript /split_super_sub.
rewrite -{1 2}(cats0 (n ++ d)) size_cat addn0.
have : size (n ++ d) != 0 by rewrite size_cat addn_eq0 size_eq0 (negbTE n0).
case: (size (n ++ d)) => // f _.
rewrite parts_name //; first last.
- by rewrite all_cat (letters_nodelim al) digits_nodelim.
- by move: n0; case: (n).
by rewrite parts_nil name_digits_cat //= (sub_plain ad).1 py_int_digits.
Qed.

Arguments part_super : simpl never.
Arguments part_sub : simpl never.
Arguments strip : simpl never.
Arguments py_int : simpl never.

Lemma part_underscore u : all (predC is_delim) u ->
  part_super ("_"%char :: u) = [::] /\ part_sub ("_"%char :: u) = [:: u].
Proof.
move=> du; rewrite /part_super /part_sub.
have -> : starts (lit "^") ("_"%char :: u) = false by [].
have -> : starts (lit "__") ("_"%char :: u) = false.
  apply/negbTE/negP; rewrite /starts [take _ _]/= => /eqP[].
  case: u du => [//|d u] /= /andP[/norP[_ H] _] [Ed]; by rewrite Ed in H.
by rewrite /= drop0.
Qed.

Lemma split_underscore n u : n != [::] -> all is_letter n -> all (predC is_delim) u ->
  split_subscript (n ++ "_"%char :: u) =
  if py_int (strip (pred1 "}"%char) (strip (pred1 "{"%char) u)) is Some i
  then Ok (n, Some i) else Err ValueError.
Proof.
move=> n0 al du; rewrite /split_subscript /split_super_sub size_cat /= addnS.
rewrite parts_name ?letters_nodelim //.
have : 0 < size n + size u by rewrite addn_gt0 lt0n size_eq0 n0.
case: (_ + _) => // f _.
rewrite parts_last //.
by rewrite name_digits_letters //= (part_underscore du).2.
Qed.

Lemma merge_split n (i : Z) : n != [::] -> all is_letter n -> (0 <= i)%Z ->
  split_subscript (merge_subscript n i) = Ok (n, Some i).
Proof.
move=> n0 al i0; rewrite /merge_subscript /str_int.
have -> : (i <? 0)%Z = false by apply/Z.ltb_ge.
have [ne ad dv] := str_natP (Z.to_nat i).
by rewrite split_digits // dv Z2Nat.id.
Qed.


Lemma split_two n d u v : n != [::] -> all is_letter n -> all is_digit d ->
  all (predC is_delim) u -> u != [::] -> all (predC is_delim) v ->
  split_subscript (n ++ d ++ "_"%char :: u ++ "_"%char :: v) = Err RuntimeError.
Proof.
move=> n0 al ad du u0 dv; rewrite /split_subscript /split_super_sub.
rewrite catA size_cat /= size_cat /= !addnS parts_name //; first last.
- by rewrite all_cat (letters_nodelim al) digits_nodelim.
- by move: n0; case: (n).
have : 1 < size n + size d + size (u ++ "_"%char :: v).
  rewrite size_cat /=; case: (n) n0 => //= *; lia.
case: (_ + _) => [|[|f]] // _; rewrite parts_step ?u0 //; last by right.
rewrite parts_last //.
rewrite [map part_sub _]/= (part_underscore du).2 (part_underscore dv).2.
by case: name_digits => [[]|].
Qed.

Lemma split_digit_sub n d u : n != [::] -> all is_letter n -> d != [::] -> all is_digit d ->
  all (predC is_delim) u ->
  split_subscript (n ++ d ++ "_"%char :: u) = Err RuntimeError.
Proof.
move=> n0 al d0 ad du; rewrite /split_subscript /split_super_sub.
rewrite catA size_cat /= !addnS parts_name //; first last.
- by rewrite all_cat (letters_nodelim al) digits_nodelim.
- by move: n0; case: (n).
have : 0 < size (n ++ d) + size u by rewrite size_cat; case: (n) n0.
case: (_ + _) => // f _; rewrite parts_last // name_digits_cat //.
by rewrite [map part_sub _]/= (part_underscore du).2.
Qed.

Lemma brace_strip d : d != [::] -> all is_digit d ->
  strip (pred1 "}"%char) (strip (pred1 "{"%char) ("{"%char :: rcons d "}"%char)) = d.
Proof.
case: d => [//|c d] _ /= /andP[dc ad].
have nb x : is_digit x -> (x == "{"%char) = false /\ (x == "}"%char) = false.
  by move=> dx; split; apply: contraTF dx => /eqP ->.
have -> : strip (pred1 "{"%char) ("{"%char :: c :: rcons d "}"%char) = c :: rcons d "}"%char.
  by rewrite /strip /= (nb c dc).1 /= -rcons_cons rev_rcons /= rev_cons revK.
rewrite /strip /= (nb c dc).2 /= -rcons_cons rev_rcons /=.
have : all is_digit (rev (c :: d)) by rewrite all_rev /= dc.
move: (revK (c :: d)); case: (rev (c :: d)) => [|y t] // E /andP[dy _].
by rewrite /= (nb y dy).2 /= E.
Qed.

Lemma split_brace n d : n != [::] -> all is_letter n -> d != [::] -> all is_digit d ->
  split_subscript (n ++ "_"%char :: "{"%char :: rcons d "}"%char) = Ok (n, Some (digits_val d)).
Proof.
move=> n0 al d0 ad; rewrite split_underscore // ?brace_strip ?py_int_digits //=.
by rewrite all_rcons /= digits_nodelim.
Qed.

Lemma split_under_digits n d : n != [::] -> all is_letter n -> d != [::] -> all is_digit d ->
  split_subscript (n ++ "_"%char :: d) = Ok (n, Some (digits_val d)).
Proof.
move=> n0 al d0 ad; rewrite split_underscore ?digits_nodelim //.
by rewrite (sub_plain ad).1 py_int_digits.
Qed.

Lemma split_negative n (i : Z) : n != [::] -> all is_letter n -> (i < 0)%Z ->
  split_subscript (merge_subscript n i) = Ok (merge_subscript n i, None).
Proof.
move=> n0 al i0; rewrite /merge_subscript /str_int.
have -> : (i <? 0)%Z by apply/Z.ltb_lt.
have [_ ad _] := str_natP (Z.to_nat (- i)); move: (str_nat _) ad => d ad.
case: n n0 al => [//|c n] _ /= /andP[lc al].
have nd : all (predC is_delim) (n ++ "-"%char :: d).
  by rewrite all_cat letters_nodelim //= digits_nodelim.
rewrite /split_subscript /split_super_sub [size _]/= parts_last //.
have -> : name_digits (c :: n ++ "-"%char :: d) = None; last by [].
rewrite /name_digits; have -> : find (predC is_letter) (c :: n ++ "-"%char :: d) = size (c :: n).
  rewrite -cat_cons find_cat_all /= ?addn0 // lc /=.
  by apply: sub_all al => x /= ->.
by rewrite -cat_cons drop_size_cat.
Qed.

(** A digit inside the name: the merged symbol is not split again. *)
Lemma split_inner n d m (i : Z) : n != [::] -> all is_letter n -> d != [::] -> all is_digit d ->
  m != [::] -> all is_letter m -> (0 <= i)%Z ->
  split_subscript (merge_subscript (n ++ d ++ m) i) = Ok (merge_subscript (n ++ d ++ m) i, None).
Proof.
move=> n0 al d0 ad m0 am i0; rewrite /merge_subscript /str_int.
have -> : (i <? 0)%Z = false by apply/Z.ltb_ge.
have [_ ai _] := str_natP (Z.to_nat i); move: (str_nat _) ai => s ai.
case: n n0 al => [//|c n] _ /= /andP[lc al].
have nd : all (predC is_delim) ((n ++ d ++ m) ++ s).
  by rewrite !all_cat (letters_nodelim al) (letters_nodelim am) (digits_nodelim ad) digits_nodelim.
rewrite /split_subscript /split_super_sub [size _]/= parts_last //.
have -> : name_digits (c :: (n ++ d ++ m) ++ s) = None; last by [].
rewrite /name_digits -cat_cons -cat_cons -!catA.
have -> : find (predC is_letter) ((c :: n) ++ d ++ m ++ s) = size (c :: n).
  rewrite find_cat_all /= ?lc; last by apply: sub_all al => x /= ->.
  by case: d d0 ad nd => [//|x d] _ /= /andP[/digit_not[-> _ _ _] _]; rewrite addn0.
rewrite drop_size_cat // all_cat ad /= all_cat.
case: m m0 am nd => [//|x m] _ /= /andP[/letter_not[_ ->] _] _.
by rewrite andbF.
Qed.

Lemma split_spellings n d : n != [::] -> all is_letter n -> d != [::] -> all is_digit d ->
  [/\ split_subscript (n ++ d) = Ok (n, Some (digits_val d)),
      split_subscript (n ++ "_"%char :: d) = Ok (n, Some (digits_val d)) &
      split_subscript (n ++ "_"%char :: "{"%char :: rcons d "}"%char)
        = Ok (n, Some (digits_val d))].
Proof. by move=> *; split; [exact: split_digits|exact: split_under_digits|exact: split_brace]. Qed.

Lemma py_int_letters u : all is_letter u -> py_int u = None.
Proof.
move=> au; have H : all (predC is_space) u.
  by apply: sub_all au => c; rewrite /= /is_letter /is_space; lia.
rewrite /py_int strip_none //.
case: u au {H} => [//|c u] /= /andP[lc _].
have nc x : is_letter x = false -> c != x by move=> Hx; apply: contraTneq lc => ->; rewrite Hx.
have E : (match c :: u with
  | "-"%char :: t => ((-1)%Z, t) | "+"%char :: t => (1%Z, t) | _ => (1%Z, c :: u) end)
  = (1%Z, c :: u).
  have := nc "-"%char erefl; have := nc "+"%char erefl.
  by case: c lc nc => -[] [] [] [] [] [] [] [].
by rewrite E /= (letter_not lc).2.
Qed.

Lemma split_letters_sub n u : n != [::] -> all is_letter n -> all is_letter u ->
  split_subscript (n ++ "_"%char :: u) = Err ValueError.
Proof.
move=> n0 al au; rewrite split_underscore ?letters_nodelim //.
rewrite !strip_none ?py_int_letters //; apply: sub_all au => c lc /=;
  by apply: contraTneq lc => ->.
Qed.
