(** Completion of points of the Dwork and Fermat varieties. *)
From Coq Require Import ZArith Lia Ascii String.
From mathcomp Require Import all_ssreflect all_algebra.
From mathcomp Require Import zify ssrZ ring.
From Verif Require Import Base ModelStr ModelUtil ModelProjective ModelExpr ModelPoly ModelHom ModelVariety ModelPipe ModelOps.
From Verif Require Import SpecPoly SpecUniv SpecHom SpecVariety SpecOps SpecSolve ProofUtil ProofStr ProofPoly ProofPoly2 ProofPoly3 ProofUniv
  ProofHom ProofHom2 ProofHom3 ProofVariety ProofVariety2 ProofVariety3 ProofOps ProofOps2 ProofOps3.
Delimit Scope Z_scope with Z.

Set Implicit Arguments.
Unset Strict Implicit.
Unset Printing Implicit Defensive.

Import GRing.Theory Num.Theory.
Local Open Scope ring_scope.

Section Solve.
Variable C : numClosedFieldType.
Notation expr := (expr C).
Variable norm : expr -> expr.
Variable visit : expr -> seq sym.
Variable terms : poly C -> sym -> seq (nat * expr).
Variable roots : seq C -> seq C.
Hypothesis nk : norm_ok norm.

Lemma exact_is_ok : roots_exact roots -> roots_ok roots.
Proof.
move=> re cs s0 h0; have [-> E] := re cs s0 h0; split=> //.
by apply/allP => r ri; rewrite E (big_rem r) //= subrr mul0r mulr0.
Qed.

Lemma closed_exact : roots_exact (fun cs : seq C => sval (closed_field_poly_normal (desc_poly cs))).
Proof.
move=> cs s0 h0; case: closed_field_poly_normal => r /= E.
have sp : size (desc_poly cs) = size cs.
  apply/eqP; rewrite eqn_leq size_poly /=; case: cs s0 h0 {E} => //= c cs _ c0.
  by rewrite ltnNge; apply: contra c0 => /leq_sizeP /(_ _ (leqnn _)); rewrite desc_coef ?ltnSn //= subnn /= => ->.
have l0 : lead_coef (desc_poly cs) != 0 by rewrite lead_coef_eq0 -size_poly_eq0 sp -lt0n.
have lc : lead_coef (desc_poly cs) = head 0 cs.
  by rewrite lead_coefE sp desc_coef ?prednK // subnn nth0.
split.
  by rewrite -sp E size_scale // size_prod_XsubC.
move=> x; rewrite -desc_polyE E hornerZ -lc; congr (_ * _).
by rewrite horner_prod; apply: eq_bigr => y _; rewrite hornerXsubC.
Qed.

(** The highest power listed is the degree. *)
Lemma terms_degree (A : poly C) s (ts : seq (nat * expr)) d :
  terms_ok A s ts -> terms_nonzero ts ->
  (forall rho, exists2 q : {poly C}, (size q <= d.+1)%N & forall x, value A (upd rho s x) = q.[x]) ->
  (\max_(t <- ts) t.1 <= d)%N.
Proof.
move=> [st ut al _ VL] tn deg; set D := (\max_(t <- ts) t.1)%N.
have [i ni Di] : exists2 i, (i < size ts)%N & (nth (0%N, ENum 0) ts i).1 = D.
  rewrite /D; elim: ts st {tn ut al VL D} => [//|t ts IH] _; rewrite big_cons.
  case: ts IH => [|u us] IH; first by exists 0%N; rewrite // big_nil maxn0.
  have [//|i ni Ei] := IH; case: (leqP t.1 (\max_(j <- u :: us) j.1)) => h.
    by exists i.+1.
  by exists 0%N.
have [rho r0] := tn i ni; have [q sq Eq] := deg rho.
have Ep : q = \sum_(t <- ts) (sem rho t.2)%:P * 'X^(t.1).
  apply: horner_inj => x; rewrite -Eq VL horner_sum.
  elim: ts al {tn ut VL st ni Di r0 D} => [|t ts IH]; first by rewrite !big_nil.
  rewrite /= => /andP[at_ ats]; rewrite !big_cons IH //; congr (_ + _).
  rewrite hornerM hornerC hornerXn {2}/upd eqxx; congr (_ * _); apply: eq_sem => t' /(allP at_) /andP[ts' _].
  by rewrite /upd (negbTE ts').
rewrite leqNgt; apply/negP => lt.
have : q`_D = 0 by rewrite nth_default // (leq_trans sq).
rewrite Ep coef_terms.
have -> : \sum_(t <- ts | t.1 == D) sem rho t.2 = sem rho (nth (0%N, ENum 0) ts i).2; last exact/eqP.
move: D Di lt => D Di lt.
elim: ts ut i ni Di {tn al VL st r0 Ep} => [//|t ts IH] /= /andP[nt ut] [_ Et|i ni Di].
  by rewrite big_cons Et eqxx (sum_none _ _) ?addr0 // -Et.
rewrite big_cons (IH ut i ni Di); case: eqP => // Et; case/negP: nt; rewrite Et -Di.
by apply/(nthP 0%N); exists i; rewrite ?size_map // (nth_map (0%N, ENum 0)).
Qed.

(** 1 + sum z^n + c prod z, as a polynomial in one coordinate. *)
Definition fam_poly n (c : C) (zs : seq C) : {poly C} :=
  'X^n + (1 + \sum_(z <- zs) z ^+ n)%:P + (c * \prod_(z <- zs) z) *: 'X.

Lemma fam_size n c zs : (1 < n)%N -> size (fam_poly n c zs) = n.+1 /\ lead_coef (fam_poly n c zs) = 1.
Proof.
move=> n1; have s1 : (size ((1 + \sum_(z <- zs) z ^+ n)%:P + (c * \prod_(z <- zs) z) *: 'X : {poly C})%R < size ('X^n : {poly C})%R)%N.
  rewrite size_polyXn ltnS; apply: leq_trans (size_add _ _) _; rewrite geq_max.
  rewrite (leq_trans (size_polyC_leq1 _)) ?(ltnW n1) //=.
  by apply: leq_trans (size_scale_leq _ _) _; rewrite size_polyX.
by rewrite /fam_poly -addrA size_addl // lead_coefDl // size_polyXn lead_coefXn.
Qed.

Lemma fam_value n c zs dep x : (dep <= size zs)%N ->
  let pt := take dep zs ++ x :: drop dep zs in
  1 + (\sum_(z <- pt) z ^+ n + c * \prod_(z <- pt) z) = (fam_poly n c zs).[x].
Proof.
move=> le pt; have pp : perm_eq pt (x :: zs).
  by rewrite /pt -[in X in perm_eq _ X](cat_take_drop dep zs) perm_catC /= perm_cons perm_catC.
rewrite (perm_big _ pp) (perm_big (x :: zs) pp) /= !big_cons /fam_poly !hornerD hornerXn hornerC hornerZ hornerX.
rewrite mulrCA [c * _ * x]mulrC; move: (\sum_(j <- zs) j ^+ n) (\prod_(j <- zs) j) => S T; ring.
Qed.

Section Family.
Variables (n p dep : nat) (P : poly C) (H : hompoly C) (k c : C) (zs ps : seq C).
Hypotheses (ov : visit_ok visit) (re : roots_exact roots) (hP : hom_ok P) (hi : hom_init P = Ok H).
Hypotheses (En : variable_names P = [:: lit "z"]) (Ei : variable_indices P = z_indices n) (n2 : (2 < n)%N).
Hypotheses (pn : (p < n)%N) (dn : (dep < n.-1)%N) (sz : size zs = n.-2) (sps : size ps = size (parameters P)).
Hypothesis val : forall rho, value P rho =
  \sum_(s <- z_symbols n) rho s ^+ n + k * rho (lit "psi") * \prod_(s <- z_symbols n) rho s.
Hypothesis call : forall z, size z = n ->
  call_num P [:: PArr z; PArr ps] [::] = Ok (\sum_(x <- z) x ^+ n + c * \prod_(x <- z) x).

Let s := merge_subscript (lit "z") (index_affine_to_hom (Z.of_nat p) (Z.of_nat dep)).
Let A := affine_build norm P [:: Z.of_nat p].
Let i := Z.to_nat (index_affine_to_hom (Z.of_nat p) (Z.of_nat dep)).

Lemma i_ok : (i < n)%N /\ i != p /\ Z.of_nat i = index_affine_to_hom (Z.of_nat p) (Z.of_nat dep).
Proof. by clear -pn dn; rewrite /i /index_affine_to_hom; case: ifP => h; split; [|split| |split]; lia. Qed.

Lemma family_degree : terms_ok A s (terms A s) -> terms_nonzero (terms A s) ->
  (\max_(t <- terms A s) t.1 <= n)%N.
Proof.
have [li [ip Ei']] := i_ok.
have Es : s = nth [::] (z_symbols n) i by rewrite nth_zs // Ei'.
have pin : patch_in P [:: Z.of_nat p].
  by rewrite /patch_in /index_lists Ei /= andbT; apply/mapP; exists p; rewrite // mem_iota.
have rem_ : remains P [:: Z.of_nat p].
  rewrite /remains /index_lists Ei /= orbF; apply/hasP; exists (Z.of_nat i).
    by apply/mapP; exists i; rewrite // mem_iota add0n.
  by apply/eqP; move/eqP: ip; lia.
have [_ vA] := affine_value nk hP pin rem_.
move=> tk tn; apply: terms_degree tk tn _ => rho.
pose sp := nth [::] (z_symbols n) p; pose r1 := set1 [:: sp] rho.
have Eps : patch_syms P [:: Z.of_nat p] = [:: sp] by rewrite /patch_syms En /= /sp nth_zs.
have ss : s != sp by rewrite Es /sp nth_uniq ?size_zs ?zs_uniq.
have swap x t : set1 [:: sp] (upd rho s x) t = upd r1 s x t.
  rewrite /set1 /upd /r1 /set1 !inE; case: (eqVneq t sp) => [->|_] //.
  by rewrite eq_sym (negbTE ss).
pose a := \sum_(j < n | j != i :> nat) r1 (nth [::] (z_symbols n) j) ^+ n.
pose b := k * r1 (lit "psi") * \prod_(j < n | j != i :> nat) r1 (nth [::] (z_symbols n) j).
exists ('X^n + a%:P + b *: 'X).
  apply: leq_trans (size_add _ _) _; rewrite geq_max; apply/andP; split.
    apply: leq_trans (size_add _ _) _; rewrite geq_max size_polyXn leqnn /=.
    by rewrite (leq_trans (size_polyC_leq1 _)).
  by apply: leq_trans (size_scale_leq _ _) _; rewrite size_polyX; lia.
move=> x; rewrite vA Eps val.
have -> : \sum_(t <- z_symbols n) set1 [:: sp] (upd rho s x) t ^+ n = \sum_(t <- z_symbols n) upd r1 s x t ^+ n.
  by apply: eq_bigr => t _; rewrite swap.
have -> : \prod_(t <- z_symbols n) set1 [:: sp] (upd rho s x) t = \prod_(t <- z_symbols n) upd r1 s x t.
  by apply: eq_bigr => t _; rewrite swap.
rewrite swap Es (sum_upd r1 x (fun y => y ^+ n) li) (prod_upd r1 x li).
have -> : upd r1 (nth [::] (z_symbols n) i) x (lit "psi") = r1 (lit "psi").
  rewrite /upd; case: eqP => // E; by have := psi_zs n; rewrite E mem_nth ?size_zs.
rewrite !hornerD hornerXn hornerC hornerZ hornerX /b; congr (_ + _ + _).
by rewrite [x * _]mulrC !mulrA.
Qed.

Lemma family_defining z : size z = n.-1 ->
  defining norm H z (PArr ps) (PatchInt C (Z.of_nat p)) = Ok (1 + (\sum_(x <- z) x ^+ n + c * \prod_(x <- z) x)).
Proof.
move=> sz'; rewrite (defining_call norm _ _ _ hi En).
have [|||||v [E1 E2]] := @transform_valid C norm nk P H [:: n] [:: z] ps [:: Z.of_nat p] hP hi Ei => //.
- by rewrite /=; lia.
- by case=> //= _.
- by rewrite /valid_patch /= andbT; lia.
move: E1 E2 => /= -> <-; rewrite call; last first.
  by rewrite /affine_to_hom (perm_size (insert_perm _ _ _)) size_cat /= sz'; lia.
have pe := insert_perm z [:: 1] (Z.of_nat p).
by rewrite /affine_to_hom (perm_big _ pe) (perm_big ([:: 1] ++ z) pe) /= !big_cons expr1n mul1r addrA.
Qed.

Lemma family_solve : terms_ok A s (terms A s) -> terms_nonzero (terms A s) ->
  exists rs, [/\ solve_defining norm visit terms roots H zs ps (Z.of_nat dep) (Some (Z.of_nat p)) =
      Ok [seq take dep zs ++ r :: drop dep zs | r <- rs], size rs = n &
    forall x, 1 + (\sum_(z <- take dep zs ++ x :: drop dep zs) z ^+ n + c * \prod_(z <- take dep zs ++ x :: drop dep zs) z) =
      \prod_(r <- rs) (x - r)].
Proof.
move=> tk tn; have dz : (dep <= size zs)%N by rewrite sz; lia.
have Es : merge_subscript (head [::] (variable_names P)) (index_affine_to_hom (Z.of_nat p) (Z.of_nat dep)) = s by rewrite En.
have [|ws [sw df ->]] := @solve_core C norm visit terms roots P H n p dep zs ps nk ov hP hi Ei n2 pn dn sz sps.
  by rewrite Es.
rewrite Es -/A in sw.
have le := family_degree tk tn; set D := (\max_(t <- _) t.1)%N in sw le.
have Eq : desc_poly ws = fam_poly n c zs.
  apply: horner_inj => x; rewrite desc_polyE -(fam_value n c x dz) /=; move: (df x); rewrite family_defining; first by case.
  by rewrite size_cat /= size_drop size_takel // sz; lia.
have [sf lf] := @fam_size n c zs (ltnW n2).
have ED : D = n.
  by apply/eqP; rewrite eqn_leq le /= -ltnS -sf -Eq -sw size_desc.
have h1 : head 0 ws = 1.
  by rewrite -lf lead_coefE sf -Eq /= desc_coef ?sw ?ED // subnn nth0.
have [||sr pr] := @re ws; rewrite ?sw ?h1 ?oner_eq0 //.
exists (roots ws); split=> //; first by rewrite sr sw ED.
by move=> x; rewrite (fam_value n c x dz) -Eq desc_polyE pr h1 mul1r.
Qed.
End Family.

Lemma made_hom (P : poly C) n : made P -> variable_names P = [:: lit "z"] -> variable_indices P = z_indices n ->
  hom_ok P /\ exists H, hom_init P = Ok H.
Proof.
move=> [wP gP g0 uP cs] En Ei; split; first by split=> //; rewrite Ei.
by rewrite /hom_init En Ei /=; eexists.
Qed.

Lemma dwork_solve m (f : dwork_factor C) p dep zs psi : visit_ok visit -> roots_exact roots ->
  dwork_factor_value f \is Num.real -> (p < m.+3)%N -> (dep < m.+2)%N -> size zs = m.+1 ->
  let s := merge_subscript (lit "z") (index_affine_to_hom (Z.of_nat p) (Z.of_nat dep)) in
  let pt x := take dep zs ++ x :: drop dep zs in
  exists P H, [/\ dwork_poly norm m.+3 f = Ok P, hom_init P = Ok H &
    let A := affine_build norm P [:: Z.of_nat p] in
    terms_ok A s (terms A s) -> terms_nonzero (terms A s) ->
    exists rs, [/\ solve_defining norm visit terms roots H zs [:: psi] (Z.of_nat dep) (Some (Z.of_nat p)) =
        Ok (map pt rs), size rs = m.+3 &
      forall x, dwork_call m.+3 f (pt x) [:: psi] (Some (Z.of_nat p)) = Ok (\prod_(r <- rs) (x - r))]].
Proof.
move=> ov re fr pn dn sz s pt.
have [P [EP mP [En Ei Ep] Eg Ev]] := dwork_main nk m.+2 fr.
have [hP [H hi]] := made_hom mP En Ei; exists P, H; split=> // A tk tn.
have wP : wf_poly P by case: mP.
have call z : size z = m.+3 -> call_num P [:: PArr z; PArr [:: psi]] [::] =
    Ok (\sum_(x <- z) x ^+ m.+3 + dwork_factor_value f * psi * \prod_(x <- z) x).
  move=> sz'; have := call_value (at_zs m.+3 z psi) (fun=> [::]) wP.
  rewrite /par_input Ep (@family_inputs C m.+3) // [rcons _ _]/= [at_zs _ _ _ (lit "psi")]/at_zs eqxx => ->.
  rewrite Ev {2}/at_zs eqxx; congr (Ok (_ + _ * _)); rewrite -[in RHS](at_map psi sz') big_map //.
have sp : size [:: psi] = size (parameters P) by rewrite Ep.
have [rs [E1 E2 E3]] := family_solve ov re hP hi En Ei isT pn dn sz sp Ev call tk tn.
exists rs; split=> // x; rewrite -E3 /dwork_call size_cat /= size_drop size_takel; last by rewrite sz; lia.
by rewrite sz; have -> : (dep + (m.+1 - dep).+1 + 1 == m.+3)%N by lia.
Qed.

Lemma fermat_solve m p dep zs : visit_ok visit -> roots_exact roots ->
  (p < m.+3)%N -> (dep < m.+2)%N -> size zs = m.+1 ->
  let s := merge_subscript (lit "z") (index_affine_to_hom (Z.of_nat p) (Z.of_nat dep)) in
  let pt x := take dep zs ++ x :: drop dep zs in
  exists P H, [/\ fermat_poly norm m.+3 = Ok P, hom_init P = Ok H &
    let A := affine_build norm P [:: Z.of_nat p] in
    terms_ok A s (terms A s) -> terms_nonzero (terms A s) ->
    exists rs, [/\ solve_defining norm visit terms roots H zs [::] (Z.of_nat dep) (Some (Z.of_nat p)) =
        Ok (map pt rs), size rs = m.+3 &
      forall x, fermat_call m.+3 (pt x) (Some (Z.of_nat p)) = Ok (\prod_(r <- rs) (x - r))]].
Proof.
move=> ov re pn dn sz s pt.
have [P [EP mP [En Ei Ep] Eg Ev]] := fermat_main nk m.+2.
have [hP [H hi]] := made_hom mP En Ei; exists P, H; split=> // A tk tn.
have wP : wf_poly P by case: mP.
have call z : size z = m.+3 -> call_num P [:: PArr z; PArr [::]] [::] =
    Ok (\sum_(x <- z) x ^+ m.+3 + 0 * \prod_(x <- z) x).
  move=> sz'; have := call_value (at_zs m.+3 z 0) (fun=> [::]) wP.
  rewrite /par_input Ep (@family_inputs C m.+3) // [rcons _ _]/= => ->.
  by rewrite Ev mul0r addr0; congr Ok; rewrite -[in RHS](at_map 0 sz') big_map.
have sp : size ([::] : seq C) = size (parameters P) by rewrite Ep.
have Ev0 rho : value P rho = \sum_(s <- z_symbols m.+3) rho s ^+ m.+3 + 0 * rho (lit "psi") * \prod_(s <- z_symbols m.+3) rho s.
  by rewrite Ev !mul0r addr0.
have [rs [E1 E2 E3]] := family_solve ov re hP hi En Ei isT pn dn sz sp Ev0 call tk tn.
exists rs; split=> // x; rewrite -E3 mul0r addr0 /fermat_call size_cat /= size_drop size_takel; last by rewrite sz; lia.
by rewrite sz; have -> : (dep + (m.+1 - dep).+1 + 1 == m.+3)%N by lia.
Qed.

(** Any polynomial: all solutions, if the highest power does not vanish. *)
Lemma solve_all (P : poly C) H n p dep zs ps :
  visit_ok visit -> roots_exact roots ->
  hom_ok P -> hom_init P = Ok H -> variable_indices P = dim_indices [:: n] -> (2 < n)%N ->
  (p < n)%N -> (dep < n.-1)%N -> size zs = n.-2 -> size ps = size (parameters P) ->
  let s := merge_subscript (head [::] (variable_names P)) (index_affine_to_hom (Z.of_nat p) (Z.of_nat dep)) in
  let A := affine_build norm P [:: Z.of_nat p] in
  let D := (\max_(t <- terms A s) t.1)%N in
  let pt x := take dep zs ++ x :: drop dep zs in
  terms_ok A s (terms A s) ->
  forall q : {poly C},
  (forall x, defining norm H (pt x) (PArr ps) (PatchInt C (Z.of_nat p)) = Ok q.[x]) -> size q = D.+1 ->
  exists rs, [/\ solve_defining norm visit terms roots H zs ps (Z.of_nat dep) (Some (Z.of_nat p)) = Ok (map pt rs),
    size rs = D & q = lead_coef q *: \prod_(r <- rs) ('X - r%:P)].
Proof.
move=> ov re hP hi Ei n2 pn dn sz sps s A D pt tk q dq sq.
have [ws [sw df Es]] := @solve_core C norm visit terms roots P H n p dep zs ps nk ov hP hi Ei n2 pn dn sz sps tk.
rewrite -/A -/s -/D in sw.
have Eq : desc_poly ws = q.
  by apply: horner_inj => x; rewrite desc_polyE; have := df x; rewrite dq => -[].
have hl : head 0 ws = lead_coef q.
  by rewrite lead_coefE sq -Eq /= desc_coef ?sw // subnn nth0.
have h0 : head 0 ws != 0 by rewrite hl lead_coef_eq0 -size_poly_eq0 sq.
have [||sr pr] := @re ws; rewrite ?sw //.
exists (roots ws); split=> //; first by rewrite sr sw.
apply: horner_inj => x; rewrite -[in LHS]Eq desc_polyE pr hl hornerZ; congr (_ * _).
by rewrite horner_prod; apply: eq_bigr => y _; rewrite hornerXsubC.
Qed.
End Solve.
