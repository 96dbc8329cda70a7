(** Derivatives of the Dwork and Fermat polynomials. *)
From Coq Require Import ZArith Lia Ascii String.
From mathcomp Require Import all_ssreflect all_algebra.
From mathcomp Require Import zify ssrZ ring.
From Verif Require Import Base ModelStr ModelUtil ModelExpr ModelPoly ModelHom ModelVariety ModelPipe ModelOps.
From Verif Require Import SpecPoly SpecVariety SpecOps ProofStr ProofPoly ProofPoly2 ProofPoly3 ProofPoly6 ProofPoly7 ProofVariety ProofVariety2 ProofPipe6 ProofPipe9 ProofOps ProofOps2.
Delimit Scope Z_scope with Z.

Set Implicit Arguments.
Unset Strict Implicit.
Unset Printing Implicit Defensive.

Import GRing.Theory Num.Theory.
Local Open Scope ring_scope.

Lemma zs_uniq n : uniq (z_symbols n).
Proof.
rewrite /z_symbols map_inj_in_uniq ?iota_uniq // => i j _ _ /merge_inj E.
by apply: Nat2Z.inj; apply: E => //; lia.
Qed.

Lemma size_zs n : size (z_symbols n) = n.
Proof. by rewrite size_map size_iota. Qed.

Lemma nth_zs n i : (i < n)%N -> nth [::] (z_symbols n) i = merge_subscript (lit "z") (Z.of_nat i).
Proof. by move=> li; rewrite (nth_map 0%N) ?size_iota // nth_iota. Qed.

Lemma zs_var n : var_symbols [:: lit "z"] (z_indices n) = z_symbols n.
Proof. by rewrite /var_symbols /= cats0 -map_comp. Qed.

Lemma psi_zs n : lit "psi" \notin z_symbols n.
Proof. by apply/mapP => -[i _ E]; have := merge_not_psi (lit "z") (Z.of_nat i); rewrite -E eqxx. Qed.

Section Fam.
Variable C : numClosedFieldType.
Variable norm : expr C -> expr C.
Hypothesis nk : norm_ok norm.
Notation expr := (expr C).

(** The values given to the symbols *)
Definition at_zs n (zs : seq C) (psi : C) (s : sym) : C :=
  if s == lit "psi" then psi else nth 0 zs (index s (z_symbols n)).

Lemma at_nth n zs psi i : (i < n)%N -> at_zs n zs psi (nth [::] (z_symbols n) i) = nth 0 zs i.
Proof.
move=> li; rewrite /at_zs index_uniq ?size_zs ?zs_uniq //; case: eqP => // E.
by have := psi_zs n; rewrite -E mem_nth ?size_zs.
Qed.

Lemma at_map n zs psi : size zs = n -> map (at_zs n zs psi) (z_symbols n) = zs.
Proof.
move=> sz; apply: (@eq_from_nth _ 0); rewrite size_map size_zs // => i li.
by rewrite (nth_map [::]) ?size_zs // at_nth.
Qed.

Lemma family_syms n par (sp : spoly C) : all_symbols (MkPoly [:: lit "z"] (z_indices n) par sp) = z_symbols n ++ par.
Proof. by rewrite -[LHS]/(var_symbols [:: lit "z"] (z_indices n) ++ par) zs_var. Qed.

Lemma family_inputs n (P : poly C) zs psi : variable_names P = [:: lit "z"] -> variable_indices P = z_indices n ->
  size zs = n -> var_inputs P (at_zs n zs psi) (fun=> [::]) = [:: PArr zs].
Proof.
move=> En Ei sz; rewrite /var_inputs En Ei /z_indices /= /var_input /= cats0 -[in RHS](at_map psi sz) /z_symbols.
by rewrite -!map_comp.
Qed.

Lemma wf_family n par (sp : spoly C) (P := MkPoly [:: lit "z"] (z_indices n) par sp) : 
  wf_params [:: lit "z"] par ->
  (exists g e, [/\ sp = SPoly g e, {subset esyms e <= z_symbols n ++ par} & no_I e]) -> wf_poly P.
Proof.
move=> wp [g [e [E se ie]]]; split=> //.
  by split=> //=; rewrite andbT; apply/allP => x /mapP[i _ ->]; apply/Z.leb_spec0; lia.
by exists g, e; split=> // s /se; rewrite /all_symbols /= zs_var.
Qed.

Lemma fermat_expr n : let e := EAdd [seq EPow x n | x <- [seq ESym s | s <- z_symbols n]] : expr in
  [/\ esyms e = z_symbols n, no_I e & forall rho, sem rho e = \sum_(s <- z_symbols n) rho s ^+ n].
Proof.
split; rewrite /=; move: (z_symbols n) => zs.
- by rewrite -!map_comp; elim: zs => //= s l ->.
- by rewrite all_map all_map; apply/allP.
- by move=> rho; rewrite !big_map.
Qed.

Lemma bindE (A B : Type) (x : A) (f : A -> res B) : rbind (Ok x) f = f x.
Proof. by []. Qed.

Lemma fermat_symE n (z : seq expr) : size z = n -> fermat_sym n z = Ok (EAdd [seq EPow x n | x <- z]).
Proof. by rewrite /fermat_sym => ->; rewrite eqxx. Qed.

Lemma dwork_symE n (factor : dwork_factor C) (z : seq expr) p : size z = n ->
  dwork_sym n factor z [:: p] =
  Ok (EAdd [:: EAdd [seq EPow x n | x <- z]; EMul [:: num_expr (dwork_factor_value factor); p; EMul z]]).
Proof. by rewrite /dwork_sym => ->; rewrite eqxx. Qed.

Lemma fermat_main n : exists P, [/\ fermat_poly norm n.+1 = Ok P, made P,
  [/\ variable_names P = [:: lit "z"], variable_indices P = z_indices n.+1 & parameters P = [::]],
  sp_gens (sympy_poly P) = z_symbols n.+1 &
  forall rho, value P rho = \sum_(s <- z_symbols n.+1) rho s ^+ n.+1].
Proof.
have [k1 k2 k3] := nk; have [e1 e2 e3] := fermat_expr n.+1; set e := EAdd _ in e1 e2 e3.
rewrite /fermat_poly fermat_symE ?size_map ?size_iota // bindE -/e.
rewrite (_ : sympy_Poly norm e (z_symbols n.+1) [::] = Ok (SPoly (z_symbols n.+1) (norm e))); last first.
  by rewrite /sympy_Poly cats0 zs_uniq e1; case: ifP => // /negP[]; apply/and3P; split=> //; exact/allP.
rewrite bindE; eexists; split=> //; last by move=> rho; rewrite /value /= k1 e3.
split=> //; last by rewrite family_syms cats0 zs_uniq.
  apply: wf_family => //; exists (z_symbols n.+1), (norm e); split=> //; last exact: k3.
  by move=> s /k2; rewrite e1 cats0.
exact/esym/zs_var.
Qed.

Lemma dwork_main n (factor : dwork_factor C) : dwork_factor_value factor \is Num.real ->
  exists P, [/\ dwork_poly norm n.+1 factor = Ok P, made P,
  [/\ variable_names P = [:: lit "z"], variable_indices P = z_indices n.+1 & parameters P = [:: lit "psi"]],
  sp_gens (sympy_poly P) = z_symbols n.+1 &
  forall rho, value P rho = \sum_(s <- z_symbols n.+1) rho s ^+ n.+1 +
    dwork_factor_value factor * rho (lit "psi") * \prod_(s <- z_symbols n.+1) rho s].
Proof.
move=> fr; have [k1 k2 k3] := nk; have [e1 e2 e3] := fermat_expr n.+1; set e0 := EAdd _ in e1 e2 e3.
rewrite /dwork_poly dwork_symE ?size_map ?size_iota // bindE.
rewrite -/e0; set z := [seq ESym s | s <- _]; set e := EAdd _; set f := dwork_factor_value factor in fr *.
have Es : esyms e = z_symbols n.+1 ++ lit "psi" :: z_symbols n.+1.
  rewrite -[esyms e]/(esyms e0 ++ (esyms (num_expr f) ++ (lit "psi" :: (flatten (map (@esyms C) z) ++ [::]))) ++ [::]).
  rewrite e1 num_syms !cats0 cat0s; congr (_ ++ _ :: _).
  by rewrite /z -map_comp; elim: (z_symbols _) => //= s l ->.
have Ei : no_I e.
  rewrite -[no_I e]/([&& no_I e0, [&& no_I (num_expr f), true, all (@no_I C) z & true] & true]).
  by rewrite e2 /num_expr fr /= !andbT /z all_map; apply/allP.
rewrite (_ : sympy_Poly norm e (z_symbols n.+1) [:: lit "psi"] = Ok (SPoly (z_symbols n.+1) (norm e))); last first.
  rewrite /sympy_Poly cats1 rcons_uniq zs_uniq psi_zs Es; case: ifP => // /negP[]; apply/and3P; split=> //.
  apply/allP => s; rewrite mem_rcons mem_cat !inE => /orP[->|/orP[->|->]]; by rewrite ?orbT.
rewrite bindE; eexists; split=> //; last first.
  move=> rho; rewrite /value /= k1 -e3 -[sem rho e]/(\sum_(v <- [:: sem rho e0; sem rho (EMul [:: num_expr f; ESym (lit "psi"); EMul z])]) v).
  rewrite 2![in LHS]big_cons [in LHS]big_nil addr0 sem_mul 3![in LHS]big_cons [in LHS]big_nil mulr1 sem_num sem_mul /z [in LHS]big_map -[RHS]/(_ + f * rho (lit "psi") * _) -mulrA.
  by [].
split=> //; last by rewrite family_syms cats1 rcons_uniq zs_uniq psi_zs.
  apply: wf_family; first exact: psi_wf.
  exists (z_symbols n.+1), (norm e); split=> //; last exact: k3.
  move=> s /k2; rewrite Es !mem_cat !inE => /orP[->|/orP[->|->]] //; by rewrite orbT.
exact/esym/zs_var.
Qed.

Lemma sum_upd (n i : nat) rho x (f : C -> C) : (i < n)%N ->
  \sum_(s <- z_symbols n) f (upd rho (nth [::] (z_symbols n) i) x s) =
  f x + \sum_(j < n | j != i :> nat) f (rho (nth [::] (z_symbols n) j)).
Proof.
move=> li; rewrite (big_nth [::]) size_zs big_mkord (bigD1 (Ordinal li)) //= /upd eqxx; congr (_ + _).
apply: eq_big => [j|j]; first by rewrite -val_eqE.
by rewrite -val_eqE /= => ji; rewrite nth_uniq ?size_zs ?zs_uniq // (negbTE ji).
Qed.

Lemma prod_upd (n i : nat) (rho : sym -> C) x : (i < n)%N ->
  \prod_(s <- z_symbols n) upd rho (nth [::] (z_symbols n) i) x s =
  x * \prod_(j < n | j != i :> nat) rho (nth [::] (z_symbols n) j).
Proof.
move=> li; rewrite (big_nth [::]) size_zs big_mkord (bigD1 (Ordinal li)) //= /upd eqxx; congr (_ * _).
apply: eq_big => [j|j]; first by rewrite -val_eqE.
by rewrite -val_eqE /= => ji; rewrite nth_uniq ?size_zs ?zs_uniq // (negbTE ji).
Qed.

Lemma horner_family n (A B x : C) : ('X^n.+1 + A%:P + B *: 'X : {poly C}).[x] = x ^+ n.+1 + A + B * x.
Proof. by rewrite !hornerD hornerXn hornerC hornerZ hornerX. Qed.

Lemma deriv_family n (A B x : C) : ('X^n.+1 + A%:P + B *: 'X : {poly C})^`().[x] = n.+1%:R * x ^+ n + B.
Proof.
rewrite !derivE !hornerE /= hornerMn hornerXn mulr_natl.
by rewrite ?addr0 ?mulr1.
Qed.

Lemma fermat_diff_main n i (zs : seq C) : (i < n.+1)%N -> size zs = n.+1 ->
  exists P', [/\ fermat_diff norm n.+1 (merge_subscript (lit "z") (Z.of_nat i)) = Ok P', made P',
    [/\ variable_names P' = [:: lit "z"], variable_indices P' = z_indices n.+1 & parameters P' = [::]] &
    call_num P' [:: PArr zs; PArr [::]] [::] = Ok (n.+1%:R * nth 0 zs i ^+ n)].
Proof.
move=> li sz; have [P [EP mP [En Ei Ep] Eg Ev]] := fermat_main n; have [wP gP g0 uP cs] := mP.
have [g [e [Ee _ _]]] : exists g e, [/\ sympy_poly P = SPoly g e, {subset esyms e <= all_symbols P} & no_I e] by case: wP.
have vg : nth [::] (z_symbols n.+1) i \in g by move: Eg; rewrite Ee /= => ->; rewrite mem_nth ?size_zs.
have [P' [E' [En' Ei' Ep' Eg'] wP' vP']] := poly_diff_main nk Ee vg cs.
have wR := wP' wP; rewrite -(nth_zs li); exists P'; split.
- by rewrite /fermat_diff EP /= E'.
- split=> //; rewrite ?Eg' ?En' ?Ei' //; try by move: gP g0; rewrite Ee.
  by rewrite /all_symbols En' Ei' Ep'.
- by rewrite En' Ei' Ep'.
have := call_value (at_zs n.+1 zs 0) (fun=> [::]) wR; rewrite /par_input Ep' Ep (@family_inputs n.+1) ?En' ?Ei' //.
rewrite [rcons _ _]/=.
move=> ->; congr Ok.
pose rho := at_zs n.+1 zs 0; pose A := \sum_(j < n.+1 | j != i :> nat) rho (nth [::] (z_symbols n.+1) j) ^+ n.+1.
rewrite (vP' rho ('X^n.+1 + A%:P + 0 *: 'X)); last first.
  by move=> x; rewrite Ev (sum_upd rho x (fun y => y ^+ n.+1) li) horner_family mul0r addr0.
by rewrite deriv_family addr0 /rho at_nth.
Qed.

Lemma dwork_diff_main n (factor : dwork_factor C) i (zs : seq C) psi : dwork_factor_value factor \is Num.real ->
  (i < n.+1)%N -> size zs = n.+1 ->
  exists P', [/\ dwork_diff norm n.+1 factor (merge_subscript (lit "z") (Z.of_nat i)) = Ok P', made P',
    [/\ variable_names P' = [:: lit "z"], variable_indices P' = z_indices n.+1 & parameters P' = [:: lit "psi"]] &
    call_num P' [:: PArr zs; PArr [:: psi]] [::] = Ok (n.+1%:R * nth 0 zs i ^+ n +
      dwork_factor_value factor * psi * \prod_(j < n.+1 | j != i :> nat) nth 0 zs j)].
Proof.
move=> fr li sz; have [P [EP mP [En Ei Ep] Eg Ev]] := dwork_main n fr; have [wP gP g0 uP cs] := mP.
have [g [e [Ee _ _]]] : exists g e, [/\ sympy_poly P = SPoly g e, {subset esyms e <= all_symbols P} & no_I e] by case: wP.
have vg : nth [::] (z_symbols n.+1) i \in g by move: Eg; rewrite Ee /= => ->; rewrite mem_nth ?size_zs.
have [P' [E' [En' Ei' Ep' Eg'] wP' vP']] := poly_diff_main nk Ee vg cs.
have wR := wP' wP; rewrite -(nth_zs li); exists P'; split.
- by rewrite /dwork_diff EP /= E'.
- split=> //; rewrite ?Eg' ?En' ?Ei' //; try by move: gP g0; rewrite Ee.
  by rewrite /all_symbols En' Ei' Ep'.
- by rewrite En' Ei' Ep'.
have := call_value (at_zs n.+1 zs psi) (fun=> [::]) wR; rewrite /par_input Ep' Ep (@family_inputs n.+1) ?En' ?Ei' //.
rewrite [rcons _ _]/=.
rewrite [at_zs _ _ _ (lit "psi")]/at_zs eqxx => ->; congr Ok.
pose rho := at_zs n.+1 zs psi; pose A := \sum_(j < n.+1 | j != i :> nat) rho (nth [::] (z_symbols n.+1) j) ^+ n.+1.
pose B := dwork_factor_value factor * psi * \prod_(j < n.+1 | j != i :> nat) nth 0 zs j.
rewrite (vP' rho ('X^n.+1 + A%:P + B *: 'X)); last first.
  move=> x; rewrite Ev (sum_upd rho x (fun y => y ^+ n.+1) li) (prod_upd rho x li) horner_family [X in _ * X * _]/upd.
  have -> : (lit "psi" == nth [::] (z_symbols n.+1) i) = false.
    by apply/eqP => E; have := psi_zs n.+1; rewrite E mem_nth ?size_zs.
  rewrite [rho (lit "psi")]/rho /at_zs eqxx; congr (_ + _); rewrite /B -!mulrA; congr (_ * (_ * _)); rewrite mulrC; congr (_ * _).
  by apply: eq_bigr => j _; rewrite /rho at_nth.
by rewrite deriv_family /rho at_nth.
Qed.
End Fam.
