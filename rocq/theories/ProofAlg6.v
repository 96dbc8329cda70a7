(** Fermat and Dwork: the gradient, smooth points; an instance where the explicit
    conjugate coordinates go wrong. *)
From Coq Require Import ZArith Lia.
From mathcomp Require Import all_ssreflect all_algebra.
From mathcomp Require Import zify ssrZ ring.
From SsrMultinomials Require Import mpoly.
From Verif Require Import Base ModelStr ModelUtil ModelProjective ModelDiff ModelExpr ModelPoly ModelHom ModelVariety ModelBasis ModelGeom ModelAlg.
From Verif Require Import SpecPoly SpecHom SpecVariety SpecGeom SpecBasis SpecSections SpecPatch SpecAlg Herm.
From Verif Require Import Deriv Wirtinger Bridge PolyGrad ProofUtil ProofProjective ProofFS ProofDiff ProofDiff2 ProofSections ProofPatch.
From Verif Require Import ProofHom ProofBasis3 ProofPolyExpr ProofAlg ProofAlg2 ProofAlg3 ProofAlg4 ProofAlg5.
Delimit Scope Z_scope with Z.

Set Implicit Arguments.
Unset Strict Implicit.
Unset Printing Implicit Defensive.

Import GRing.Theory Num.Theory Order.POrderTheory.
Local Open Scope ring_scope.

Section Predefined.
Variable C : numClosedFieldType.
Variable m : nat.

Lemma mderivU n (i j : 'I_n) : ('X_j : {mpoly C[n]})^`M(i) = (i == j)%:R.
Proof.
rewrite mderivX mnm1E eq_sym; case: eqP => [->|_]; last by rewrite scale0r.
rewrite scale1r (_ : (U_(j) - U_(j))%MM = 0%MM) ?mpolyX0 //.
by apply/mnmP => a; rewrite mnmBE subnn mnm0E.
Qed.

Lemma mderivUX n (i j : 'I_n) k : (('X_j : {mpoly C[n]}) ^+ k.+1)^`M(i) = (i == j)%:R * k.+1%:R * 'X_j ^+ k.
Proof.
elim: k => [|k IH]; first by rewrite expr1 mderivU expr0 !mulr1.
rewrite exprS mderivM IH mderivU.
by rewrite [k.+2%:R]mulrS mulrDr mulr1 mulrDl; congr (_ + _); rewrite mulrCA -!exprS.
Qed.

Lemma mderiv_prod n (i : 'I_n) : (\prod_j ('X_j : {mpoly C[n]}))^`M(i) = \prod_(j | j != i) 'X_j.
Proof.
rewrite (bigD1 i) //= mderivM mderivU eqxx mul1r.
have -> : (\prod_(j | j != i) ('X_j : {mpoly C[n]}))^`M(i) = 0; last by rewrite mulr0 addr0.
apply: (big_ind (fun p : {mpoly C[n]} => p^`M(i) = 0)) => [|p q Hp Hq|j ij].
- by rewrite -mpolyC1 mderivC.
- by rewrite mderivM Hp Hq mul0r mulr0 addr0.
by rewrite mderivU eq_sym (negbTE ij).
Qed.

Lemma dwork_grad c (p : 'I_m.+2) (z : 'rV[C]_m.+1) i :
  pgrad (dehom p (dwork_Q m c)) z 0 i = m.+2%:R * z 0 i ^+ m.+1 + c * \prod_(j | j != i) z 0 j.
Proof.
have -> : dehom p (dwork_Q m c) = 1 + (\sum_i 'X_i ^+ m.+2 + c *: \prod_i 'X_i).
  apply: peval_inj => y; rewrite dwork_Q_dehom /peval mevalD meval1 mevalD mevalZ raddf_sum rmorph_prod /=.
  congr (_ + (_ + c * _)); first by apply: eq_bigr => j _; rewrite rmorphX /= mevalXU.
  by apply: eq_bigr => j _; rewrite mevalXU.
rewrite mxE !mderivD -{1}mpolyC1 mderivC add0r mderivZ mderiv_prod /peval mevalD mevalZ rmorph_prod /=.
congr (_ + c * _); last by apply: eq_bigr => j _; rewrite mevalXU.
have -> : (\sum_j ('X_j : {mpoly C[m.+1]}) ^+ m.+2)^`M(i) = \sum_j ('X_j ^+ m.+2)^`M(i) by rewrite raddf_sum.
rewrite raddf_sum /= (bigD1 i) //= big1 => [|j ji]; rewrite mderivUX.
  by rewrite eqxx mul1r addr0 rmorphM rmorphX rmorph_nat /= mevalXU.
by rewrite eq_sym (negbTE ji) !mul0r meval0.
Qed.

Lemma prod_others (z : 'rV[C]_m.+1) i : z 0 i * \prod_(j | j != i) z 0 j = \prod_j z 0 j.
Proof. by rewrite [RHS](bigD1 i). Qed.

(** At a zero of the equation with zero gradient the coefficient is special. *)
Lemma dwork_singular c (p : 'I_m.+2) (z : 'rV[C]_m.+1) : peval (dehom p (dwork_Q m c)) z = 0 ->
  pgrad (dehom p (dwork_Q m c)) z = 0 -> c ^+ m.+2 = (- m.+2%:R) ^+ m.+2.
Proof.
rewrite dwork_Q_dehom => H0 H; set P := \prod_j z 0 j in H0.
have n0 : m.+2%:R != 0 :> C by rewrite pnatr_eq0.
have E i : m.+2%:R * z 0 i ^+ m.+2 = - (c * P).
  have : pgrad (dehom p (dwork_Q m c)) z 0 i = 0 by rewrite H mxE.
  rewrite dwork_grad => /(congr1 (fun x => z 0 i * x)); rewrite mulr0 mulrDr mulrCA -exprS [z 0 i * (c * _)]mulrCA prod_others -/P.
  by move/eqP; rewrite addr_eq0 => /eqP.
have S : m.+2%:R * (\sum_i z 0 i ^+ m.+2) = - (c * P) *+ m.+1.
  by rewrite mulr_sumr (eq_bigr (fun=> - (c * P))) // sumr_const card_ord.
have cP : c * P = - m.+2%:R.
  have : m.+2%:R * (1 + (\sum_i z 0 i ^+ m.+2 + c * P)) = 0 by rewrite H0 mulr0.
  rewrite 2!mulrDr S mulr1 -mulr_natl -[m.+2]addn1 natrD => H'.
  by apply/eqP; rewrite -subr_eq0 opprK -H'; apply/eqP; ring.
have z1 i : z 0 i ^+ m.+2 = 1.
  by apply: (mulfI n0); rewrite E cP opprK mulr1.
have P1 : P ^+ m.+2 = 1 by rewrite /P -prodrXl big1.
by rewrite -cP exprMn P1 mulr1.
Qed.

(** ... and then there is such a point. *)
Lemma dwork_node c (p : 'I_m.+2) : c ^+ m.+2 = (- m.+2%:R) ^+ m.+2 -> exists z : 'rV[C]_m.+1,
  peval (dehom p (dwork_Q m c)) z = 0 /\ pgrad (dehom p (dwork_Q m c)) z = 0.
Proof.
move=> Ec; have n0 : m.+2%:R != 0 :> C by rewrite pnatr_eq0.
have c0 : c != 0 by apply: contra_eq_neq Ec => ->; rewrite expr0n /= eq_sym expf_neq0 // oppr_eq0.
pose w := - m.+2%:R / c; have w1 : w ^+ m.+2 = 1 by rewrite expr_div_n -Ec divff // expf_neq0.
have w0 : w != 0 by rewrite mulf_neq0 ?invr_neq0 ?oppr_eq0.
pose z : 'rV[C]_m.+1 := \row_j (if j == 0 then w else 1).
have z1 i : z 0 i ^+ m.+2 = 1 by rewrite mxE; case: eqP => // _; rewrite expr1n.
have z0 i : z 0 i != 0 by rewrite mxE; case: (i == 0); rewrite ?oner_eq0.
have P : \prod_j z 0 j = w.
  rewrite (bigD1 0) //= mxE eqxx big1 ?mulr1 // => j j0; by rewrite mxE (negbTE j0).
have cw : c * w = - m.+2%:R by rewrite mulrCA divff ?mulr1.
exists z; split.
  rewrite dwork_Q_dehom P cw (eq_bigr (fun=> 1)) // sumr_const card_ord addrA -[1 + _]mulrS subrr.
  by [].
apply/rowP => i; rewrite dwork_grad [RHS]mxE; apply: (mulfI (z0 i)).
by rewrite mulr0 mulrDr mulrCA -exprS z1 mulr1 [z 0 i * (c * _)]mulrCA prod_others P cw subrr.
Qed.
End Predefined.

Section Code.
Variable C : numClosedFieldType.
Variable D : forall n : nat, ('rV[C]_n -> C) -> 'rV[C]_n -> 'rV[C]_n.
Hypothesis hD : diff_ok D.
Variable m : nat.

Lemma dwork_defined f c : @defined_by C (dwork_variety m f) [:: c] m (dwork_Q m (dwork_factor_value f * c)).
Proof. by move=> z; rewrite /v_defining /= /dwork_call size_row_seq addn0 eqxx /= dwork_Q_eval !big_row_seq. Qed.
Lemma fermat_defined ps : @defined_by C (fermat_variety C m) ps m (dwork_Q m 0).
Proof. by move=> z; rewrite /v_defining /= /fermat_call size_row_seq addn0 eqxx /= dwork_Q_eval mul0r addr0 !big_row_seq. Qed.

Lemma dwork_hyp f (c : C) : hypersurface (dwork_variety m f) [:: c] m m.+2.
Proof. by apply: Or32; exists f, c. Qed.
Lemma fermat_hyp (ps : seq C) : hypersurface (fermat_variety C m) ps m m.+2.
Proof. exact: Or33. Qed.

(** the gradients *)
Lemma dwork_gradient f c (zs : seq C) (p : Z) : size zs = m.+1 -> exists g,
  [/\ v_grad_defining D (dwork_variety m f) zs (PArr [:: c]) (PatchInt C p) = Ok g, size g = m.+1 &
      forall i : 'I_m.+1, nth 0 g i = m.+2%:R * nth 0 zs i ^+ m.+1 +
        dwork_factor_value f * c * \prod_(j < m.+1 | j != i) nth 0 zs j].
Proof.
move=> sz; have [z ->] : exists z : 'rV[C]_m.+1, zs = row_seq z by exists (seq_row m.+1 zs); rewrite seq_rowK.
have E := grad_code hD (dwork_hyp f c) (dwork_defined f c) 0 z.
exists (row_seq (pgrad (dehom 0 (dwork_Q m (dwork_factor_value f * c))) z)); split; [exact: E|exact: size_row_seq|].
by move=> i; rewrite !nth_row_seq dwork_grad; congr (_ + _ * _); apply: eq_bigr => j _; rewrite nth_row_seq.
Qed.

Lemma fermat_gradient (zs : seq C) params (p : Z) : size zs = m.+1 ->
  v_grad_defining D (fermat_variety C m) zs params (PatchInt C p) = Ok [seq m.+2%:R * x ^+ m.+1 | x <- zs].
Proof.
move=> sz; have [z ->] : exists z : 'rV[C]_m.+1, zs = row_seq z by exists (seq_row m.+1 zs); rewrite seq_rowK.
have E := grad_code hD (fermat_hyp [::]) (fermat_defined [::]) 0 z.
transitivity (Ok (row_seq (pgrad (dehom 0 (dwork_Q m 0)) z))); first exact: E.
congr Ok; apply: (@eq_from_nth _ 0) => [|i]; first by rewrite [RHS]size_map !size_row_seq.
rewrite size_row_seq => im.
rewrite -[i]/(nat_of_ord (Ordinal im)) nth_row_seq dwork_grad mul0r addr0.
by rewrite (nth_map 0) ?size_row_seq // nth_row_seq.
Qed.

(** smooth *)
Lemma smooth_poly V ps Q e : hypersurface V ps m e -> defined_by V ps Q ->
  (forall (p : 'I_m.+2) zs, v_defining V zs (PArr ps) (PatchInt C (Z.of_nat p)) = Ok 0 -> size zs = m.+1) ->
  (smooth D V ps m <-> forall (p : 'I_m.+2) z, peval (dehom p Q) z = 0 -> pgrad (dehom p Q) z <> 0).
Proof.
move=> hV hQ hs; split=> H p.
  move=> z hz; have [|g [i [E gi]]] := H p (row_seq z); first by rewrite (V_patch hV hQ) hz.
  move: E; rewrite (grad_code hD hV hQ) => -[Eg] G0; move: gi; rewrite -Eg G0.
  case: (ltnP i m.+1) => [im|mi]; last by rewrite nth_default ?size_row_seq ?eqxx.
  by rewrite -[i]/(nat_of_ord (Ordinal im)) nth_row_seq mxE eqxx.
move=> zs hz; have sz := hs p zs hz; move: hz; rewrite -(seq_rowK sz); set z := seq_row _ _.
rewrite (V_patch hV hQ) => -[/H/eqP G0]; exists (row_seq (pgrad (dehom p Q) z)).
have /rV0Pn[i gi] := G0; exists i; split; first exact: (grad_code hD hV hQ).
by rewrite nth_row_seq.
Qed.

Lemma dwork_smooth f c : smooth D (dwork_variety m f) [:: c] m <->
  (dwork_factor_value f * c) ^+ m.+2 <> (- m.+2%:R) ^+ m.+2.
Proof.
set c' := _ * c; rewrite (smooth_poly (dwork_hyp f c) (dwork_defined f c)); last first.
  by move=> p zs; rewrite /v_defining /= /dwork_call addn1; case: eqP => //= -[].
split=> H; first by move=> Ec; have [z [h0 h1]] := dwork_node 0 Ec; exact: (H 0 z).
by move=> p z h0 h1; apply: H; exact: dwork_singular h0 h1.
Qed.

Lemma fermat_smooth (ps : seq C) : smooth D (fermat_variety C m) ps m.
Proof.
rewrite (smooth_poly (fermat_hyp ps) (fermat_defined ps)); last first.
  by move=> p zs; rewrite /v_defining /= /fermat_call addn1; case: eqP => //= -[].
move=> p z h0 h1; have := dwork_singular h0 h1; rewrite expr0n /= => /esym/eqP.
by rewrite expf_eq0 /= oppr_eq0 pnatr_eq0.
Qed.

(** every point *)
Lemma smooth_every V ps Q e (x : 'rV[C]_m.+2) : hypersurface V ps m e -> defined_by V ps Q -> smooth D V ps m ->
  x != 0 -> peval Q x = 0 -> forall i, x 0 i != 0 -> exists d a g, smooth_at D V ps x i d a g.
Proof.
move=> hV hQ hs x0 Qx i xi; have HQ := V_homog hV hQ.
have Qi : peval (dehom i Q) (affr i x) = 0 by rewrite (dehom_aff HQ xi) Qx mulr0.
have [|g [d [Eg gd]]] := hs i (row_seq (affr i x)); first by rewrite (V_patch hV hQ) Qi.
have sg : size g = m.+1 by move: Eg; rewrite (grad_code hD hV hQ) => -[<-]; rewrite size_row_seq.
have dm : (d < m.+1)%N by rewrite ltnNge; apply: contra gd => md; rewrite nth_default ?sg.
exists (Ordinal dm), (row_seq (affr i x)), g; split=> //; first by rewrite hQ Qx.
exact: hom_to_affine_seq.
Qed.
End Code.

(** The explicit conjugate coordinates and a factor which is not real *)
Section Refuted.
Variable C : numClosedFieldType.
Variable D : forall n : nat, ('rV[C]_n -> C) -> 'rV[C]_n -> 'rV[C]_n.
Hypothesis hD : diff_ok D.
Let V := dwork_variety 1 (FNum ('i : C)).
Let zs : seq C := [:: -1; 0].

Lemma dwork_i_grad : v_grad_defining D V zs (PArr [:: 1]) (PatchInt C 0%Z) = Ok [:: 3%:R; - 'i].
Proof.
have [//|g [-> sg E]] := @dwork_gradient C D hD 1 (FNum 'i) 1 zs 0%Z; congr Ok.
case: g sg E => [//|a [//|b [|//]]] _ E; congr [:: _; _].
  have := E 0; rewrite /= => ->; rewrite (big_pred1 1) => [|i]; last by case: i => -[|[|//]].
  by rewrite /= mulr0 addr0 expr2; ring.
have := E 1; rewrite /= => ->; rewrite (big_pred1 0) => [|i]; last by case: i => -[|[|//]].
by rewrite /= expr0n /= mulr0 add0r mulr1 mulrN1.
Qed.

Lemma dwork_conj_refuted_lemma : exists F F' : 'M[C]_1,
  [/\ v_defining V zs (PArr [:: 1]) (PatchInt C 0%Z) = Ok 0,
      v_induced_metric D 1 V 1%:M zs (PArr [:: 1]) (PatchInt C 0%Z) None (Some 0%Z) = Ok (F, None),
      v_induced_metric D 1 V 1%:M zs (PArr [:: 1]) (PatchInt C 0%Z) (Some [seq x^* | x <- zs]) (Some 0%Z) = Ok (F', None),
      F 0 0 = 10%:R / 9%:R & F' 0 0 = 8%:R / 9%:R].
Proof.
pose G : 'rV[C]_2 := \row_(i < 2) nth 0 [:: 3%:R; - 'i] i.
have EG : row_seq G = [:: 3%:R; - 'i] by rewrite row2 !mxE.
have Ec : [seq x^* | x <- zs] = zs by rewrite /zs /= rmorphN rmorph1 rmorph0.
have ii : 'i * 'i = -1 :> C by rewrite -expr2 sqrCi.
have I (i j : 'I_2) : (1%:M : 'M[C]_2) i j = (i == j)%:R by rewrite mxE.
have n3 : 3%:R != 0 :> C by rewrite pnatr_eq0.
have J0 : Jm G 0 0 0 = 'i / 3%:R by rewrite Jm_d !mxE /= opprK.
have J1 : Jm G 0 0 (lift 0 0) = 1 by rewrite Jm_lift eqxx.
have [I1 _] := induced_lemma 1%:M G 0.
exists (Jm G 0 *m 1%:M *m adjm (Jm G 0)),
  (\matrix_(i, k) \sum_j \sum_l Jm G 0 i j * Jm G 0 k l * (1%:M : 'M[C]_2) j l); split.
- rewrite /v_defining /= /dwork_call /= !big_cons !big_nil !exprS !expr0; congr Ok; ring.
- rewrite /v_induced_metric dwork_i_grad -EG /= -/(Z.of_nat (0 : 'I_2)) I1.
  by [].
- rewrite Ec /v_induced_metric dwork_i_grad; cbn [rbind choose_dependent conj_params map].
  rewrite rmorph1 dwork_i_grad -EG /= /induced_metric.
  by rewrite -[0%Z]/(Z.of_nat (0 : 'I_2)) jacobian_embed_rows /= mx_rows_row.
- rewrite mulmx1 mxE !big_ord_recl big_ord0 addr0 !adjmE J0 J1 !cjE conjCi.
  rewrite [X in X + _](_ : _ = - ('i * 'i) / 9%:R); first by rewrite ii; field.
  by field.
rewrite mxE !big_ord_recl !big_ord0 !addr0 !I /= !mulr0 !mulr1 addr0 add0r J0 J1.
rewrite [X in X + _](_ : _ = 'i * 'i / 9%:R); first by rewrite ii; field.
by field.
Qed.
End Refuted.

(** Constructors and dimensions *)
Section Init.
Variable C : numClosedFieldType.
Variable norm : expr C -> expr C.

Lemma dims_lemma (V : variety C) ps m e : hypersurface V ps m e ->
  [/\ v_coordinates V = Ok m.+2, v_dim_projective V = Ok m.+1, v_dim_variety V = Ok m & v_num_defining V = 1%N].
Proof. by move=> /V_dim E; rewrite /v_dim_variety /v_dim_projective E. Qed.

Lemma fs_step_keep b vni st v st' : fs_step true true b vni st v = Ok st' ->
  st_names st' = st_names st /\ st_idx st' = st_idx st.
Proof.
rewrite /fs_step; case: ifP => _ /=; first by case=> <-.
case: split_subscript => //= -[name i]; case: ifP => _; first by case: ifP => // _ [<-].
case: dict_get => // k; case: item => //= ik; case: i => [i|]; last by case: ik => // -[<-].
by case: ik => // l; case: ifP => // _ [<-].
Qed.

Lemma fs_loop_keep b vni st syms st' : fs_loop true true b vni st syms = Ok st' ->
  st_names st' = st_names st /\ st_idx st' = st_idx st.
Proof.
elim: syms st => [|v syms IH] st /=; first by case=> <-.
case E: fs_step => [st1|] //= /IH[-> ->]; exact: fs_step_keep E.
Qed.

Lemma from_sympy_dims (e : expr C) syms x n params V : variety_from_sympy norm e syms x n params = Ok V ->
  v_coordinates V = Ok n.
Proof.
rewrite /variety_from_sympy /from_sympy /=; case E: fs_loop => [st|] //=; have [En Ei] := fs_loop_keep E.
case: check_signature => //= _; case: sympy_Poly => //= sp; rewrite /hom_init /=.
case: check_signature => //= _; case: ifP => // _ /=; rewrite /variety_init /=.
by rewrite En /= => -[<-] /=; rewrite Ei /dim_complex /= size_map size_iota.
Qed.

Lemma fs_step_par b vni st u st' : fs_step true true b vni st u = Ok st' ->
  st_par st' = st_par st \/ st_par st' = rcons (st_par st) u.
Proof.
rewrite /fs_step; case: ifP => _ /=; first by case=> <-; left.
case: split_subscript => //= -[name i]; case: ifP => _; first by case: ifP => // _ [<-]; right.
case: dict_get => // k; case: item => //= ik; case: i => [i|]; last by case: ik => // -[<-]; left.
by case: ik => // l; case: ifP => // _ [<-]; left.
Qed.

Lemma fs_loop_missing b x n v i st syms : v \in syms -> split_subscript v = Ok (x, Some i) -> (Z.of_nat n <= i)%Z ->
  st_names st = [:: x] -> st_idx st = dim_indices [:: n] -> v \notin st_par st ->
  is_ok (fs_loop true true b [:: (x, 0%N)] st syms) = false.
Proof.
move=> vs Ev ni; elim: syms vs st => [//|u syms IH] vs st En Ei vp /=.
case: (eqVneq u v) => [->|uv].
  rewrite /fs_step (negbTE vp) Ev; cbn [rbind]; rewrite En mem_seq1 eqxx andbF; cbn [dict_get]; rewrite eqxx Ei /=.
  suff -> : (i \in [seq Z.of_nat j | j <- iota 0 n]) = false by [].
  by apply/negP => /mapP[j]; rewrite mem_iota => /andP[_ jn] E; lia.
have vs' : v \in syms by move: vs; rewrite inE eq_sym (negbTE uv).
case E: fs_step => [st1|] //=; have [En1 Ei1] := fs_step_keep E; have Ep := fs_step_par E.
apply: IH => //; [by rewrite En1|by rewrite Ei1|].
by case: Ep => ->; rewrite ?mem_rcons ?inE ?negb_or 1?eq_sym ?uv.
Qed.

Lemma from_sympy_missing (e : expr C) syms x n params v i : v \in syms -> split_subscript v = Ok (x, Some i) ->
  v \notin (if params is Some p then p else [::]) -> (Z.of_nat n <= i)%Z ->
  is_ok (variety_from_sympy norm e syms x n params) = false.
Proof.
move=> vs Ev vp ni; rewrite /variety_from_sympy /from_sympy /=.
set st := FsState _ _ _ _ _.
have := @fs_loop_missing (isSome params) x n v i st syms vs Ev ni erefl erefl vp.
by case: fs_loop.
Qed.

Lemma init_names (H : hompoly C) : size (variable_names (hp H)) <> 1%N -> variety_init norm H = Err AssertionError.
Proof. by move=> /eqP/negbTE E; rewrite /variety_init E. Qed.
End Init.

(** The metric and eta at every point of a smooth hypersurface *)
Lemma metric_everywhere : forall (C : numClosedFieldType)
    (D : forall n : nat, ('rV[C]_n -> C) -> 'rV[C]_n -> 'rV[C]_n), diff_ok D ->
  forall (lg ex : C -> C) (pi : C) (m e : nat) (V : variety C) (ps : seq C)
    (Q : {mpoly C[m.+2]}), hypersurface V ps m e -> defined_by V ps Q -> smooth D V ps m ->
  forall (k : nat) (B : basis), basis_for k Q B -> (0 < k)%N -> 0 < pi ->
  forall M : 'M[C]_(size (power_matrix B)), hermitian M -> posdef M ->
  forall x : 'rV[C]_m.+2, x != 0 -> v_defining V (row_seq x) (PArr ps) (PatchNone C) = Ok 0 ->
  exists G p d E,
  [/\ alg_metric D lg ex pi m V (HMat M) (row_seq x) (PArr ps) None None None = Ok (G, p, d), posdef G,
      alg_eta D lg ex pi m V (HMat M) (row_seq x) (PArr ps) None None None = Ok E &
      e = m.+2 -> forall (i : 'I_m.+2) (d : 'I_m.+1) (a g : seq C), smooth_at D V ps x i d a g ->
      alg_eta D lg ex pi m V (HMat M) a (PArr ps) (Some (Z.of_nat i)) None (Some (Z.of_nat d)) = Ok E].
Proof.
move=> C D hD lg ex pi m e V ps Q hV hQ hs k B hB k0 pi0 M HM pd x x0 hx.
have Qx : peval Q x = 0 by move: hx; rewrite hQ => -[].
have /rV0Pn[i xi] := x0.
have [d [a [g sm]]] := smooth_every hD hV hQ hs x0 Qx xi.
have [i0 [d0 [G [G0 [A [_ E1 _ pG _]]]]]] := metric_wrap hD lg ex hV hQ hB k0 pi0 HM pd sm.
have [i1 [E [E0 [_ E2 _ _ _]]]] := eta_wrap hD lg ex hV hQ hB k0 pi0 HM pd sm.
exists G0, (Z.of_nat i0), (Z.of_nat d0), E0; split=> // ee j d' a' g' sm'.
have [i2 [E' [E0' [E3 E4 _ /(_ ee) EE _]]]] := eta_wrap hD lg ex hV hQ hB k0 pi0 HM pd sm'.
by rewrite E3 EE; move: E4; rewrite E2 => -[->].
Qed.

Lemma quintic_smooth (C : numClosedFieldType) (D : forall n : nat, ('rV[C]_n -> C) -> 'rV[C]_n -> 'rV[C]_n) (psi : C) :
  diff_ok D -> (smooth D (dwork_variety 3 (FBool C true)) [:: psi] 3 <-> psi ^+ 5 <> 1).
Proof.
move=> hD; rewrite (dwork_smooth hD 3 (FBool C true) psi) /= exprMn.
have n5 : (- 5%:R) ^+ 5 != 0 :> C by rewrite expf_neq0 // oppr_eq0 pnatr_eq0.
split=> H E; apply: H; first by rewrite E mulr1.
by apply: (mulfI n5); rewrite E mulr1.
Qed.

Lemma poly_wrap (C : numClosedFieldType) (V : variety C) (ps : seq C) (m e : nat) : hypersurface V ps m e ->
  exists Q : {mpoly C[m.+2]},
  [/\ forall z, v_defining V (row_seq z) (PArr ps) (PatchNone C) = Ok (peval Q z),
      forall (p : 'I_m.+2) z, v_defining V (row_seq z) (PArr ps) (PatchInt C (Z.of_nat p)) = Ok (peval (dehom p Q) z),
      forall Q', (forall z, v_defining V (row_seq z) (PArr ps) (PatchNone C) = Ok (peval Q' z)) -> Q' = Q &
      Q \is e.-homog].
Proof.
move=> hV; have [Q [hQ HQ hp]] := V_poly hV; exists Q; split=> // Q' hQ'.
exact: (V_unique hQ hQ').
Qed.
