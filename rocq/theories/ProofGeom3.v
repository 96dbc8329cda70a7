(** Pull back to coordinates of the variety; statements of the theorems. *)
From Coq Require Import ZArith.
From mathcomp Require Import all_ssreflect all_algebra.
From mathcomp Require Import ring.
From Verif Require Import Base ModelUtil ModelDiff ModelGeom Deriv Bridge Wirtinger WMatrix SpecGeom Herm.
From Verif Require Import ProofDiff ProofDiff2 ProofGeom ProofGeom2.
Delimit Scope Z_scope with Z.

Set Implicit Arguments.
Unset Strict Implicit.
Unset Printing Implicit Defensive.

Import GRing.Theory Num.Theory Order.POrderTheory.
Local Open Scope ring_scope.

#[local] Hint Extern 0 (is_true (0 < _)) => solve [apply: ltr01 | apply: ltr0Sn] : core.

Section Chain.
Variable C : numClosedFieldType.

Lemma jac_big_O m n (phi : 'rV[C]_m -> 'rV[C]_n) x J : is_jac phi x J ->
  exists K d, [/\ 0 < K, 0 < d & forall v, norm1 v < d -> norm1 (phi (x + v) - phi x) <= K * norm1 v].
Proof.
move=> HJ.
have Hi (l : seq 'I_n) : exists K d, [/\ 0 < K, 0 < d &
   forall v, norm1 v < d -> \sum_(i <- l) `|(phi (x + v) - phi x) 0 i| <= K * norm1 v].
  elim: l => [|i l [K [d [K0 d0 Hl]]]].
    by exists 1, 1; split=> // v _; rewrite big_nil mul1r norm1_ge0.
  have [K1 [d1 [K10 d10 H1]]] := is_grad_big_O (HJ i).
  have [d' [d'0 dd1 dd2]] := pos_min d0 d10.
  exists (K1 + K), d'; split=> //; first by rewrite addr_gt0.
  move=> v Hv; rewrite big_cons mulrDl; apply: ler_add.
    by have := H1 v (lt_le_trans Hv dd2); rewrite !mxE.
  exact: Hl (lt_le_trans Hv dd1).
exact: Hi.
Qed.

Lemma jac_close m n (phi : 'rV[C]_m -> 'rV[C]_n) x J (e : C) : is_jac phi x J -> 0 < e ->
  exists2 d, 0 < d & forall y, norm1 (y - x) < d -> norm1 (phi y - phi x) < e.
Proof.
move=> /jac_big_O[K [d1 [K0 d10 H1]]] e0.
have [d [d0 dd1 dd2]] := pos_min d10 (divr_gt0 e0 K0).
exists d => // y Hy; have {1}-> : y = x + (y - x) by rewrite addrC subrK.
apply: (le_lt_trans (H1 _ (lt_le_trans Hy dd1))); rewrite mulrC -ltr_pdivl_mulr //.
exact: (lt_le_trans Hy).
Qed.

(** Chain rule for a holomorphic inner map. *)
Lemma wgrad_comp m n (phi : 'rV[C]_m -> 'rV[C]_n) x J f g c :
  is_jac phi x J -> is_wgrad f (phi x) g c ->
  is_wgrad (fun y => f (phi y)) x (fun a => \sum_i J a i * g i) (fun a => \sum_i (J a i)^* * c i).
Proof.
move=> HJ H.
pose D v : 'rV[C]_n := phi (x + v) - phi x.
have H1 : little_o (fun v => f (phi (x + v)) - f (phi x) - wlin g c (D v)).
  have [K [d [K0 d0 Hd]]] := jac_big_O HJ; move=> e e0.
  have [r r0 Hr] := H _ (divr_gt0 e0 K0).
  have [d' [d'0 dd1 dd2]] := pos_min d0 (divr_gt0 r0 K0).
  exists d' => // v Hv.
  have B := Hd v (lt_le_trans Hv dd1).
  have := Hr (D v); rewrite {1}/D [phi x + _]addrC subrK => Hr'.
  apply: (le_trans (Hr' _)).
    apply: (le_lt_trans B); rewrite mulrC -ltr_pdivl_mulr //.
    exact: (lt_le_trans Hv).
  have -> : e * norm1 v = e / K * (K * norm1 v) by field; rewrite gt_eqF.
  by rewrite ler_pmul2l ?divr_gt0.
have Hp i : is_wgrad (fun y => phi y 0 i) x (fun a => J a i) (fun _ => 0).
  by have /wgrad_hol Hi := HJ i; apply: wgrad_eq Hi => a //; rewrite mxE.
have Hl : is_wgrad (fun y => \sum_i g i * phi y 0 i + \sum_i c i * (phi y 0 i)^*) x
    (fun a => \sum_i J a i * g i) (fun a => \sum_i (J a i)^* * c i).
  have A := wgrad_add (wgrad_sum (index_enum _) (fun i (_ : true) => wgrad_scale (g i) (Hp i)))
    (wgrad_sum (index_enum _) (fun i (_ : true) => wgrad_scale (c i) (wgrad_conj (Hp i)))).
  apply: wgrad_eq A => a /=.
    rewrite [X in _ + X]big1 ?addr0; last by move=> i _; rewrite conjC0 mulr0.
    by apply: eq_bigr => i _; rewrite mulrC.
  rewrite [X in X + _]big1 ?add0r; last by move=> i _; rewrite mulr0.
  by apply: eq_bigr => i _; rewrite mulrC.
have [_ H2] := (wgrad_diff _ _ _ _).1 Hl.
apply/wgrad_diff; split; first exact: big_O_wlin.
apply: (little_o_ext _ (little_o_add H1 H2)) => v.
have -> : wlin g c (D v) = (\sum_i g i * phi (x + v) 0 i + \sum_i c i * (phi (x + v) 0 i)^*)
                         - (\sum_i g i * phi x 0 i + \sum_i c i * (phi x 0 i)^*).
  rewrite /wlin /D opprD addrACA -!sumrB; congr (_ + _); apply: eq_bigr => i _; rewrite !mxE.
    by rewrite mulrBr.
  by rewrite rmorphB mulrBr.
ring.
Qed.

(** second derivative along a holomorphic map *)
Lemma mixed_comp m n (phi : 'rV[C]_m -> 'rV[C]_n) (J : 'rV[C]_m -> 'M[C]_(m, n)) x f H (r : C) : 0 < r ->
  (forall y, norm1 (y - x) < r -> is_jac phi y (J y)) ->
  (forall a i, exists t, is_wgrad (fun y => J y a i) x t (fun _ => 0)) ->
  is_mixed f (phi x) H ->
  is_mixed (fun y => f (phi y)) x (fun a b => \sum_i \sum_j J x a i * H i j * (J x b j)^*).
Proof.
move=> r0 HJ HJ2 [df [dfc [s [s0 [Hs Hd]]]]].
have Jx : is_jac phi x (J x) by apply: HJ; rewrite subrr norm10.
have [e e0 He] := jac_close Jx s0.
have [q [q0 q1 q2]] := pos_min r0 e0.
exists (fun y a => \sum_i J y a i * df (phi y) i), (fun y a => \sum_i (J y a i)^* * dfc (phi y) i), q.
split=> //; split=> [y Hy|a].
  apply: wgrad_comp; first exact: HJ (lt_le_trans Hy q1).
  exact: Hs (He y (lt_le_trans Hy q2)).
have [t Ht] := fin_all_exists (fun i => HJ2 a i); have [u Hu] := fin_all_exists Hd.
have K := wgrad_sum (index_enum _) (fun i (_ : true) => wgrad_mul (Ht i) (wgrad_comp Jx (Hu i))).
eexists; apply: wgrad_eq K => [//|b] /=; apply: eq_bigr => i _.
rewrite mulr0 addr0 mulr_sumr; apply: eq_bigr => j _; ring.
Qed.
End Chain.

Section Statements.
Variables (C : numClosedFieldType) (N m : nat) (log : C -> C) (pi : C).
Notation n := m.+1.
Implicit Types (o : 'rV[C]_n -> objects C N m) (z : 'rV[C]_n) (M : 'M[C]_N).

Lemma contract_at o z M k : sections_contract o z M k ->
  [/\ forall y, o_h (o y) = HMat M, forall y, o_degree (o y) = k &
      exists2 r : C, 0 < r & forall y, norm1 (y - z) < r -> at_point o y].
Proof. by move=> [h1 h2]; split=> // y; case: (h1 y). Qed.

Lemma emb_at o z d : embedding_contract o z d ->
  (forall y, o_dep (o y) = Some (Z.of_nat d)) /\
  exists2 r : C, 0 < r & forall y, norm1 (y - z) < r -> emb_point o y.
Proof. by move=> [h1 [r r0 H]]; split=> //; exists r => // y /H[_ _ ? ?]. Qed.

Lemma kahler_thm o z M k : hermitian M -> sections_contract o z M k -> (0 < k)%N -> 0 < pi ->
  ob_psi (o z) != 0 ->
  (log_near log (ob_psi (o z)) ->
   is_mixed (fun y => ob_kahler log pi (o y)) z (ob_g_proj pi (o z))) /\
  (forall i j, (ob_g_proj pi (o z) i j)^* = ob_g_proj pi (o z) j i).
Proof.
move=> HM /contract_at[Hh Hk Hc] _ pi0 psi0; split=> [Hl|i j].
  exact: (hessian_lemma pi HM Hh Hk Hc psi0 Hl).
exact: (g_herm z HM Hh).
Qed.

Lemma ambient_thm o z M k : hermitian M -> sections_contract o z M k -> (0 < k)%N -> 0 < pi ->
  ob_psi (o z) != 0 ->
  exists gh ga gha, [/\ ob_g_proj_h pi (o z) = Ok gh, ob_g_proj_a pi (o z) = Ok ga,
    ob_g_proj_ha pi (o z) = Ok gha,
    forall i j, is_wgrad (fun y => ob_g_proj pi (o y) i j) z (fun a => gh a i j) (fun a => ga a i j) &
    forall i j, is_mixed (fun y => ob_g_proj pi (o y) i j) z (fun a b => gha a b i j)].
Proof.
move=> HM /contract_at[Hh Hk Hc] _ pi0 psi0.
exact: (ambient_lemma HM Hh Hk Hc psi0 pi0).
Qed.

Lemma local_thm o z M k d : hermitian M -> sections_contract o z M k -> embedding_contract o z d ->
  (0 < k)%N -> 0 < pi -> ob_psi (o z) != 0 ->
  exists J g gh ga gha, [/\ ob_jac (o z) = Ok J /\ ob_g_loc pi (o z) = Ok g,
    ob_g_loc_h pi (o z) = Ok gh, ob_g_loc_a pi (o z) = Ok ga, ob_g_loc_ha pi (o z) = Ok gha &
    forall q s, [/\ g q s = \sum_i \sum_j J q i * ob_g_proj pi (o z) i j * (J s j)^*,
      is_wgrad (fun y => res_mx (ob_g_loc pi (o y)) q s) z (fun a => gh a q s) (fun a => ga a q s) &
      is_mixed (fun y => res_mx (ob_g_loc pi (o y)) q s) z (fun a b => gha a b q s)]].
Proof.
move=> HM /contract_at[Hh Hk Hc] /emb_at[Hd He] _ pi0 psi0.
have [g [gh [ga [gha [e1 e2 e3 e4 H]]]]] := local_lemma HM Hh Hk Hd pi0 Hc He psi0.
exists (J o d z), g, gh, ga, gha; split=> //; first by split=> //; exact: (jacE Hd).
by move=> q s; have [h1 [h2 h3]] := H q s.
Qed.

Lemma ricci_thm o z M k d g : hermitian M -> sections_contract o z M k -> embedding_contract o z d ->
  (0 < k)%N -> 0 < pi -> ob_psi (o z) != 0 ->
  ob_g_loc pi (o z) = Ok g -> \det g != 0 -> log_near log (\det g) ->
  exists J R, [/\ ob_jac (o z) = Ok J, ob_ricci_proj pi (o z) = Ok R,
    is_mixed (fun y => - log (\det (res_mx (ob_g_loc pi (o y))))) z R,
    ob_ricci_loc pi (o z) = Ok (J *m R *m adjm J) &
    ob_ricci_scalar pi (o z) = Ok (\tr (J *m R *m adjm J *m invmx g))].
Proof.
move=> HM /contract_at[Hh Hk Hc] /emb_at[Hd He] _ pi0 psi0.
rewrite (g_locE pi Hd) => -[<-] nz Hl.
have [R ER HR] := ricci_lemma HM Hh Hk Hd pi0 Hc He psi0 nz Hl.
have ELoc : ricci_loc R (J o d z) (jac_c (J o d z)) = J o d z *m R *m adjm (J o d z).
  apply/matrixP => q s; rewrite /ricci_loc mxE exchange_big [RHS]mxE; apply: eq_bigr => j _ /=.
  by rewrite [(_ *m R) _ _]mxE mulr_suml; apply: eq_bigr => i _; rewrite !mxE.
exists (J o d z), R; split=> //; first exact: (jacE Hd).
- have [df [dfc [r [r0 [h1 h2]]]]] := HR; exists df, dfc, r; split=> //; split=> // y Hy.
  by apply: wgrad_ext (h1 y Hy) => x; rewrite (g_locE pi Hd).
- by rewrite /ob_ricci_loc ER (jacE Hd) /= ELoc.
rewrite /ob_ricci_scalar /ob_ricci_loc ER (jacE Hd) (g_locE pi Hd) /= ELoc; congr Ok.
rewrite /ricci_scalar /mxtrace; apply: eq_bigr => i _; rewrite mxE.
by apply: eq_bigr => j _.
Qed.
End Statements.

Section Pullback.
Variables (C : numClosedFieldType) (N m : nat) (log : C -> C) (pi : C).
Notation n := m.+1.
Variables (o : 'rV[C]_n -> objects C N m) (M : 'M[C]_N) (k : nat) (d : 'I_n).
Variables (Q : 'rV[C]_n -> C) (phi : 'rV[C]_m -> 'rV[C]_n) (x : 'rV[C]_m).

(** [phi] parametrises the zero set of [Q] by the coordinates other than [d]. *)
Hypothesis HQ : local_parametrisation Q (fun y => o_grad (o y)) d phi x.
Hypothesis HE : embedding_contract o (phi x) d.

Lemma phi_jac : exists2 r : C, 0 < r & forall y, norm1 (y - x) < r -> is_jac phi y (J o d (phi y)).
Proof.
have [r r0 [HQr ph Hp]] := HQ; have [Hd [s s0 Hs]] := HE.
have [Qx [Jx HJx]] : Q (phi x) = 0 /\ exists Jx, is_jac phi x Jx by apply: Hp; rewrite subrr norm10.
have [t0 [t00 t01 t02]] := pos_min s0 r0.
have [e e0 He] := jac_close HJx t00.
have h2 : 0 < r / 2%:R by rewrite divr_gt0.
have [q [q0 q1 q2]] := pos_min h2 e0; exists q => // y Hy.
have yr : norm1 (y - x) < r / 2%:R by apply: (lt_le_trans Hy).
have lr : r / 2%:R < r by rewrite ltr_pdivr_mulr // ltr_pmulr // ltr1n.
have [Qy [Jy HJy]] := Hp y (lt_trans yr lr).
have Hphi := He y (lt_le_trans Hy q2).
have [nz _ _ _] := Hs _ (lt_le_trans Hphi t01).
have := implicit_lemma (r := r / 2%:R) (HQr _ (lt_le_trans Hphi t02)) nz h2 _ ph HJy.
rewrite jacobian_embed_rows => E.
have -> : J o d (phi y) = Jy; last by [].
rewrite /J -lock -[RHS]mx_rows_row -[LHS]mx_rows_row; congr mx_rows.
suff [] : Ok [seq row_seq (row r0 (Jm (o_grad (o (phi y))) d)) | r0 <- enum 'I_m] =
       Ok [seq row_seq (row a Jy) | a <- enum 'I_m] by [].
apply: E => v Hv; apply: (Hp _ _).1.
have -> : y + v - x = (y - x) + v by rewrite addrAC.
have -> : r = r / 2%:R + r / 2%:R by field.
apply: (le_lt_trans _ (ltr_add yr Hv)).
rewrite /norm1 -big_split; apply: ler_sum => i _ /=; rewrite mxE; exact: ler_norm_add.
Qed.

Lemma phi_jac2 a i : exists t, is_wgrad (fun y => J o d (phi y) a i) x t (fun _ => 0).
Proof.
have [r r0 Hr] := phi_jac; have [Hd [s s0 Hs]] := HE.
have Jx : is_jac phi x (J o d (phi x)) by apply: Hr; rewrite subrr norm10.
have ez : emb_point o (phi x).
  by have [] := Hs (phi x); rewrite ?subrr ?norm10.
eexists; apply: wgrad_eq (wgrad_comp Jx (d_J Hd ez a i)) => [//|b].
by rewrite big1 // => j _; rewrite mulr0.
Qed.

Hypothesis HM : hermitian M.
Hypothesis Hc : sections_contract o (phi x) M k.
Hypothesis pi0 : 0 < pi.
Hypothesis psi0 : ob_psi (o (phi x)) != 0.

Lemma metric_pullback : log_near log (ob_psi (o (phi x))) ->
  exists2 g, ob_g_loc pi (o (phi x)) = Ok g & is_mixed (fun y => ob_kahler log pi (o (phi y))) x g.
Proof.
have [Hh Hk Hc'] := contract_at Hc; have [Hd _] := HE.
move=> Hl; have H := hessian_lemma pi HM Hh Hk Hc' psi0 Hl.
exists (gl pi o d (phi x)); first exact: (g_locE pi Hd).
have [r r0 Hr] := phi_jac.
have [df [dfc [s [s0 [h1 h2]]]]] := mixed_comp r0 Hr phi_jac2 H.
exists df, dfc, s; split=> //; split=> // a; have [t Ht] := h2 a; exists t.
by apply: wgrad_eq Ht => // b; rewrite mxE.
Qed.

Lemma ricci_pullback g : ob_g_loc pi (o (phi x)) = Ok g -> \det g != 0 -> log_near log (\det g) ->
  exists2 R, ob_ricci_loc pi (o (phi x)) = Ok R &
    is_mixed (fun y => - log (\det (res_mx (ob_g_loc pi (o (phi y)))))) x R.
Proof.
have [Hh Hk Hc'] := contract_at Hc; have [Hd He] := emb_at HE.
rewrite (g_locE pi Hd) => -[<-] nz Hl.
have [R ER HR] := ricci_lemma HM Hh Hk Hd pi0 Hc' He psi0 nz Hl.
rewrite /ob_ricci_loc ER (jacE Hd) /=; eexists; first by [].
have [r r0 Hr] := phi_jac.
have [df [dfc [s [s0 [h1 h2]]]]] := mixed_comp r0 Hr phi_jac2 HR.
exists df, dfc, s; split=> //; split=> [y Hy|a].
  by apply: wgrad_ext (h1 y Hy) => w; rewrite (g_locE pi Hd).
have [t Ht] := h2 a; exists t; apply: wgrad_eq Ht => // b; rewrite mxE.
by apply: eq_bigr => i _; apply: eq_bigr => j _; rewrite mxE.
Qed.
End Pullback.
