(** More lemmas about ModelML.v: loss and network. *)
From Coq Require Import ZArith Lia.
From mathcomp Require Import all_ssreflect all_algebra.
From mathcomp Require Import zify ssrZ ring.
From Verif Require Import Base ModelUtil ModelMC ModelML Herm ProofML ProofML2.
Delimit Scope Z_scope with Z.

Set Implicit Arguments.
Unset Strict Implicit.
Unset Printing Implicit Defensive.

Import GRing.Theory Num.Theory Order.POrderTheory Order.TotalTheory.
Local Open Scope ring_scope.

Lemma mem_zip (S T : eqType) (s : seq S) (t : seq T) a b :
  (a, b) \in zip s t -> (a \in s) && (b \in t).
Proof.
elim: s t => [|x s IH] [|y t] //=; rewrite !inE => /orP[/eqP[-> ->]|/IH/andP[-> ->]].
  by rewrite !eqxx.
by rewrite !orbT.
Qed.

Section Loss.
Variables (R : realFieldType) (log : R -> R).
Hypothesis log1 : log 1 = 0.
Hypothesis log_gt : forall x, 1 < x -> 0 < log x.
Implicit Types e w s : seq R.

Lemma mean_ge0 s : all (fun x => 0 <= x) s -> 0 <= mean s.
Proof.
move=> /allP H; rewrite /mean divr_ge0 ?ler0n // big_seq; apply: sumr_ge0 => x /H; exact.
Qed.

Lemma mean_eq0 s : s != [::] -> all (fun x => 0 <= x) s -> mean s = 0 ->
  forall x, x \in s -> x = 0.
Proof.
move=> ne al /eqP; rewrite /mean mulf_eq0 invr_eq0 pnatr_eq0 size_eq0 (negbTE ne) orbF => E.
move=> x xs.
have : all (fun y => y == 0) s.
  elim: s al E {ne xs} => //= y s IH /andP[y0 al]; rewrite big_cons paddr_eq0 //; last first.
    by move/allP: al => al; rewrite big_seq; apply: sumr_ge0 => z /al.
  by case/andP=> -> /(IH al) ->.
by move/allP/(_ x xs)/eqP.
Qed.

Lemma log_ge1 x : 1 <= x -> 0 <= log x.
Proof. by rewrite le_eqVlt => /orP[/eqP <-|/log_gt /ltW //]; rewrite log1. Qed.

Lemma pen_ge1 (x : R) : 1 <= (if x < 0 then x else 0) ^+ 2 + 1.
Proof. by rewrite ler_addr sqr_ge0. Qed.

Lemma penalty_ge0 e : 0 <= mean [seq log ((if x < 0 then x else 0) ^+ 2 + 1) | x <- e].
Proof.
by apply: mean_ge0; rewrite all_map; apply/allP => x _; apply: log_ge1 (pen_ge1 x).
Qed.

Lemma variance_ge0 e w : all (fun x => 0 <= x) w -> 0 <= variance_part e w.
Proof.
move=> /allP H; apply: mean_ge0; rewrite all_map; apply/allP => -[a b] /mem_zip /andP[_ /H /= b0].
by rewrite mulr_ge0 // sqr_ge0.
Qed.

Lemma loss_ge0 e w : all (fun x => 0 <= x) w -> 0 <= variance_eta_loss log e w.
Proof. by move=> H; rewrite addr_ge0 ?variance_ge0 ?penalty_ge0. Qed.

Lemma zip_mapl (S T U : Type) (f : S -> U) (s : seq S) (t : seq T) :
  zip (map f s) t = [seq (f p.1, p.2) | p <- zip s t].
Proof. by elim: s t => [|x s IH] [|y t] //=; rewrite IH. Qed.

Lemma eta_mean_scale c e w :
  variance_eta_mean [seq c * x | x <- e] w = c * variance_eta_mean e w.
Proof.
rewrite /variance_eta_mean mulrA; congr (_ / _).
rewrite zip_mapl -map_comp /mean !size_map mulrA; congr (_ / _).
by rewrite !big_map mulr_sumr; apply: eq_bigr => p _ /=; rewrite mulrCA.
Qed.

Lemma variance_scale c e w : c != 0 ->
  variance_part [seq c * x | x <- e] w = variance_part e w.
Proof.
move=> c0; rewrite /variance_part eta_mean_scale zip_mapl -map_comp.
congr mean; apply: eq_map => p /=; congr ((_ - _) ^+ 2 * _).
by rewrite -mulf_div divff // mul1r.
Qed.

Lemma zip_nth e w i : size e = size w -> (i < size e)%N ->
  (nth 0 e i, nth 0 w i) \in zip e w.
Proof. by move=> sz ie; rewrite -nth_zip //; apply: mem_nth; rewrite size_zip -sz minnn. Qed.

Lemma in_zip e w p : size e = size w -> p \in zip e w ->
  exists2 i, (i < size e)%N & p = (nth 0 e i, nth 0 w i).
Proof.
move=> sz /(nthP (0, 0)) [i]; rewrite size_zip -sz minnn => ie <-.
by exists i => //; rewrite nth_zip.
Qed.

Lemma loss_eq0 e w : size e = size w -> all (fun x => 0 <= x) w ->
  \sum_(p <- zip e w) p.1 * p.2 != 0 ->
  variance_eta_loss log e w = 0 <->
  (forall i, (i < size e)%N -> 0 <= nth 0 e i) /\
  (exists c, forall i, (i < size e)%N -> nth 0 w i != 0 -> nth 0 e i = c).
Proof.
move=> sz wp nz.
have ne : zip e w != [::] by apply: contra_neq nz => ->; rewrite big_nil.
have ne' : e != [::] by apply: contra_neq ne => ->; case: (w).
have sw : \sum_(x <- w) x != 0.
  apply: contra_neq nz => E.
  have W0 : forall x, x \in w -> x = 0.
    apply: mean_eq0 => //; last by rewrite /mean E mul0r.
    by apply: contra_neq ne' => W; apply: size0nil; rewrite sz W.
  rewrite big_seq big1 // => -[a b] /mem_zip/andP[_ /W0 /= ->]; exact: mulr0.
have nw : (size w)%:R != 0 :> R by rewrite pnatr_eq0 -sz size_eq0.
have mE : variance_eta_mean e w = (\sum_(p <- zip e w) p.1 * p.2) / \sum_(x <- w) x.
  rewrite /variance_eta_mean /mean size_map size_zip sz minnn invf_div mulrA divfK //.
  by congr (_ / _); rewrite big_map; apply: eq_bigr => p _; exact: mulrC.
have m0 : variance_eta_mean e w != 0 by rewrite mE mulf_neq0 ?invr_neq0.
split.
- move/eqP; rewrite paddr_eq0 ?variance_ge0 ?penalty_ge0 // => /andP[/eqP V /eqP P]; split.
  + move=> i ie; rewrite leNgt; apply/negP => neg.
    have Hin : log ((if nth 0 e i < 0 then nth 0 e i else 0) ^+ 2 + 1) \in
       [seq log ((if x < 0 then x else 0) ^+ 2 + 1) | x <- e] by apply/map_f/mem_nth.
    have := mean_eq0 _ _ P Hin; rewrite neg => E.
    have : 0 < log (nth 0 e i ^+ 2 + 1).
      by apply: log_gt; rewrite ltr_addr exprn_even_gt0 //= lt_eqF.
    rewrite E ?ltxx //; first by rewrite -size_eq0 size_map size_eq0.
    by rewrite all_map; apply/allP => x _; apply: log_ge1 (pen_ge1 x).
  + exists (variance_eta_mean e w) => i ie wi.
    have Hin := map_f (fun p => (p.1 / variance_eta_mean e w - 1) ^+ 2 * p.2) (zip_nth sz ie).
    have ne2 : [seq (p.1 / variance_eta_mean e w - 1) ^+ 2 * p.2 | p <- zip e w] != [::].
      by rewrite -size_eq0 size_map size_eq0.
    have al : all (fun x => 0 <= x)
        [seq (p.1 / variance_eta_mean e w - 1) ^+ 2 * p.2 | p <- zip e w].
      rewrite all_map; apply/allP => -[a b] /mem_zip/andP[_ bw] /=.
      by rewrite mulr_ge0 ?sqr_ge0 //; move/allP: wp; apply.
    have /eqP := mean_eq0 ne2 al V Hin.
    rewrite /= mulf_eq0 (negbTE wi) orbF sqrf_eq0 subr_eq0 => /eqP E1.
    by rewrite -[LHS](divfK m0) E1 mul1r.
- case=> pos [c Hc].
  have mc : variance_eta_mean e w = c.
    rewrite mE; apply: (canLR (mulfK sw)).
    have -> : \sum_(x <- w) x = \sum_(p <- zip e w) p.2.
      by rewrite -[in LHS](unzip2_zip (s := e) (t := w)) ?sz // big_map.
    rewrite mulr_sumr big_seq [RHS]big_seq; apply: eq_bigr => p /(in_zip sz)[i ie ->] /=.
    by have [->|wi] := eqVneq (nth 0 w i) 0; rewrite ?mulr0 // Hc.
  have V : variance_part e w = 0.
    rewrite /variance_part /mean big_map big_seq big1 ?mul0r // => p /(in_zip sz)[i ie ->] /=.
    have [->|wi] := eqVneq (nth 0 w i) 0; first by rewrite mulr0.
    by rewrite (Hc i ie wi) mc divff -?mc // subrr expr0n mul0r.
  have P : mean [seq log ((if x < 0 then x else 0) ^+ 2 + 1) | x <- e] = 0.
    rewrite /mean big_map big_seq big1 ?mul0r // => x /(nthP 0)[i ie <-].
    by rewrite ltNge pos //= expr0n add0r log1.
  by rewrite /variance_eta_loss V P addr0.
Qed.
End Loss.

Section Net.
Variable C : numClosedFieldType.

Lemma dense_zero N width (bias x : seq C) : size bias = N ->
  dense (nseq N (nseq width 0)) bias x = bias.
Proof.
have Z (y : seq C) : \sum_(p <- zip y (nseq width 0)) p.1 * p.2 = 0.
  rewrite big_seq big1 // => -[a b] /mem_zip/andP[_]; rewrite mem_nseq => /andP[_ /eqP ->].
  exact: mulr0.
move=> <-; rewrite /dense; elim: bias => //= b s IH.
by rewrite Z add0r IH.
Qed.

Lemma param_init_size (normals : seq C) n fl : size normals = n ->
  size (hermitian_param_init normals n fl) = (n ^ 2)%N.
Proof.
move=> sn; rewrite param_initE // size_cat size_map size_nseq sn.
by rewrite subnKC // -mulnn; case: (n) => //= k; lia.
Qed.

Lemma hnet_init (exp act : C -> C) dropf hidden normals n f sig width x :
  exp 0 = 1 -> size normals = n ->
  hnet_forward exp act dropf hidden (hnet_kernel_init C n width sig)
    (hnet_bias_init normals n f sig) sig n x =
  [seq (if sig then 2%:R^-1 else 1) * y | y <- hermitian_param_init normals n (Some f)].
Proof.
move=> e0 sn; have sh := param_init_size (Some f) sn.
rewrite /hnet_forward /hnet_kernel_init /hnet_bias_init.
set h := hermitian_param_init _ _ _ in sh *.
case: sig; rewrite dense_zero //; last first.
- by rewrite -[LHS]map_id; apply: eq_map => y; rewrite mul1r.
- by rewrite size_cat size_nseq sh addnn.
rewrite take_size_cat ?size_nseq // drop_size_cat ?size_nseq //.
elim: h {sh} => //= y s ->; congr (_ * _ :: _).
by rewrite /sigmoid oppr0 e0.
Qed.

Lemma scaled_param c (diag : seq C) n : size diag = n ->
  cholesky_from_param [seq c * y | y <- diag ++ nseq (n ^ 2 - n) 0] =
  Ok (SqMx (\matrix_(i < n, j < n) if i == j then c * nth 0 diag i * (c * nth 0 diag i)^* else 0)).
Proof.
move=> sd; rewrite map_cat.
have -> : [seq c * y | y <- nseq (n ^ 2 - n) 0] = nseq (n ^ 2 - n) 0.
  by rewrite map_nseq mulr0.
rewrite diag_param ?size_map //; congr (Ok (SqMx _)).
by apply/matrixP => i j; rewrite !mxE (nth_map 0) ?sd.
Qed.

Lemma hnet_init_matrix (exp act : C -> C) dropf hidden normals n f sig width x :
  exp 0 = 1 -> size normals = n -> f \is Num.real -> all (fun y => y \is Num.real) normals ->
  cholesky_from_param
    (hnet_forward exp act dropf hidden (hnet_kernel_init C n width sig)
       (hnet_bias_init normals n f sig) sig n x) =
  Ok (SqMx ((if sig then 4%:R^-1 else 1) *:
     \matrix_(i < n, j < n) ((1 + nth 0 normals i * f) ^+ 2 *+ (i == j)))).
Proof.
move=> e0 sn fr nr; rewrite hnet_init // param_initE // scaled_param ?size_map //.
congr (Ok (SqMx _)); apply/matrixP => i j; rewrite !mxE (nth_map 0) ?sn //.
case: eqP => _ /=; last by rewrite mulr0.
set d := 1 + _.
have dr : d \is Num.real.
  rewrite rpredD ?rpred1 // rpredM //; apply: (allP nr); apply: mem_nth; by rewrite sn.
clearbody d; case: sig.
  rewrite !cjE (conj_Creal dr) (natrM _ 2 2) invfM.
  by rewrite -[(1 + 1)]/(2%:R) mulr1n expr2 mulrACA.
by rewrite !mul1r (conj_Creal dr) expr2.
Qed.

Lemma forward_size (exp act : C -> C) dropf hidden fk fb sig n x :
  size fk = (if sig then (n ^ 2).*2 else n ^ 2)%N -> size fb = size fk ->
  size (hnet_forward exp act dropf hidden fk fb sig n x) = (n ^ 2)%N.
Proof.
move=> sk sb; rewrite /hnet_forward; set y := foldl _ _ _.
have sd : size (dense fk fb y) = size fk by rewrite size_map size_zip sb minnn.
case: sig sk => sk; last by rewrite sd.
rewrite size_map size_zip size_drop size_takel sd sk -addnn ?leq_addr //.
by rewrite addnK minnn.
Qed.
End Net.

Section Features.
Variable C : numClosedFieldType.

Lemma cart_mem ps m pw : (pw \in cart ps m) = (size pw == m) && all (fun p => p \in ps) pw.
Proof.
elim: m pw => [|m IH] [|p pw] //=.
  by apply/idP => /allpairsP[[a b] [_ _]].
rewrite eqSS; apply/allpairsP/idP => [[[a b] /= [ha hb [-> ->]]]|].
  by move: hb; rewrite IH ha => /andP[-> ->].
by case/and3P=> sz pin al; exists (p, pw); rewrite IH sz al.
Qed.

Lemma cart_uniq ps m : uniq ps -> uniq (cart ps m).
Proof.
move=> u; elim: m => //= m IH; apply: allpairs_uniq => //.
by move=> [a b] [c d] _ _ /= [-> ->].
Qed.

Lemma cart_size ps m : size (cart ps m) = (size ps ^ m)%N.
Proof. by elim: m => //= m IH; rewrite size_allpairs IH expnS. Qed.

Lemma np_unique_uniq s : uniq (np_unique s).
Proof. exact: undup_uniq. Qed.
Lemma np_unique_mem s x : (x \in np_unique s) = (x \in s).
Proof. by rewrite mem_undup mem_sort. Qed.

Lemma feature_powersP powers m :
  [/\ uniq (feature_powers powers m),
      forall pw, (pw \in feature_powers powers m) =
        [&& size pw == m, all (fun p => p \in 0%Z :: powers) pw & has (fun p => p != 0%Z) pw] &
      (size (feature_powers powers m)).+1 = (size (undup (0%Z :: powers)) ^ m)%N].
Proof.
set ps := np_unique (0%Z :: powers).
have E0 pw : all (Z.eqb 0) pw = ~~ has (fun p => p != 0%Z) pw.
  by rewrite -all_predC; apply: eq_all => p /=; rewrite negbK eq_sym.
split.
- by rewrite filter_uniq // cart_uniq // np_unique_uniq.
- move=> pw; rewrite mem_filter cart_mem E0 negbK andbC -andbA; congr [&& _, _ & _].
  by apply: eq_all => p; rewrite np_unique_mem.
- have cm : count (all (Z.eqb 0)) (cart ps m) = 1%N.
    have -> : count (all (Z.eqb 0)) (cart ps m) = count (pred1 (nseq m 0%Z)) (cart ps m).
      apply: eq_in_count => pw; rewrite cart_mem => /andP[/eqP <- _] /=.
      apply/idP/eqP => [|->]; last by elim: (size pw).
      elim: pw => //= p pw IH /andP[p0 /IH <-]; congr (_ :: _).
      by apply/esym/(proj1 (Z.eqb_eq 0 p)).
    rewrite count_uniq_mem ?cart_uniq ?np_unique_uniq // cart_mem size_nseq eqxx /=.
    have -> : all (fun p => p \in ps) (nseq m 0%Z); last by [].
    by rewrite all_nseq np_unique_mem inE eqxx orbT.
  have sp : size ps = size (undup (0%Z :: powers)).
    apply/perm_size/uniq_perm; rewrite ?undup_uniq // => x.
    by rewrite np_unique_mem mem_undup.
  rewrite size_filter -sp -cart_size -(count_predC (all (Z.eqb 0))) cm add1n.
  by congr (_.+1); apply: eq_count.
Qed.

Lemma feature_count (angle : C -> C) powers fa fb fp (moduli : seq C) x
    (K := (size (undup (0%Z :: powers)) ^ size moduli).-1) :
  hnet_features angle powers fa fb fp moduli = Ok x ->
  size x = (fa * size moduli + fb * K + fp * K.*2)%N.
Proof.
rewrite /hnet_features; case: nilp => //; case: ifP => // _ [<-].
have [_ _ sK] := feature_powersP powers (size moduli).
have {}sK : size (feature_powers powers (size moduli)) = K by rewrite /K -sK.
by case: fa; case: fb; case: fp; rewrite !size_cat ?size_map ?sK /= -?addnn; lia.
Qed.
End Features.

Lemma hidden_layers_count (C : numClosedFieldType) layer_sizes (d : seq (option C)) :
  size (hidden_layers layer_sizes (Some d)) = minn (size layer_sizes) (size d) /\
  size (hidden_layers layer_sizes (None : option (seq (option C)))) = size layer_sizes.
Proof. by rewrite /hidden_layers !size_zip size_nseq minnn. Qed.

Lemma features_lemma (C : numClosedFieldType) (angle : C -> C) powers fa fb fp (moduli : seq C) :
  moduli != [::] -> has (fun p => p != 0%Z) powers -> [|| fa, fb | fp] ->
  exists pws,
  [/\ uniq pws,
      forall pw, (pw \in pws) =
        [&& size pw == size moduli, all (fun p => p \in 0%Z :: powers) pw
          & has (fun p => p != 0%Z) pw],
      (size pws).+1 = (size (undup (0%Z :: powers)) ^ size moduli)%N &
      let f := [seq \prod_(p <- zip moduli pw) zpow p.1 p.2 | pw <- pws] in
      hnet_features angle powers fa fb fp moduli =
      Ok ((if fa then [seq angle z | z <- moduli] else [::]) ++
          (if fb then [seq `|x| | x <- f] else [::]) ++
          (if fp then [seq 'Re x | x <- f] ++ [seq 'Im x | x <- f] else [::]))].
Proof.
move=> m0 hp hf; have [u mem sz] := feature_powersP powers (size moduli).
exists (feature_powers powers (size moduli)); split=> //=.
rewrite /hnet_features hf /=; case: nilP => // E; exfalso.
have [p pin pn] := hasP hp.
have : nseq (size moduli) p \in feature_powers powers (size moduli).
  rewrite mem size_nseq eqxx all_nseq has_nseq inE pin pn orbT orbT /= andbT.
  by rewrite lt0n size_eq0.
by move/(map_f (power_product moduli)); rewrite E.
Qed.

Lemma features_empty (C : numClosedFieldType) (angle : C -> C) powers fa fb fp (moduli : seq C) :
  moduli = [::] \/ ~~ has (fun p => p != 0%Z) powers \/ ~~ [|| fa, fb | fp] ->
  hnet_features angle powers fa fb fp moduli = Err ValueError.
Proof.
rewrite /hnet_features => H; case: nilP => // N.
case: H => [E|[H|->//]]; exfalso; apply: N; first by rewrite E.
suff -> : feature_powers powers (size moduli) = [::] by [].
have [_ mem _] := feature_powersP powers (size moduli).
case E: (feature_powers _ _) => [//|pw s].
have := mem pw; rewrite E inE eqxx => /esym /and3P[_ /allP al /hasP[p pin pn]].
have := al p pin; rewrite inE (negbTE pn) /= => pp.
by move/negP: H; case; apply/hasP; exists p.
Qed.

Lemma angle_refuted (C : numClosedFieldType) (angle : C -> C) (moduli : seq C) x :
  hnet_features angle [:: 1%Z; 2%Z; 3%Z] true false false moduli = Ok x ->
  size x = size moduli /\ (size moduli < size (feature_powers [:: 1%Z; 2%Z; 3%Z] (size moduli)))%N.
Proof.
move=> H; split.
  by move: H; rewrite /hnet_features; case: nilp => //= -[<-]; rewrite cats0 size_map.
have [_ _ sz] := feature_powersP [:: 1%Z; 2%Z; 3%Z] (size moduli).
have m0 : (0 < size moduli)%N.
  by case: moduli H {sz} => //; rewrite features_empty //; left.
rewrite -ltnS sz; move: (size moduli) m0 => -[//|m] _.
rewrite [size _]/=; elim: m => // m IH.
rewrite expnS; lia.
Qed.

Lemma layers_witness (C : numClosedFieldType) : exists layer_sizes (d : seq (option C)),
  map fst (hidden_layers layer_sizes (Some d)) <> layer_sizes.
Proof. by exists [:: 10; 10; 10]%N, [:: None]. Qed.

Lemma range_witness (C : numClosedFieldType) (f : C) : 0 < f ->
  exists x : C, x \is Num.real /\ 1 + f < nth 0 (hermitian_param_init [:: x] 1 (Some f)) 0.
Proof.
move=> f0; exists 2%:R; split; first exact: realn.
by rewrite /= mulr_natl mulr2n ltr_add2l ltr_addl.
Qed.

Lemma hnet_not_identity (C : numClosedFieldType) (exp act : C -> C)
    dropf hidden normals n f width x (H : 'M[C]_n) :
  exp 0 = 1 -> size normals = n -> f \is Num.real -> all (fun y => y \is Num.real) normals ->
  all (fun y => `|y * f| <= 2%:R^-1) normals ->
  cholesky_from_param
    (hnet_forward exp act dropf hidden (hnet_kernel_init C n width true)
       (hnet_bias_init normals n f true) true n x) = Ok (SqMx H) ->
  forall i, H i i <= 9%:R / 16%:R.
Proof.
move=> e0 sn fr nr bd; rewrite hnet_init_matrix // => -[].
move=> EH; rewrite -(Eqdep_dec.inj_pair2_eq_dec _ Nat.eq_dec _ _ _ _ EH) => i.
rewrite !mxE eqxx mulr1n.
have ni : nth 0 normals i \in normals by apply: mem_nth; rewrite sn.
have := allP bd _ ni; have : nth 0 normals i * f \is Num.real by rewrite rpredM // (allP nr).
move: (nth 0 normals i * f) => y yr yb.
have h0 : 0 < 4%:R^-1 :> C by rewrite invr_gt0 ltr0n.
have -> : 9%:R / 16%:R = 4%:R^-1 * (3%:R / 2%:R) ^+ 2 :> C.
  by rewrite expr2 mulf_div -(natrM _ 3 3) -(natrM _ 2 2) [RHS]mulrC -mulrA -invfM -(natrM _ 4 4).
rewrite ler_pmul2l // -real_normK ?rpredD ?rpred1 // ler_expn2r //.
  by rewrite nnegrE divr_ge0 ?ler0n.
have -> : 3%:R / 2%:R = 1 + 2%:R^-1 :> C.
  by apply: (canLR (mulfK _)); rewrite ?pnatr_eq0 // mulrDl mulVf ?pnatr_eq0 // mul1r -(natrD _ 2 1).
by apply: le_trans (ler_norm_add _ _) _; rewrite normr1 ler_add2l.
Qed.

Lemma decode_example (C : numClosedFieldType) :
  exists H : 'M[C]_2, cholesky_decode [:: 1; 2%:R] [:: 3%:R] = Ok (SqMx H) /\
  H 0 0 = 10%:R /\ H 0 1 = 6%:R /\ H 1 1 = 4%:R.
Proof.
have [U [E [dE tE] uE _ _]] := decode_lemma (diag := [:: 1; 2%:R]) (upper := [:: 3%:R : C]) erefl.
exists (U *m adjm U); split=> //.
have U01 : U 0 1 = 3%:R by rewrite uE //= big_ord0.
have U10 : U 1 0 = 0 by exact: tE.
by rewrite !mxE !big_ord_recl !big_ord0 !adjmE ?lift0 [lift _ _](_ : _ = 1); [|exact: val_inj];
   rewrite !dE U01 U10 /= !conjC_nat !cjE; split; [|split]; ring.
Qed.

Lemma from_param_example (C : numClosedFieldType) :
  exists H : 'M[C]_2, cholesky_from_param [:: 1; 2%:R; 3%:R; 1] = Ok (SqMx H) /\
  H 0 0 = 11%:R /\ H 0 1 = 2%:R * (3%:R + 'i).
Proof.
have [U [E [dE tE] uE _ _]] :=
  decode_lemma (diag := [:: 1; 2%:R]) (upper := [:: 3%:R + 'i * 1 : C]) erefl.
exists (U *m adjm U); split=> //.
have U01 : U 0 1 = 3%:R + 'i * 1 by rewrite uE //= big_ord0.
have U10 : U 1 0 = 0 by exact: tE.
rewrite !mxE !big_ord_recl !big_ord0 !adjmE ?lift0 [lift _ _](_ : _ = 1); last exact: val_inj.
rewrite !dE U01 U10 /= !mulr1 rmorphD /= !conjC_nat !cjE conjCi; split; last by ring.
have -> : (3%:R + 'i) * (3%:R - 'i) = 9%:R - 'i ^+ 2 :> C by ring.
rewrite sqrCi; ring.
Qed.
