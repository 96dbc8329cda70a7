(** From the equation to the results: a sampler which gives points of the variety. *)
From Coq Require Import ZArith Lia Ascii String.
From mathcomp Require Import all_ssreflect all_algebra.
From mathcomp Require Import zify ssrZ ring.
From SsrMultinomials Require Import mpoly.
From Verif Require Import Base ModelStr ModelUtil ModelProjective ModelDiff ModelExpr ModelPoly ModelHom ModelVariety ModelBasis ModelGeom ModelMC ModelDonaldson ModelAlg ModelPipe.
From Verif Require Import SpecPoly SpecUniv SpecHom SpecVariety SpecGeom SpecBasis SpecSections SpecPatch SpecAlg SpecDonaldson SpecPipe Herm Herm2.
From Verif Require Import Deriv Bridge PolyGrad ProofVariety2 ProofVariety3 ProofAlg ProofAlg2 ProofAlg3 ProofAlg6 ProofPipe ProofPipe2 ProofPipe3 ProofPipe5 ProofPipe6.
Delimit Scope Z_scope with Z.

Set Implicit Arguments.
Unset Strict Implicit.
Unset Printing Implicit Defensive.

Import GRing.Theory Num.Theory Order.POrderTheory.
Local Open Scope ring_scope.

Section Points.
Variable C : numClosedFieldType.
Variable D : forall n : nat, ('rV[C]_n -> C) -> 'rV[C]_n -> 'rV[C]_n.
Hypothesis hD : diff_ok D.
Variables (lg ex : C -> C).
Variables (pi : C) (m e : nat) (V : variety C) (ps : seq C) (Q : {mpoly C[m.+2]}).
Hypotheses (hV : hypersurface V ps m e) (hQ : defined_by V ps Q) (pi0 : 0 < pi).
Hypothesis hS : smooth D V ps m.
Variable key : Type.
Variable draw : key -> seq C -> nat -> res (seq (seq C)).
Hypothesis good : forall k count, exists zs, [/\ draw k ps count = Ok zs, size zs = count & points_on V ps m zs].

Lemma good_keys bs (ks : seq key) : exists zss, [/\ rseq [seq draw k ps bs | k <- ks] = Ok zss, size zss = size ks,
  forall k j, (j < size ks)%N -> draw (nth k ks j) ps bs = Ok (nth [::] zss j) &
  forall zs, zs \in zss -> size zs = bs /\ points_on V ps m zs].
Proof.
elim: ks => [|k ks [zss [E sz Hn Hz]]]; first by exists [::].
have [zs [Ek s1 s2]] := good k bs.
exists (zs :: zss); split; [by rewrite /= Ek /= E|by rewrite /= sz|by move=> k' [|j]; [|exact: Hn]|].
by move=> z; rewrite inE => /orP[/eqP ->|/Hz].
Qed.

Lemma weights_exist zs : points_on V ps m zs -> exists W : seq C -> C, forall z, z \in zs -> has_weight pi e Q z (W z) /\ 0 < W z.
Proof.
move=> H; exists (pw D pi m V ps) => z /H hz; by have [_ _ w1 w2] := point_ok2 hD hV hQ pi0 hS hz.
Qed.

Lemma flat_points_on zss bs : (forall zs, zs \in zss -> size zs = bs /\ points_on V ps m zs) -> points_on V ps m (flatten zss).
Proof. by move=> H z /(flat_on H). Qed.

Lemma pipe_vol (split : key -> key * key) k batches bs : (0 < batches)%N -> (0 < bs)%N ->
  exists v s, [/\ compute_vol D pi split m V draw k ps batches bs true = Ok (v, Some s),
    compute_vol D pi split m V draw k ps batches bs false = Ok (v, None), 0 < v & 0 <= s].
Proof.
move=> b0 s0; pose ks := [seq iter j (fun k => (split k).2) k | j <- iota 0 batches].
have [zss [E sz Hn Hz]] := good_keys bs ks; rewrite size_map size_iota in sz Hn.
have [W HW] := weights_exist (flat_points_on Hz).
have Hd j : (j < batches)%N -> draw (iter j (fun k => (split k).2) k) ps bs = Ok (nth [::] zss j).
  by move=> jb; rewrite -(Hn k) // (nth_map 0%N) ?size_iota // nth_iota.
have [v1 v2 v3 v4 _] := vol_main hD hV hQ pi0 hS b0 s0 sz Hd Hz (fun z zi => (HW z zi).1).
by do 2 eexists; split; [exact: v2|exact: v1|exact: v3|exact: v4].
Qed.

Variables (k : nat) (B : basis).
Hypotheses (hB : basis_for k Q B) (k0 : (0 < k)%N).
Notation N := (size (power_matrix B)).

Lemma pipe_sigma (M : 'M[C]_N) kk count : hermitian M -> posdef M -> (0 < count)%N ->
  exists2 sg, alg_sigma_accuracy D lg ex pi m V draw kk ps (HMat M) count = Ok sg & 0 <= sg < 2%:R.
Proof.
move=> hM pM c0; have [zs [E sz H]] := good kk count; have [W HW] := weights_exist H.
have ne : zs != [::] by rewrite -size_eq0 sz -lt0n.
have [Eta [_ [sg [s1 _ s2 _ _]]]] := sigma_main hD lg ex hV hQ pi0 hS hB k0 hM pM E H ne (fun z zi => (HW z zi).1).
by exists sg.
Qed.

Lemma pipe_step (splitn : key -> nat -> seq key) kk (h : 'M[C]_N) vol batches bs : hermitian h ->
  is_ok (alg_donaldson_step D lg ex pi splitn m V draw true kk h ps vol batches bs).
Proof.
move=> hh; have [zss [E _ _ Hz]] := good_keys bs (splitn kk batches).
have [W HW] := weights_exist (flat_points_on Hz).
by have [-> _] := step_main hD lg ex hV hQ pi0 hS hB k0 vol E Hz (fun z zi => (HW z zi).1) hh.
Qed.
End Points.

(** The predefined varieties *)
Section Predefined.
Variable C : numClosedFieldType.
Variable D : forall n : nat, ('rV[C]_n -> C) -> 'rV[C]_n -> 'rV[C]_n.
Hypothesis hD : diff_ok D.
Variables (lg ex : C -> C) (pi : C).
Hypothesis pi0 : 0 < pi.
Variable norm : expr C -> expr C.
Variable visit : expr C -> seq sym.
Variable terms : poly C -> sym -> seq (nat * expr C).
Variable roots : seq C -> seq C.
Hypotheses (nk : norm_ok norm) (ok_visit : visit_ok visit) (ok_roots : roots_ok roots).
Variable key : Type.
Variables (split : key -> key * key) (splitn : key -> nat -> seq key).
Variable lines : key -> nat -> nat -> seq (seq C * seq C).
Variable m : nat.
Hypothesis sln : forall k count, size (lines k count m.+2) = count.

Lemma dwork_samples (f : dwork_factor C) c e k count : dwork_factor_value f \is Num.real ->
  dwork_sym m.+2 f (line_exprs C m.+2) [:: ESym (lit "psi")] = Ok e ->
  (forall L, line_poly_of norm visit m.+2 e [:: lit "psi"] = Ok L ->
     terms_ok L (lit "t") (terms L (lit "t")) /\ terms_nonzero (terms L (lit "t"))) ->
  size (lines k (sample_count count m.+2) m.+2) = sample_count count m.+2 ->
  good_lines (dwork_variety m f) [:: c] m (lines k (sample_count count m.+2) m.+2) ->
  exists zs, [/\ dwork_draw norm visit terms roots lines m f k [:: c] count = Ok zs,
    size zs = count & points_on (dwork_variety m f) [:: c] m zs].
Proof.
move=> fr; rewrite /dwork_sym size_exprs eqxx; cbn [rbind rassert] => -[<-] ht s1 gl.
exact: (dwork_draw_main nk ok_visit ok_roots fr ht s1 gl).
Qed.

Lemma fermat_samples e k count :
  fermat_sym m.+2 (line_exprs C m.+2) = Ok e ->
  (forall L, line_poly_of norm visit m.+2 e [::] = Ok L ->
     terms_ok L (lit "t") (terms L (lit "t")) /\ terms_nonzero (terms L (lit "t"))) ->
  size (lines k (sample_count count m.+2) m.+2) = sample_count count m.+2 ->
  good_lines (fermat_variety C m) [::] m (lines k (sample_count count m.+2) m.+2) ->
  exists zs, [/\ fermat_draw norm visit terms roots lines m k [::] count = Ok zs,
    size zs = count & points_on (fermat_variety C m) [::] m zs].
Proof.
rewrite /fermat_sym size_exprs eqxx; cbn [rbind rassert] => -[<-] ht s1 gl.
exact: (fermat_draw_main nk ok_visit ok_roots ht s1 gl).
Qed.

Lemma dwork_pipeline (f : dwork_factor C) psi e : dwork_factor_value f \is Num.real ->
  (dwork_factor_value f * psi) ^+ m.+2 <> (- m.+2%:R) ^+ m.+2 ->
  dwork_sym m.+2 f (line_exprs C m.+2) [:: ESym (lit "psi")] = Ok e ->
  (forall L, line_poly_of norm visit m.+2 e [:: lit "psi"] = Ok L ->
     terms_ok L (lit "t") (terms L (lit "t")) /\ terms_nonzero (terms L (lit "t"))) ->
  (forall k count, good_lines (dwork_variety m f) [:: psi] m (lines k count m.+2)) ->
  let V := dwork_variety m f in
  let draw := dwork_draw norm visit terms roots lines m f in
  [/\ forall k count, exists2 zs, sample_intersect D pi m V draw k [:: psi] count false false = Ok (OutHom zs) &
        size zs = count /\ points_on V [:: psi] m zs,
      forall k batches bs, (0 < batches)%N -> (0 < bs)%N ->
        exists v s, compute_vol D pi split m V draw k [:: psi] batches bs true = Ok (v, Some s) /\ 0 < v &
      forall k B (M : 'M[C]_(size (power_matrix B))), (0 < k)%N -> basis_full m.+1 k = Ok B -> hermitian M -> posdef M ->
      [/\ forall kk count, (0 < count)%N ->
            exists2 sg, alg_sigma_accuracy D lg ex pi m V draw kk [:: psi] (HMat M) count = Ok sg & 0 <= sg < 2%:R &
          forall kk vol batches bs,
            is_ok (alg_donaldson_step D lg ex pi splitn m V draw true kk M [:: psi] vol batches bs)]].
Proof.
move=> fr hs Ee ht gl V draw.
have good k count : exists zs, [/\ draw k [:: psi] count = Ok zs, size zs = count & points_on V [:: psi] m zs].
  exact: (dwork_samples fr Ee ht (sln _ _) (gl _ _)).
have hV := @dwork_hyp C m f psi; have hQ := @dwork_defined C m f psi.
have sm : smooth D V [:: psi] m by apply/dwork_smooth.
split.
- move=> k count; have [zs [E sz H]] := good k count; exists zs => //.
  by have [-> _ _ _] := sample_forms hD hV hQ pi0 sm E H.
- move=> k batches bs b0 s0; have [v [s [E _ v0 _]]] := pipe_vol hD hV hQ pi0 sm good split k b0 s0.
  by exists v, s.
move=> k B M k0 hB hM pM; have hB' : basis_for k (dwork_Q m (dwork_factor_value f * psi)) B by left.
split=> [kk count c0|kk vol batches bs].
  exact: (pipe_sigma hD lg ex hV hQ pi0 sm good hB' k0 kk hM pM c0).
exact: (pipe_step hD lg ex hV hQ pi0 sm good hB' k0).
Qed.

Lemma fermat_pipeline e :
  fermat_sym m.+2 (line_exprs C m.+2) = Ok e ->
  (forall L, line_poly_of norm visit m.+2 e [::] = Ok L ->
     terms_ok L (lit "t") (terms L (lit "t")) /\ terms_nonzero (terms L (lit "t"))) ->
  (forall k count, good_lines (fermat_variety C m) [::] m (lines k count m.+2)) ->
  let V := fermat_variety C m in
  let draw := fermat_draw norm visit terms roots lines m in
  [/\ forall k count, exists2 zs, sample_intersect D pi m V draw k [::] count false false = Ok (OutHom zs) &
        size zs = count /\ points_on V [::] m zs,
      forall k batches bs, (0 < batches)%N -> (0 < bs)%N ->
        exists v s, compute_vol D pi split m V draw k [::] batches bs true = Ok (v, Some s) /\ 0 < v &
      forall k B (M : 'M[C]_(size (power_matrix B))), (0 < k)%N -> basis_full m.+1 k = Ok B -> hermitian M -> posdef M ->
      [/\ forall kk count, (0 < count)%N ->
            exists2 sg, alg_sigma_accuracy D lg ex pi m V draw kk [::] (HMat M) count = Ok sg & 0 <= sg < 2%:R &
          forall kk vol batches bs,
            is_ok (alg_donaldson_step D lg ex pi splitn m V draw true kk M [::] vol batches bs)]].
Proof.
move=> Ee ht gl V draw.
have good k count : exists zs, [/\ draw k [::] count = Ok zs, size zs = count & points_on V [::] m zs].
  exact: (fermat_samples Ee ht (sln _ _) (gl _ _)).
have hV := @fermat_hyp C m [::]; have hQ := @fermat_defined C m [::].
have sm : smooth D V [::] m by apply: fermat_smooth.
split.
- move=> k count; have [zs [E sz H]] := good k count; exists zs => //.
  by have [-> _ _ _] := sample_forms hD hV hQ pi0 sm E H.
- move=> k batches bs b0 s0; have [v [s [E _ v0 _]]] := pipe_vol hD hV hQ pi0 sm good split k b0 s0.
  by exists v, s.
move=> k B M k0 hB hM pM; have hB' : basis_for k (dwork_Q m (0 : C)) B by left.
split=> [kk count c0|kk vol batches bs].
  exact: (pipe_sigma hD lg ex hV hQ pi0 sm good hB' k0 kk hM pM c0).
exact: (pipe_step hD lg ex hV hQ pi0 sm good hB' k0).
Qed.
End Predefined.
