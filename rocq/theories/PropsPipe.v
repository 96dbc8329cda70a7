(** Properties C110-C118: sampled points and what is computed from them. *)
From Coq Require Import ZArith Lia Ascii String.
From mathcomp Require Import all_ssreflect all_algebra.
From mathcomp Require Import zify ssrZ ring.
From SsrMultinomials Require Import mpoly.
From Verif Require Import Base ModelStr ModelUtil ModelProjective ModelDiff ModelExpr ModelPoly ModelHom ModelVariety ModelBasis ModelGeom ModelMC ModelDonaldson ModelAlg ModelPipe.
From Verif Require Import SpecPoly SpecUniv SpecHom SpecVariety SpecGeom SpecBasis SpecSections SpecPatch SpecAlg SpecDonaldson SpecPipe Herm Herm2.
From Verif Require Import Deriv Bridge PolyGrad ProofVariety2 ProofVariety3 ProofAlg ProofAlg2 ProofAlg3 ProofAlg6 ProofPipe ProofPipe2 ProofPipe3 ProofPipe4 ProofPipe5 ProofPipe6 ProofPipe7 ProofPipe8 ProofPipe9 PropsVariety.
Delimit Scope Z_scope with Z.

Set Implicit Arguments.
Unset Strict Implicit.
Unset Printing Implicit Defensive.

Import GRing.Theory Num.Theory Order.POrderTheory.
Local Open Scope ring_scope.

Definition grad_op (C : numClosedFieldType) := forall n : nat, ('rV[C]_n -> C) -> 'rV[C]_n -> 'rV[C]_n.

(** ** C110: weights in homogeneous coordinates *)
Theorem weights_homogeneous : forall (C : numClosedFieldType) (D : grad_op C), diff_ok D ->
  forall (pi : C) m e (V : variety C) ps (Q : {mpoly C[m.+2]}),
  hypersurface V ps m e -> defined_by V ps Q -> 0 < pi ->
  forall (x : 'rV[C]_m.+2) (i : 'I_m.+2) a vol,
  v_defining V (row_seq x) (PArr ps) (PatchNone C) = Ok 0 -> (exists k, peval (Q^`M(k)) x != 0) -> x 0 i != 0 ->
  hom_to_affine (row_seq x) (Z.of_nat i) = Ok a ->
  let w := patch_weight e Q (if vol is Some _ then pi ^+ m / m`!%:R else 1) x i in
  [/\ 0 < w, v_weights D pi m V a ps (Some (Z.of_nat i)) None vol = Ok w &
      forall (d : 'I_m.+1) g, v_grad_defining D V a (PArr ps) (PatchInt C (Z.of_nat i)) = Ok g -> nth 0 g d != 0 ->
      v_weights D pi m V a ps (Some (Z.of_nat i)) (Some (Z.of_nat d)) vol = Ok w].
Proof. exact weight_form. Qed.
Print Assumptions weights_homogeneous.

Theorem weights_calabi_yau : forall (C : numClosedFieldType) (D : grad_op C), diff_ok D ->
  forall (pi : C) m e (V : variety C) ps (Q : {mpoly C[m.+2]}),
  hypersurface V ps m e -> defined_by V ps Q -> 0 < pi ->
  forall (x : 'rV[C]_m.+2) (i j : 'I_m.+2) a b vol, e = m.+2 ->
  v_defining V (row_seq x) (PArr ps) (PatchNone C) = Ok 0 -> (exists k, peval (Q^`M(k)) x != 0) ->
  x 0 i != 0 -> x 0 j != 0 ->
  hom_to_affine (row_seq x) (Z.of_nat i) = Ok a -> hom_to_affine (row_seq x) (Z.of_nat j) = Ok b ->
  v_weights D pi m V a ps (Some (Z.of_nat i)) None vol = v_weights D pi m V b ps (Some (Z.of_nat j)) None vol.
Proof. exact weight_two. Qed.
Print Assumptions weights_calabi_yau.

Theorem dwork_weights : forall (C : numClosedFieldType) m (D : grad_op C), diff_ok D ->
  forall pi : C, 0 < pi -> forall f psi (x : 'rV[C]_m.+2) (i : 'I_m.+2) a dep,
  (dwork_factor_value f * psi) ^+ m.+2 <> (- m.+2%:R) ^+ m.+2 ->
  v_defining (dwork_variety m f) (row_seq x) (PArr [:: psi]) (PatchNone C) = Ok 0 -> x 0 i != 0 ->
  hom_to_affine (row_seq x) (Z.of_nat i) = Ok a ->
  (dep = None \/ exists (d : 'I_m.+1) g, [/\ dep = Some (Z.of_nat d),
     v_grad_defining D (dwork_variety m f) a (PArr [:: psi]) (PatchInt C (Z.of_nat i)) = Ok g & nth 0 g d != 0]) ->
  v_weights D pi m (dwork_variety m f) a [:: psi] (Some (Z.of_nat i)) dep (Some 1) =
  Ok (pi ^+ m / m`!%:R * (\sum_k `|x 0 k| ^+ 2) ^+ m.+1 /
      \sum_k `|m.+2%:R * x 0 k ^+ m.+1 + dwork_factor_value f * psi * \prod_(j < m.+2 | j != k) x 0 j| ^+ 2).
Proof. exact dwork_weight. Qed.
Print Assumptions dwork_weights.

Theorem fermat_weights : forall (C : numClosedFieldType) m (D : grad_op C), diff_ok D ->
  forall pi : C, 0 < pi -> forall ps (x : 'rV[C]_m.+2) (i : 'I_m.+2) a dep,
  v_defining (fermat_variety C m) (row_seq x) (PArr ps) (PatchNone C) = Ok 0 -> x 0 i != 0 ->
  hom_to_affine (row_seq x) (Z.of_nat i) = Ok a ->
  (dep = None \/ exists (d : 'I_m.+1) g, [/\ dep = Some (Z.of_nat d),
     v_grad_defining D (fermat_variety C m) a (PArr ps) (PatchInt C (Z.of_nat i)) = Ok g & nth 0 g d != 0]) ->
  v_weights D pi m (fermat_variety C m) a ps (Some (Z.of_nat i)) dep (Some 1) =
  Ok (pi ^+ m / m`!%:R * (\sum_k `|x 0 k| ^+ 2) ^+ m.+1 / (m.+2%:R ^+ 2 * \sum_k `|x 0 k| ^+ (2 * m.+1))).
Proof. exact fermat_weight. Qed.
Print Assumptions fermat_weights.

(** The Fermat cubic at (1 : -1 : 0): all hypotheses hold, and the weight is 2 pi / 9. *)
Example cubic_ex (C : numClosedFieldType) : diff_ok (@choice_D C) /\
  forall D : grad_op C, diff_ok D ->
  [/\ hypersurface (fermat_variety C 1) [::] 1 3, @defined_by C (fermat_variety C 1) [::] 1 (dwork_Q 1 0),
      smooth D (fermat_variety C 1) [::] 1, points_on (fermat_variety C 1) [::] 1 (nseq 2 (cubic_point C)) &
      forall pi, has_weight pi 3 (dwork_Q 1 0) (cubic_point C) (pi * 2%:R / 9%:R)].
Proof. exact: cubic_setting. Qed.

(** ** C111: the four forms of sample_intersect *)
Theorem samples_with_weights : forall (C : numClosedFieldType) (D : grad_op C), diff_ok D ->
  forall (pi : C) m e (V : variety C) ps (Q : {mpoly C[m.+2]}),
  hypersurface V ps m e -> defined_by V ps Q -> 0 < pi -> smooth D V ps m ->
  forall (key : Type) (draw : key -> seq C -> nat -> res (seq (seq C))) k count zs,
  draw k ps count = Ok zs -> points_on V ps m zs ->
  exists (A : seq C -> seq C * nat) (W : seq C -> C),
  (forall z, z \in zs -> [/\ affine_form z (A z), has_weight pi e Q z (W z) & 0 < W z]) /\
  [/\ sample_intersect D pi m V draw k ps count false false = Ok (OutHom zs),
      sample_intersect D pi m V draw k ps count true false = Ok (OutAff [seq A z | z <- zs]),
      sample_intersect D pi m V draw k ps count false true = Ok (OutHomW zs [seq W z | z <- zs]) &
      sample_intersect D pi m V draw k ps count true true = Ok (OutAffW [seq A z | z <- zs] [seq W z | z <- zs])].
Proof. exact samples_main. Qed.
Print Assumptions samples_with_weights.

(** ** C112: compute_vol *)
Theorem volume_estimate : forall (C : numClosedFieldType) (D : grad_op C), diff_ok D ->
  forall (pi : C) m e (V : variety C) ps (Q : {mpoly C[m.+2]}),
  hypersurface V ps m e -> defined_by V ps Q -> 0 < pi -> smooth D V ps m ->
  forall (key : Type) (draw : key -> seq C -> nat -> res (seq (seq C))) (split : key -> key * key) k batches bs zss W,
  (0 < batches)%N -> (0 < bs)%N -> size zss = batches ->
  (forall j, (j < batches)%N -> draw (iter j (fun k => (split k).2) k) ps bs = Ok (nth [::] zss j)) ->
  (forall zs, zs \in zss -> size zs = bs /\ points_on V ps m zs) ->
  (forall z, z \in flatten zss -> has_weight pi e Q z (W z)) ->
  let v := avg W (flatten zss) in
  let s := (avg (fun z => W z ^+ 2) (flatten zss) - v ^+ 2) / (batches * bs)%:R in
  [/\ compute_vol D pi split m V draw k ps batches bs false = Ok (v, None),
      compute_vol D pi split m V draw k ps batches bs true = Ok (v, Some s),
      0 < v, 0 <= s & s = 0 <-> exists c, forall z, z \in flatten zss -> W z = c].
Proof. exact vol_main. Qed.
Print Assumptions volume_estimate.

(** ** C113: AlgebraicMetric.sigma_accuracy *)
Theorem sigma_of_samples : forall (C : numClosedFieldType) (D : grad_op C), diff_ok D -> forall lg ex : C -> C,
  forall (pi : C) m e (V : variety C) ps (Q : {mpoly C[m.+2]}),
  hypersurface V ps m e -> defined_by V ps Q -> 0 < pi -> smooth D V ps m ->
  forall (key : Type) (draw : key -> seq C -> nat -> res (seq (seq C))) k B,
  basis_for k Q B -> (0 < k)%N ->
  forall (M : 'M[C]_(size (power_matrix B))) kk count zs W,
  hermitian M -> posdef M -> draw kk ps count = Ok zs -> points_on V ps m zs ->
  zs != [::] -> (forall z, z \in zs -> has_weight pi e Q z (W z)) ->
  exists Eta : seq C -> C,
  (forall z, z \in zs -> alg_eta D lg ex pi m V (HMat M) z (PArr ps) None None None = Ok (Eta z) /\ 0 < Eta z) /\
  let vol := avg W zs in let volk := avg (fun z => Eta z * W z) zs in
  exists sg, [/\ alg_sigma_accuracy D lg ex pi m V draw kk ps (HMat M) count = Ok sg,
    sg = avg (fun z => `|1 - Eta z * vol / volk| * W z) zs / vol, 0 <= sg < 2%:R,
    sg = 0 <-> exists c, forall z, z \in zs -> Eta z = c &
    forall c, 0 < c -> alg_sigma_accuracy D lg ex pi m V draw kk ps (HMat (c *: M)) count = Ok sg].
Proof. exact sigma_main. Qed.
Print Assumptions sigma_of_samples.

(** ** C114: results do not depend on the homogeneous coordinates of the samples *)
Theorem samples_rescaled : forall (C : numClosedFieldType) (D : grad_op C) (lg ex : C -> C) (pi : C) (key : Type)
    (split : key -> key * key) (splitn : key -> nat -> seq key) m (V : variety C)
    (draw draw' : key -> seq C -> nat -> res (seq (seq C))), same_draws draw draw' ->
  [/\ forall k ps count b,
        sample_intersect D pi m V draw' k ps count true b = sample_intersect D pi m V draw k ps count true b,
      forall k ps count,
        match sample_intersect D pi m V draw k ps count false true, sample_intersect D pi m V draw' k ps count false true with
        | Ok (OutHomW zs ws), Ok (OutHomW zs' ws') => same_points zs zs' /\ ws = ws'
        | Err x, Err x' => x = x'
        | _, _ => False
        end,
      forall k ps batches bs var,
        compute_vol D pi split m V draw' k ps batches bs var = compute_vol D pi split m V draw k ps batches bs var,
      forall B k ps (h : hvalue C (size (power_matrix B))) count,
        alg_sigma_accuracy D lg ex pi m V draw' k ps h count = alg_sigma_accuracy D lg ex pi m V draw k ps h count &
      forall B dt k (h : 'M[C]_(size (power_matrix B))) ps vol batches bs,
        alg_donaldson_step D lg ex pi splitn m V draw' dt k h ps vol batches bs =
        alg_donaldson_step D lg ex pi splitn m V draw dt k h ps vol batches bs].
Proof. exact same_all. Qed.
Print Assumptions samples_rescaled.

Example rescaled_ex (C : numClosedFieldType) :
  same_draws (fun (_ : unit) (_ : seq C) n => Ok (nseq n (cubic_point C)))
             (fun _ _ n => Ok (nseq n [:: 2%:R; - 2%:R; 0])).
Proof.
move=> k ps n; exists (fun=> 2%:R); split=> [j|]; first by rewrite pnatr_eq0.
apply: (@eq_from_nth _ [::]) => [|j]; rewrite !size_nseq ?size_map ?size_iota // => jn.
by rewrite (nth_map 0%N) ?size_iota // nth_iota // add0n !nth_nseq jn /= mulr1 mulrN1 mulr0.
Qed.

(** ** C115: AlgebraicMetric.donaldson_step *)
Theorem step_of_samples : forall (C : numClosedFieldType) (D : grad_op C), diff_ok D -> forall lg ex : C -> C,
  forall (pi : C) m e (V : variety C) ps (Q : {mpoly C[m.+2]}),
  hypersurface V ps m e -> defined_by V ps Q -> 0 < pi -> smooth D V ps m ->
  forall (key : Type) (draw : key -> seq C -> nat -> res (seq (seq C))) k B,
  basis_for k Q B -> (0 < k)%N ->
  forall (splitn : key -> nat -> seq key) (h : 'M[C]_(size (power_matrix B))) vol kk batches bs zss W,
  rseq [seq draw k' ps bs | k' <- splitn kk batches] = Ok zss ->
  (forall zs, zs \in zss -> size zs = bs /\ points_on V ps m zs) ->
  (forall z, z \in flatten zss -> has_weight pi e Q z (W z)) -> hermitian h ->
  alg_donaldson_step D lg ex pi splitn m V draw true kk h ps vol batches bs =
    Ok (invmx (T_mean h vol W (flatten zss)))^T /\
  (posdef h -> 0 < vol ->
   (forall v : 'rV[C]_(size (power_matrix B)), v != 0 ->
      exists2 z, z \in flatten zss & \sum_a v 0 a * hom_sections B z 0 a != 0) ->
   exists H', [/\ alg_donaldson_step D lg ex pi splitn m V draw true kk h ps vol batches bs = Ok H', hermitian H', posdef H',
     forall a c, \sum_b T_mean h vol W (flatten zss) a b * H' c b = (a == c)%:R &
     vol = avg W (flatten zss) -> \tr (h *m invmx H') = (size (power_matrix B))%:R]).
Proof. exact step_main. Qed.
Print Assumptions step_of_samples.

(** ** C116: the sampler of the predefined varieties *)
Theorem poly_sampler : forall (C : numClosedFieldType) (norm : expr C -> expr C) order visit terms roots,
  norm_ok norm -> order_ok order -> visit_ok visit -> roots_ok roots ->
  forall (key : Type) (lines : key -> nat -> nat -> seq (seq C * seq C)) m (P : poly C) H V ps e k count,
  hom_ok P -> homogeneous P e -> hom_init P = Ok H -> variety_init norm H = Ok V ->
  variable_indices P = dim_indices [:: m.+2] -> size ps = size (parameters P) ->
  wf_params [:: lit "t"; lit "p"; lit "q"] (parameters P) ->
  (forall L, line_poly norm order visit P = Ok L ->
     terms_ok L (lit "t") (terms L (lit "t")) /\ terms_nonzero (terms L (lit "t"))) ->
  size (lines k (sample_count count m.+2) m.+2) = sample_count count m.+2 ->
  good_lines V ps m (lines k (sample_count count m.+2) m.+2) ->
  exists zs, [/\ poly_draw norm order visit terms roots lines P k ps count = Ok zs,
    size zs = minn count (e * sample_count count m.+2) & points_on V ps m zs].
Proof. exact poly_draw_main. Qed.
Print Assumptions poly_sampler.

Theorem dwork_sampler : forall (C : numClosedFieldType) (norm : expr C -> expr C) visit terms roots,
  norm_ok norm -> visit_ok visit -> roots_ok roots ->
  forall (key : Type) (lines : key -> nat -> nat -> seq (seq C * seq C)) m (f : dwork_factor C) c e k count,
  dwork_factor_value f \is Num.real ->
  dwork_sym m.+2 f (line_exprs C m.+2) [:: ESym (lit "psi")] = Ok e ->
  (forall L, line_poly_of norm visit m.+2 e [:: lit "psi"] = Ok L ->
     terms_ok L (lit "t") (terms L (lit "t")) /\ terms_nonzero (terms L (lit "t"))) ->
  size (lines k (sample_count count m.+2) m.+2) = sample_count count m.+2 ->
  good_lines (dwork_variety m f) [:: c] m (lines k (sample_count count m.+2) m.+2) ->
  exists zs, [/\ dwork_draw norm visit terms roots lines m f k [:: c] count = Ok zs,
    size zs = count & points_on (dwork_variety m f) [:: c] m zs].
Proof. exact dwork_samples. Qed.
Print Assumptions dwork_sampler.

Theorem fermat_sampler : forall (C : numClosedFieldType) (norm : expr C -> expr C) visit terms roots,
  norm_ok norm -> visit_ok visit -> roots_ok roots ->
  forall (key : Type) (lines : key -> nat -> nat -> seq (seq C * seq C)) m e k count,
  fermat_sym m.+2 (line_exprs C m.+2) = Ok e ->
  (forall L, line_poly_of norm visit m.+2 e [::] = Ok L ->
     terms_ok L (lit "t") (terms L (lit "t")) /\ terms_nonzero (terms L (lit "t"))) ->
  size (lines k (sample_count count m.+2) m.+2) = sample_count count m.+2 ->
  good_lines (fermat_variety C m) [::] m (lines k (sample_count count m.+2) m.+2) ->
  exists zs, [/\ fermat_draw norm visit terms roots lines m k [::] count = Ok zs,
    size zs = count & points_on (fermat_variety C m) [::] m zs].
Proof. exact fermat_samples. Qed.
Print Assumptions fermat_sampler.

(** ** C117: from the equation to the results *)
Theorem dwork_end_to_end : forall (C : numClosedFieldType) (D : grad_op C), diff_ok D ->
  forall (lg ex : C -> C) (pi : C), 0 < pi ->
  forall (norm : expr C -> expr C) visit terms roots, norm_ok norm -> visit_ok visit -> roots_ok roots ->
  forall (key : Type) (split : key -> key * key) (splitn : key -> nat -> seq key)
    (lines : key -> nat -> nat -> seq (seq C * seq C)) m,
  (forall k count, size (lines k count m.+2) = count) ->
  forall (f : dwork_factor C) psi e, dwork_factor_value f \is Num.real ->
  (dwork_factor_value f * psi) ^+ m.+2 <> (- m.+2%:R) ^+ m.+2 ->
  dwork_sym m.+2 f (line_exprs C m.+2) [:: ESym (lit "psi")] = Ok e ->
  (forall L, line_poly_of norm visit m.+2 e [:: lit "psi"] = Ok L ->
     terms_ok L (lit "t") (terms L (lit "t")) /\ terms_nonzero (terms L (lit "t"))) ->
  (forall k count, good_lines (dwork_variety m f) [:: psi] m (lines k count m.+2)) ->
  let V := dwork_variety m f in
  let draw := dwork_draw norm visit terms roots lines m f in
  [/\ forall k count, exists2 zs, sample_intersect D pi m V draw k [:: psi] count false false = Ok (OutHom zs) &
        size zs = count /\ points_on V [:: psi] m zs,
      forall k batches bs, (0 < batches)%N -> (0 < bs)%N ->
        exists v s, compute_vol D pi split m V draw k [:: psi] batches bs true = Ok (v, Some s) /\ 0 < v &
      forall k B (M : 'M[C]_(size (power_matrix B))), (0 < k)%N -> basis_full m.+1 k = Ok B -> hermitian M -> posdef M ->
      [/\ forall kk count, (0 < count)%N ->
            exists2 sg, alg_sigma_accuracy D lg ex pi m V draw kk [:: psi] (HMat M) count = Ok sg & 0 <= sg < 2%:R &
          forall kk vol batches bs,
            is_ok (alg_donaldson_step D lg ex pi splitn m V draw true kk M [:: psi] vol batches bs)]].
Proof. exact dwork_pipeline. Qed.
Print Assumptions dwork_end_to_end.

Theorem fermat_end_to_end : forall (C : numClosedFieldType) (D : grad_op C), diff_ok D ->
  forall (lg ex : C -> C) (pi : C), 0 < pi ->
  forall (norm : expr C -> expr C) visit terms roots, norm_ok norm -> visit_ok visit -> roots_ok roots ->
  forall (key : Type) (split : key -> key * key) (splitn : key -> nat -> seq key)
    (lines : key -> nat -> nat -> seq (seq C * seq C)) m,
  (forall k count, size (lines k count m.+2) = count) ->
  forall e, fermat_sym m.+2 (line_exprs C m.+2) = Ok e ->
  (forall L, line_poly_of norm visit m.+2 e [::] = Ok L ->
     terms_ok L (lit "t") (terms L (lit "t")) /\ terms_nonzero (terms L (lit "t"))) ->
  (forall k count, good_lines (fermat_variety C m) [::] m (lines k count m.+2)) ->
  let V := fermat_variety C m in
  let draw := fermat_draw norm visit terms roots lines m in
  [/\ forall k count, exists2 zs, sample_intersect D pi m V draw k [::] count false false = Ok (OutHom zs) &
        size zs = count /\ points_on V [::] m zs,
      forall k batches bs, (0 < batches)%N -> (0 < bs)%N ->
        exists v s, compute_vol D pi split m V draw k [::] batches bs true = Ok (v, Some s) /\ 0 < v &
      forall k B (M : 'M[C]_(size (power_matrix B))), (0 < k)%N -> basis_full m.+1 k = Ok B -> hermitian M -> posdef M ->
      [/\ forall kk count, (0 < count)%N ->
            exists2 sg, alg_sigma_accuracy D lg ex pi m V draw kk [::] (HMat M) count = Ok sg & 0 <= sg < 2%:R &
          forall kk vol batches bs,
            is_ok (alg_donaldson_step D lg ex pi splitn m V draw true kk M [::] vol batches bs)]].
Proof. exact fermat_pipeline. Qed.
Print Assumptions fermat_end_to_end.

(** The conic z0^2 + z1^2 on the line (1, 0) + t (0, 1): its two points are drawn. *)
Definition conic_terms (C : numClosedFieldType) : seq (nat * expr C) :=
  let p i := ESym (merge_subscript (lit "p") i) in
  let q i := ESym (merge_subscript (lit "q") i) in
  [:: (2%N, EAdd [:: EPow (q 0%Z) 2; EPow (q 1%Z) 2]);
      (1%N, EAdd [:: EMul [:: ENum 2%:R; p 0%Z; q 0%Z]; EMul [:: ENum 2%:R; p 1%Z; q 1%Z]]);
      (0%N, EAdd [:: EPow (p 0%Z) 2; EPow (p 1%Z) 2])].
Definition conic_lines (C : numClosedFieldType) (_ : unit) (count _ : nat) : seq (seq C * seq C) :=
  nseq count ([:: 1; 0], [:: 0; 1]).

Definition conic_eq (C : numClosedFieldType) : expr C :=
  EAdd [seq EPow x 2 | x <- line_exprs C 2].

Definition line_point (C : numClosedFieldType) (i : Z) : expr C :=
  EAdd [:: ESym (merge_subscript (lit "p") i); EMul [:: ESym (lit "t"); ESym (merge_subscript (lit "q") i)]].
Definition conic_line (C : numClosedFieldType) : poly C :=
  MkPoly [:: lit "t"; lit "p"; lit "q"] [:: None; Some [:: 0; 1]%Z; Some [:: 0; 1]%Z] [::]
    (SPoly [:: lit "t"; lit "p0"; lit "p1"; lit "q0"; lit "q1"] (EAdd [:: EPow (line_point C 0) 2; EPow (line_point C 1) 2])).

Example conic_line_eq (C : numClosedFieldType) :
  line_poly_of id (@esym_set C) 2 (conic_eq C) [::] = Ok (conic_line C).
Proof. by vm_compute. Qed.

Example conic_line_ex (C : numClosedFieldType) :
  fermat_sym 2 (line_exprs C 2) = Ok (conic_eq C) /\
  forall L, line_poly_of id (@esym_set C) 2 (conic_eq C) [::] = Ok L ->
    terms_ok L (lit "t") (conic_terms C) /\ terms_nonzero (conic_terms C).
Proof.
split; [by []|move=> L]; rewrite conic_line_eq => -[<-]; split; last first.
  have nz k : (k.+1%:R : C) != 0 by rewrite pnatr_eq0.
  move=> [|[|[|]]] // _; exists (fun=> 1); rewrite /= !(big_cons, big_nil).
  - by rewrite (_ : _ + _ = 2%:R) //; ring.
  - by rewrite (_ : _ + _ = 4%:R) //; ring.
  - by rewrite (_ : _ + _ = 2%:R) //; ring.
split=> // rho; rewrite /value /= !(big_cons, big_nil) /= !(big_cons, big_nil).
ring.
Qed.

Example conic_lines_ex (C : numClosedFieldType) k count :
  size (conic_lines C k count 2) = count /\ good_lines (fermat_variety C 0) [::] 0 (conic_lines C k count 2).
Proof.
split; first exact: size_nseq.
move=> pq; rewrite mem_nseq => /andP[_ /eqP ->].
exists (\row_(i < 2) nth 0 [:: 1; 0] i), (\row_(i < 2) nth 0 [:: 0; 1] i); split.
- by congr (_, _); apply: row_seq_eq => // i; rewrite mxE.
- by move=> y /rowP/(_ 0) /eqP; rewrite !mxE /= mulr0 oner_eq0.
exists (\sum_(x <- [:: 0; 1 : C]) x ^+ 2); last by rewrite !big_cons big_nil expr0n expr1n add0r addr0 oner_eq0.
rewrite (_ : row_seq _ = [:: 0; 1 : C]) //.
by symmetry; apply: row_seq_eq => // i; rewrite mxE.
Qed.

Example conic_sampled (C : numClosedFieldType) count :
  exists zs, [/\ fermat_draw id (@esym_set C) (fun _ _ => conic_terms C) (@closed_roots C) (@conic_lines C) 0 tt [::] count = Ok zs,
    size zs = count & points_on (fermat_variety C 0) [::] 0 zs].
Proof.
have nk : norm_ok (@id (expr C)) by split=> // e s.
have ov : visit_ok (@esym_set C) by move=> e; split; [exact: undup_uniq|exact: mem_undup].
have [E1 E2] := conic_line_ex C; have [l1 l2] := conic_lines_ex C tt (sample_count count 2).
exact: (fermat_sampler nk ov (@closed_roots_ok C) E1 E2 l1 l2).
Qed.

(** The Dwork family with n = 2: z0^2 + z1^2 - 5 psi z0 z1, psi = 1, on the same line *)
Definition pair_terms (C : numClosedFieldType) : seq (nat * expr C) :=
  let p i := ESym (merge_subscript (lit "p") i) in
  let q i := ESym (merge_subscript (lit "q") i) in
  let c := EMul [:: ENum (- 5%:R); ESym (lit "psi")] in
  [:: (2%N, EAdd [:: EPow (q 0%Z) 2; EPow (q 1%Z) 2; EMul [:: c; q 0%Z; q 1%Z]]);
      (1%N, EAdd [:: EMul [:: ENum 2%:R; p 0%Z; q 0%Z]; EMul [:: ENum 2%:R; p 1%Z; q 1%Z];
                     EMul [:: c; p 0%Z; q 1%Z]; EMul [:: c; p 1%Z; q 0%Z]]);
      (0%N, EAdd [:: EPow (p 0%Z) 2; EPow (p 1%Z) 2; EMul [:: c; p 0%Z; p 1%Z]])].

Definition pair_eq (C : numClosedFieldType) : expr C :=
  EAdd [:: EAdd [seq EPow x 2 | x <- line_exprs C 2];
           EMul [:: ENum (- 5%:R); ESym (lit "psi"); EMul (line_exprs C 2)]].
Definition pair_line (C : numClosedFieldType) : poly C :=
  MkPoly [:: lit "t"; lit "p"; lit "q"] [:: None; Some [:: 0; 1]%Z; Some [:: 0; 1]%Z] [:: lit "psi"]
    (SPoly [:: lit "t"; lit "p0"; lit "p1"; lit "q0"; lit "q1"]
       (EAdd [:: EAdd [:: EPow (line_point C 0) 2; EPow (line_point C 1) 2];
                 EMul [:: ENum (- 5%:R); ESym (lit "psi"); EMul [:: line_point C 0; line_point C 1]]])).

Example pair_line_eq (C : numClosedFieldType) :
  line_poly_of id (@esym_set C) 2 (pair_eq C) [:: lit "psi"] = Ok (pair_line C).
Proof. by vm_compute. Qed.

Example pair_line_ex (C : numClosedFieldType) L :
  line_poly_of id (@esym_set C) 2 (pair_eq C) [:: lit "psi"] = Ok L ->
  terms_ok L (lit "t") (pair_terms C) /\ terms_nonzero (pair_terms C).
Proof.
rewrite pair_line_eq => -[<-]; split; last first.
  have nz k : (- k.+1%:R : C) != 0 by rewrite oppr_eq0 pnatr_eq0.
  move=> [|[|[|]]] // _; exists (fun=> 1); rewrite /= !(big_cons, big_nil).
  - by rewrite (_ : _ + _ = - 3%:R) //; ring.
  - by rewrite (_ : _ + _ = - 6%:R) //; ring.
  - by rewrite (_ : _ + _ = - 3%:R) //; ring.
split=> // rho; rewrite /value /= !(big_cons, big_nil) /= !(big_cons, big_nil) /= ?(big_cons, big_nil).
ring.
Qed.

Example pair_ex (C : numClosedFieldType) :
  [/\ dwork_factor_value (FBool C true) \is Num.real,
      (dwork_factor_value (FBool C true) * 1) ^+ 2 <> (- 2%:R) ^+ 2,
      dwork_sym 2 (FBool C true) (line_exprs C 2) [:: ESym (lit "psi")] = Ok (pair_eq C) &
      forall k count, good_lines (dwork_variety 0 (FBool C true)) [:: 1] 0 (conic_lines C k count 2)].
Proof.
have r5 : (- 5%:R : C) \is Num.real by rewrite rpredN realn.
split=> //.
- by rewrite /= mulr1 !sqrrN -!natrX => /eqP; rewrite eqr_nat.
- by rewrite /dwork_sym /= /num_expr r5.
move=> k count pq; rewrite mem_nseq => /andP[_ /eqP ->].
exists (\row_(i < 2) nth 0 [:: 1; 0] i), (\row_(i < 2) nth 0 [:: 0; 1] i); split.
- by congr (_, _); apply: row_seq_eq => // i; rewrite mxE.
- by move=> y /rowP/(_ 0) /eqP; rewrite !mxE /= mulr0 oner_eq0.
exists (\sum_(x <- [:: 0; 1 : C]) x ^+ 2 + - 5%:R * 1 * \prod_(x <- [:: 0; 1 : C]) x).
  rewrite (_ : row_seq _ = [:: 0; 1 : C]) //.
  by symmetry; apply: row_seq_eq => // i; rewrite mxE.
by rewrite !big_cons !big_nil expr0n expr1n add0r addr0 mul0r mulr0 addr0 oner_eq0.
Qed.

(** The whole chain for this pair of points *)
Example pair_end_to_end (C : numClosedFieldType) (pi : C) : 0 < pi ->
  let V := dwork_variety 0 (FBool C true) in
  let draw := dwork_draw id (@esym_set C) (fun _ _ => pair_terms C) (@closed_roots C) (@conic_lines C) 0 (FBool C true) in
  exists v s, compute_vol (@choice_D C) pi (fun k => (k, k)) 0 V draw tt [:: 1] 3 4 true = Ok (v, Some s) /\ 0 < v.
Proof.
move=> pi0 V draw.
have nk : norm_ok (@id (expr C)) by split=> // e s.
have ov : visit_ok (@esym_set C) by move=> e; split; [exact: undup_uniq|exact: mem_undup].
have [p1 p2 p3 p4] := pair_ex C.
have sl k count : size (conic_lines C k count 2) = count by exact: size_nseq.
have [_ H _] := @dwork_end_to_end C _ (@choice_D_ok C) id id pi pi0 id (@esym_set C) (fun _ _ => pair_terms C) (@closed_roots C)
  nk ov (@closed_roots_ok C) unit (fun k => (k, k)) (fun k n => nseq n k) (@conic_lines C) 0%N sl (FBool C true) 1 (pair_eq C)
  p1 p2 p3 (@pair_line_ex C) p4.
exact: H.
Qed.

(** ** C118: the Dwork family with a factor which is not real cannot be sampled *)
Theorem dwork_complex_factor_refuted : forall (C : numClosedFieldType) (norm : expr C -> expr C) visit terms roots,
  norm_ok norm -> visit_ok visit -> (forall e, sympy_numbers e -> sympy_numbers (norm e)) ->
  forall (key : Type) (lines : key -> nat -> nat -> seq (seq C * seq C)) m (f : dwork_factor C) ps e k count,
  dwork_factor_value f \isn't Num.real ->
  dwork_sym m.+2 f (line_exprs C m.+2) [:: ESym (lit "psi")] = Ok e ->
  (forall L, line_poly_of norm visit m.+2 e [:: lit "psi"] = Ok L ->
     [/\ uniq (map fst (terms L (lit "t"))), all (fun t => sympy_numbers t.2) (terms L (lit "t")) &
         forall rho, value L rho = \sum_(t <- terms L (lit "t")) sem rho t.2 * rho (lit "t") ^+ t.1]) ->
  lines k (sample_count count m.+2) m.+2 <> [::] ->
  forall (D : grad_op C) pi affine want_weights, exists x,
    sample_intersect D pi m (dwork_variety m f) (dwork_draw norm visit terms roots lines m f) k ps count affine want_weights = Err x.
Proof. exact complex_sample. Qed.
Print Assumptions dwork_complex_factor_refuted.

(** z0^2 + z1^2 + i psi z0 z1, in the writing of sympy *)
Definition ipair_num (C : numClosedFieldType) : expr C := EAdd [:: ENum ('Re ('i : C)); EMul [:: ENum ('Im ('i : C)); EI]].
Definition ipair_terms (C : numClosedFieldType) : seq (nat * expr C) :=
  let p i := ESym (merge_subscript (lit "p") i) in
  let q i := ESym (merge_subscript (lit "q") i) in
  let c := EMul [:: ipair_num C; ESym (lit "psi")] in
  [:: (2%N, EAdd [:: EPow (q 0%Z) 2; EPow (q 1%Z) 2; EMul [:: c; q 0%Z; q 1%Z]]);
      (1%N, EAdd [:: EMul [:: ENum 2%:R; p 0%Z; q 0%Z]; EMul [:: ENum 2%:R; p 1%Z; q 1%Z];
                     EMul [:: c; p 0%Z; q 1%Z]; EMul [:: c; p 1%Z; q 0%Z]]);
      (0%N, EAdd [:: EPow (p 0%Z) 2; EPow (p 1%Z) 2; EMul [:: c; p 0%Z; p 1%Z]])].
Definition ipair_eq (C : numClosedFieldType) : expr C :=
  EAdd [:: EAdd [seq EPow x 2 | x <- line_exprs C 2];
           EMul [:: ipair_num C; ESym (lit "psi"); EMul (line_exprs C 2)]].
Definition ipair_line (C : numClosedFieldType) : poly C :=
  MkPoly [:: lit "t"; lit "p"; lit "q"] [:: None; Some [:: 0; 1]%Z; Some [:: 0; 1]%Z] [:: lit "psi"]
    (SPoly [:: lit "t"; lit "p0"; lit "p1"; lit "q0"; lit "q1"]
       (EAdd [:: EAdd [:: EPow (line_point C 0) 2; EPow (line_point C 1) 2];
                 EMul [:: ipair_num C; ESym (lit "psi"); EMul [:: line_point C 0; line_point C 1]]])).

Example i_not_real (C : numClosedFieldType) : ('i : C) \isn't Num.real.
Proof. by rewrite CrealE conjCi -subr_eq0 -opprD oppr_eq0 -mulr2n mulrn_eq0 /= neq0Ci. Qed.

Example ipair_line_eq (C : numClosedFieldType) :
  line_poly_of id (@esym_set C) 2 (ipair_eq C) [:: lit "psi"] = Ok (ipair_line C).
Proof. by vm_compute. Qed.

Example ipair_ex (C : numClosedFieldType) (D : grad_op C) pi affine want_weights : exists x,
  sample_intersect D pi 0 (dwork_variety 0 (FNum ('i : C)))
    (dwork_draw id (@esym_set C) (fun _ _ => ipair_terms C) (@closed_roots C) (@conic_lines C) 0 (FNum 'i))
    tt [:: 1] 4 affine want_weights = Err x.
Proof.
have nk : norm_ok (@id (expr C)) by split=> // e s.
have ov : visit_ok (@esym_set C) by move=> e; split; [exact: undup_uniq|exact: mem_undup].
have p1 : dwork_sym 2 (FNum 'i) (line_exprs C 2) [:: ESym (lit "psi")] = Ok (ipair_eq C).
  by rewrite /dwork_sym /num_expr (negbTE (i_not_real C)).
have p2 L : line_poly_of id (@esym_set C) 2 (ipair_eq C) [:: lit "psi"] = Ok L ->
    [/\ uniq (map fst (ipair_terms C)), all (fun t => sympy_numbers t.2) (ipair_terms C) &
       forall rho, value L rho = \sum_(t <- ipair_terms C) sem rho t.2 * rho (lit "t") ^+ t.1].
  rewrite ipair_line_eq => -[<-]; split; first by [].
    by rewrite /= !Creal_Re !Creal_Im realn.
  move=> rho; rewrite /value /= !(big_cons, big_nil) /= !(big_cons, big_nil) /= ?(big_cons, big_nil) /= ?(big_cons, big_nil).
  ring.
have p3 : conic_lines C tt (sample_count 4 2) 2 <> [::] by [].
exact (@dwork_complex_factor_refuted C id (@esym_set C) (fun _ _ => ipair_terms C) (@closed_roots C) nk ov (fun e h => h)
  unit (@conic_lines C) 0%N (FNum 'i) [:: 1] (ipair_eq C) tt 4%N (i_not_real C) p1 p2 p3 D pi affine want_weights).
Qed.
