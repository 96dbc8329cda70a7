(** Random points: the overlap of two affine patches. *)
From Coq Require Import ZArith Reals Lra Psatz.
From mathcomp Require Import all_ssreflect all_algebra.
From mathcomp Require Import complex zify ssrZ.
From Verif Require Import Base ModelUtil ModelProjective RealField ComplexR ModelRandom SpecRandom Bridge
  ProofProjective ProofRandom.
Delimit Scope Z_scope with Z.

Set Implicit Arguments.
Unset Strict Implicit.
Unset Printing Implicit Defensive.

Import GRing.Theory Num.Theory Order.POrderTheory.
Local Open Scope ring_scope.
Delimit Scope R_scope with RR.

(** radii *)
Lemma rad_0E P u : (0 < P)%RR -> rad_0 P u = exp ((2 * u - 1) * ln P).
Proof.
move=> P0; rewrite /rad_0 /log_rad_min /Rdiv Rmult_1_l ln_Rinv //; congr exp; ring.
Qed.
Lemma rad_0_gt0 P u : (0 < rad_0 P u)%RR. Proof. exact: exp_pos. Qed.
Lemma rad_0_flip P u : (0 < P)%RR -> rad_0 P (1 - u) = (/ rad_0 P u)%RR.
Proof. by move=> P0; rewrite !rad_0E // -exp_Ropp; congr exp; ring. Qed.
Lemma ln_ge0 P : (1 <= P)%RR -> (0 <= ln P)%RR.
Proof.
move=> h; case: (Rle_lt_or_eq_dec _ _ h) => [h1|<-]; last by rewrite ln_1; lra.
by rewrite -ln_1; apply: Rlt_le; apply: ln_increasing; lra.
Qed.
Lemma rad_0_range P u : (1 <= P)%RR -> (0 <= u <= 1)%RR -> (/ P <= rad_0 P u <= P)%RR.
Proof.
move=> P1 u01; have P0 : (0 < P)%RR by lra.
have l0 := ln_ge0 P1; have e := exp_ln P P0.
have le_exp x y : (x <= y)%RR -> (exp x <= exp y)%RR.
  by case=> [/exp_increasing|->]; lra.
rewrite rad_0E //; split; last by rewrite -[X in (_ <= X)%RR]e; apply: le_exp; nra.
have -> : (/ P = exp (- ln P))%RR by rewrite exp_Ropp e.
by apply: le_exp; nra.
Qed.
Lemma rad_0_inj P u v : (1 < P)%RR -> rad_0 P u = rad_0 P v -> u = v.
Proof.
move=> P1; have P0 : (0 < P)%RR by lra.
have l0 : (0 < ln P)%RR by rewrite -ln_1; apply: ln_increasing; lra.
by rewrite !rad_0E // => /exp_inv e; nra.
Qed.

Lemma rad_max_gt0 P x : (0 < P)%RR -> (0 < x)%RR -> (0 < rad_max P x)%RR.
Proof. by move=> P0 x0; rewrite /rad_max; apply: Rmin_pos => //; nra. Qed.
Lemma rad_max_div P x : (0 < P)%RR -> (0 < x)%RR -> (rad_max P x / x = rad_max P (/ x))%RR.
Proof.
move=> P0 x0; rewrite /rad_max /Rmin; have xi := Rinv_0_lt_compat _ x0.
have xx : (x * / x = 1)%RR by apply: Rinv_r; lra.
case: Rle_dec => h1; case: Rle_dec => h2; rewrite /Rdiv; [|by rewrite Rmult_assoc xx; lra|by []|].
- have : (x <= 1)%RR by nra.
  have : (/ x <= 1)%RR by nra.
  move=> a b; have : (x = 1)%RR by nra.
  by move=> ->; rewrite Rinv_1; lra.
- have : (1 < x)%RR by nra.
  have : (1 < / x)%RR by nra.
  by move=> a b; nra.
Qed.

Lemma sqrt_le1 r : (r <= 1)%RR -> (0 <= sqrt r <= 1)%RR.
Proof.
move=> h; split; first exact: sqrt_pos.
by rewrite -[X in (_ <= X)%RR]sqrt_1; apply: sqrt_le_1_alt.
Qed.

Lemma rad_max_le P x : (rad_max P x <= P)%RR /\ (rad_max P x <= P * x)%RR.
Proof. by rewrite /rad_max; split; [exact: Rmin_r | exact: Rmin_l]. Qed.

(** index of the homogeneous coordinate h in the chart p *)
Definition loc (p h : nat) := if (h < p)%N then h else h.-1.

Lemma loc_lt n p m : (m <= n)%N -> (p <= n)%N -> m <> p -> (loc p m < n)%N.
Proof. by move=> *; rewrite /loc; case: (ltnP m p) => ?; lia. Qed.
Lemma loc_eq p m q : m <> p -> q <> p -> (loc p m == loc p q) = (m == q).
Proof. by move=> *; rewrite /loc; apply/eqP/eqP; case: (ltnP m p) => ?; case: (ltnP q p) => ?; lia. Qed.

Lemma index_loc (p h : nat) : p <> h -> index_hom_to_affine (Z.of_nat p) (Z.of_nat h) = Z.of_nat (loc p h).
Proof.
move=> ph; rewrite /index_hom_to_affine /loc /bool_int.
case: (ltnP h p) => k.
  by have -> : (Z.of_nat p <=? Z.of_nat h)%Z = false by apply/Z.leb_gt; lia.
have -> : (Z.of_nat p <=? Z.of_nat h)%Z = true by apply/Z.leb_le; lia.
lia.
Qed.

Section Overlap.
Variables (dim i j : nat) (P : R) (r a : seq R).
Hypotheses (sr : size r = dim) (sa : size a = dim) (id : (i <= dim)%N) (jd : (j <= dim)%N) (ij : i <> j).
Hypothesis P0 : (0 < P)%RR.
Local Notation z := (projective_overlap dim (Z.of_nat i) (Z.of_nat j) P r a).
Local Notation o := (loc i j).
Local Notation r0 := (rad_0 P (nth R0 r 0)).

Lemma dim_gt0 : (0 < dim)%N. Proof. lia. Qed.
Lemma o_lt : (o < dim)%N. Proof. by apply: loc_lt => //; apply/nesym. Qed.

Lemma at_set_nat (T : Type) (x0 : T) s k v : (k < size s)%N ->
  at_set x0 s (Z.of_nat k) v = set_nth x0 s k v.
Proof.
move=> h; rewrite /at_set.
have -> : (Z.of_nat k <? 0)%Z = false by apply/Z.ltb_ge; lia.
have -> : (0 <=? Z.of_nat k)%Z = true by apply/Z.leb_le; lia.
have -> : (Z.of_nat k <? Z.of_nat (size s))%Z = true by apply/Z.ltb_lt; lia.
by rewrite /= Nat2Z.id.
Qed.

Lemma overlap_eq : z = [seq rc ra.1 * phase ra.2 |
  ra <- zip (set_nth R0 [seq (rad_max P r0 * sqrt x)%RR | x <- r] o r0) a].
Proof.
rewrite /projective_overlap; have -> : (dim == 0)%N = false by have := dim_gt0; lia.
by rewrite index_loc // at_set_nat // size_map sr o_lt.
Qed.

Lemma size_overlap : size z = dim.
Proof.
rewrite overlap_eq size_map size_zip size_set_nth size_map sr sa.
by rewrite (maxn_idPr o_lt) minnn.
Qed.

Lemma nth_overlap k : (k < dim)%N ->
  nth 0 z k = rc (if k == o then r0 else (rad_max P r0 * sqrt (nth R0 r k))%RR) * phase (nth R0 a k).
Proof.
move=> kd; have ss : size (set_nth R0 [seq (rad_max P r0 * sqrt x)%RR | x <- r] o r0) = dim.
  by rewrite size_set_nth size_map sr (maxn_idPr o_lt).
rewrite overlap_eq (nth_map (R0, R0)) ?size_zip ?ss ?sa ?minnn // nth_zip ?ss ?sa //=.
by rewrite nth_set_nth /=; case: eqP => // _; rewrite (nth_map R0) // sr.
Qed.

Lemma overlap_modulus k : (k < dim)%N ->
  modulus (nth 0 z k) = (if k == o then r0 else (rad_max P r0 * sqrt (nth R0 r k))%RR).
Proof.
move=> kd; rewrite nth_overlap // modulus_polar Rabs_pos_eq //.
have := rad_0_gt0 P (nth R0 r 0); have := sqrt_pos (nth R0 r k).
by move=> a1 a2; have := rad_max_gt0 P0 a2; case: eqP => _ a3; nra.
Qed.

(** homogeneous coordinates of the point *)
Local Notation h := (ins z i 1).
Lemma hom_modulus m : (m <= dim)%N ->
  modulus (nth 0 h m) = (if m == i then 1%RR else if m == j then r0
    else (rad_max P r0 * sqrt (nth R0 r (loc i m)))%RR).
Proof.
move=> md; rewrite nth_ins ?size_overlap //; have ne := nesym ij.
have m1 : modulus (1 : CR) = 1%RR by rewrite -rc1 modulus_rc Rabs_R1.
case: (ltngtP m i) => mi; last by rewrite m1.
  have {1}-> : m = loc i m by rewrite /loc mi.
  by rewrite overlap_modulus ?loc_lt ?loc_eq //; lia.
have {1}-> : m.-1 = loc i m by rewrite /loc ltnNge (ltnW mi).
by rewrite overlap_modulus ?loc_lt ?loc_eq //; lia.
Qed.

Lemma hom_other_neq0 : nth 0 h j != 0.
Proof.
apply/eqP => e; have := hom_modulus jd; rewrite e eqxx.
have -> : (j == i) = false by apply/eqP; lia.
have -> : modulus 0 = R0 by rewrite -rc0 modulus_rc Rabs_R0.
by move=> e2; have := rad_0_gt0 P (nth R0 r 0); rewrite -e2; exact: Rlt_irrefl.
Qed.

Lemma image_overlap : exists w, [/\ change_chart z (Z.of_nat i) (Z.of_nat j) = Ok w, size w = dim &
  forall m, (m <= dim)%N -> m <> j -> nth 0 w (loc j m) = nth 0 h m / nth 0 h j].
Proof.
have iz : (i <= size z)%N by rewrite size_overlap.
have jz : (j <= size z)%N by rewrite size_overlap.
rewrite change_chartE // affine_to_homE // hom_to_affineE ?size_ins //.
have sh : size h = dim.+1 by rewrite size_ins // size_overlap.
eexists; split; [by []|by rewrite size_map size_del ?sh|].
move=> m md mj; rewrite nth_div nth_del ?sh //; congr (nth _ _ _ / _); rewrite /loc.
by case: (ltnP m j) => h1; [rewrite h1 | have -> : (m.-1 < j)%N = false by lia]; lia.
Qed.

Lemma modulus_div (x y : CR) : y != 0 -> modulus (x / y) = (modulus x / modulus y)%RR.
Proof.
move=> y0; have yp : (0 < modulus y)%RR by apply/modulus_gt0.
have -> : modulus x = (modulus (x / y) * modulus y)%RR by rewrite -normM_modulus divfK.
by field; lra.
Qed.

Lemma image_modulus : exists w, [/\ change_chart z (Z.of_nat i) (Z.of_nat j) = Ok w, size w = dim &
  forall m, (m <= dim)%N -> m <> j -> modulus (nth 0 w (loc j m)) =
   (if m == i then / r0 else rad_max P (/ r0) * sqrt (nth R0 r (loc i m)))%RR].
Proof.
have [w [E sw H]] := image_overlap; exists w; split=> // m md mj.
rewrite H // modulus_div ?hom_other_neq0 // !hom_modulus // eqxx.
have -> : (m == j) = false by apply/eqP.
have -> : (j == i) = false by apply/eqP; lia.
have p := rad_0_gt0 P (nth R0 r 0); rewrite -rad_max_div //.
by case: eqP => _; field; lra.
Qed.
End Overlap.

(** every coordinate of the overlap point and of its image has modulus at most P *)
Lemma overlap_box dim i j P r a : size r = dim -> size a = dim -> (i <= dim)%N -> (j <= dim)%N -> i <> j ->
  (1 <= P)%RR -> (forall x, x \in r -> (0 <= x < 1)%RR) ->
  let z := projective_overlap dim (Z.of_nat i) (Z.of_nat j) P r a in
  exists w, [/\ size z = dim, change_chart z (Z.of_nat i) (Z.of_nat j) = Ok w, size w = dim,
    (forall k, (k < dim)%N -> (modulus (nth 0%R z k) <= P)%RR /\ (modulus (nth 0%R w k) <= P)%RR) &
    (/ P <= modulus (nth 0%R (affine_to_hom z (Z.of_nat i)) j))%RR].
Proof.
move=> sr sa id jd ij P1 hr z; have P0 : (0 < P)%RR by lra.
have [w [E sw H]] := image_modulus sr sa id jd ij P0.
have r0r : (0 <= nth R0 r 0 < 1)%RR by apply: hr; apply: mem_nth; rewrite sr; lia.
have Rr : (/ P <= rad_0 P (nth R0 r 0) <= P)%RR by apply: rad_0_range => //; lra.
have R0p := rad_0_gt0 P (nth R0 r 0).
have Ip : (/ rad_0 P (nth R0 r 0) <= P)%RR.
  rewrite -[X in (_ <= X)%RR]Rinv_involutive; [|lra]; apply: Rinv_le_contravar; [|lra].
  by apply: Rinv_0_lt_compat; lra.
have bnd k x : (0 < x)%RR -> (k < dim)%N -> (rad_max P x * sqrt (nth R0 r k) <= P)%RR.
  move=> x0 kd; have : (0 <= nth R0 r k < 1)%RR by apply: hr; apply: mem_nth; rewrite sr.
  move=> [_ /Rlt_le /sqrt_le1 s]; have := rad_max_gt0 P0 x0; have [? _] := rad_max_le P x; nra.
exists w; split=> //; first exact: size_overlap.
- move=> k kd; split.
    rewrite overlap_modulus //; case: eqP => _; first by lra.
    exact: bnd.
  have [m [md mj ->]] : exists m, [/\ (m <= dim)%N, m <> j & k = loc j m].
    exists (if (k < j)%N then k else k.+1); rewrite /loc.
    case: (ltnP k j) => h; first by rewrite h; split; lia.
    have -> : (k.+1 < j)%N = false by lia.
    by split; lia.
  rewrite H //; case: eqP => mi; first exact: Ip.
  apply: bnd; first by apply: Rinv_0_lt_compat.
  by apply: loc_lt.
- rewrite affine_to_homE ?size_overlap // hom_modulus //.
  have -> : (j == i) = false by apply/eqP; lia.
  by rewrite eqxx; case: Rr.
Qed.

Section Flip.
Variables (dim : nat) (P : R).
Hypothesis P0 : (0 < P)%RR.

Definition pair01 (i j : nat) := (i = 0%N /\ j = 1%N) \/ (i = 1%N /\ j = 0%N).

Lemma overlap01 i j r0 rs a0 l : pair01 i j -> size rs = dim -> size l = dim ->
  projective_overlap dim.+1 (Z.of_nat i) (Z.of_nat j) P (r0 :: rs) (a0 :: l) =
  rc (rad_0 P r0) * phase a0 ::
  [seq rc (rad_max P (rad_0 P r0) * sqrt ra.1)%RR * phase ra.2 | ra <- zip rs l].
Proof.
move=> h sr sl; rewrite overlap_eq; try by [rewrite /= ?sr ?sl]; try by case: h => -[? ?]; subst i j.
have -> : loc i j = 0%N by case: h => -[-> ->].
rewrite /=; congr cons.
by elim: rs l {sr sl h} => [|x rs IH] [|y l] //=; rewrite IH.
Qed.

Lemma change01 (z0 : CR) zs i j : pair01 i j ->
  change_chart (z0 :: zs) (Z.of_nat i) (Z.of_nat j) = Ok (z0^-1 :: [seq x / z0 | x <- zs]).
Proof.
move=> h; rewrite change_chartE ?affine_to_homE ?hom_to_affineE ?size_ins //; try by case: h => -[? ?]; subst i j.
by congr Ok; case: h => -[-> ->]; rewrite /ins /del /= ?take0 ?drop0 /= ?div1r.
Qed.

Lemma flip_image i j r a : pair01 i j -> size r = dim.+1 -> size a = dim.+1 ->
  change_chart (projective_overlap dim.+1 (Z.of_nat i) (Z.of_nat j) P r a) (Z.of_nat i) (Z.of_nat j) =
  Ok (projective_overlap dim.+1 (Z.of_nat j) (Z.of_nat i) P (flip_r r) (flip_a a)).
Proof.
case: r => // r0 rs; case: a => // a0 l h [sr] [sl].
have h' : pair01 j i by case: h => -[-> ->]; [right|left].
rewrite overlap01 // change01 // overlap01 ?size_map //; congr (Ok (_ :: _)).
  have p := rad_0_gt0 P r0; rewrite phase_frac phaseN rad_0_flip // rcV ?invfM //; lra.
rewrite -map_comp; elim: rs l {sr sl h h'} => [|x rs IH] [|y l] //=; rewrite IH; congr cons.
have p := rad_0_gt0 P r0; rewrite phase_frac phaseD phaseN rad_0_flip // -rad_max_div // /Rdiv invfM.
rewrite !rcM rcV; last lra.
by move: (rc (rad_max _ _)) (rc (sqrt _)) (phase y) ((phase a0)^-1) (rc _)^-1 => A B D E F;
   rewrite -!mulrA; congr (_ * _); rewrite !mulrA [F * B]mulrC -!mulrA; congr (_ * _); rewrite mulrCA.
Qed.

Lemma frac_id x : (0 <= x < 1)%RR -> frac_part x = x.
Proof.
move=> h; rewrite /frac_part /Int_part; have : up x = 1%Z.
  by apply: esym; apply: tech_up; rewrite /=; lra.
by move=> ->; rewrite /=; lra.
Qed.

Lemma frac_int x k : frac_part (x + IZR k)%RR = frac_part x.
Proof.
have [b1 b2] := base_fp x; rewrite -[in RHS](frac_id (x := frac_part x)); last by lra.
rewrite /frac_part /Int_part.
have e : up (x + IZR k) = (up x + k)%Z.
  have [u1 u2] := archimed x.
  by apply: esym; apply: tech_up; rewrite plus_IZR; lra.
have e' : up (x - IZR (up x - 1)) = 1%Z.
  have [u1 u2] := archimed x.
  apply: esym; apply: tech_up; rewrite minus_IZR /=; move: b1 b2; rewrite /frac_part /Int_part minus_IZR /=; lra.
by rewrite e e' !minus_IZR plus_IZR /=; lra.
Qed.

Lemma flip_r_inv r : flip_r (flip_r r) = r.
Proof. by case: r => //= x r; congr cons; lra. Qed.

Lemma flip_a_inv a : (forall x, x \in a -> (0 <= x < 1)%RR) -> flip_a (flip_a a) = a.
Proof.
case: a => //= a0 l h; have h0 : (0 <= a0 < 1)%RR by apply: h; rewrite inE eqxx.
have E x : (0 <= x < 1)%RR -> frac_part (frac_part (x - a0) - frac_part (- a0)) = x.
  move=> hx; rewrite -[RHS]frac_id //.
  rewrite /frac_part.
  have -> : (x - a0 - IZR (Int_part (x - a0)) - (- a0 - IZR (Int_part (- a0))) =
             x + IZR (Int_part (- a0) - Int_part (x - a0)))%RR by rewrite minus_IZR; lra.
  exact: frac_int.
congr cons.
  rewrite -[RHS]frac_id // {2}/frac_part.
  have -> : (- (- a0 - IZR (Int_part (- a0))) = a0 + IZR (Int_part (- a0)))%RR by lra.
  exact: frac_int.
rewrite -map_comp -[RHS]map_id; apply/eq_in_map => x xl /=; apply: E; apply: h.
by rewrite inE xl orbT.
Qed.

Lemma flip_a_range a x : x \in flip_a a -> (0 <= x < 1)%RR.
Proof.
have f y : (0 <= frac_part y < 1)%RR by have [b1 b2] := base_fp y; split; [apply: Rge_le|].
by case: a => //= a0 l; rewrite inE => /orP[/eqP -> //|/mapP[y _ ->]].
Qed.
End Flip.

(** other pairs of patches *)
Section Refute.
Variables (dim i j : nat) (P : R) (r a r' a' : seq R).
Hypotheses (sr : size r = dim) (sa : size a = dim) (sr' : size r' = dim) (sa' : size a' = dim).
Hypotheses (id : (i <= dim)%N) (jd : (j <= dim)%N) (ij : i <> j) (P1 : (1 < P)%RR).
Hypotheses (hr : forall x, x \in r -> (0 <= x < 1)%RR) (hr' : forall x, x \in r' -> (0 <= x < 1)%RR).
Hypothesis E : change_chart (projective_overlap dim (Z.of_nat i) (Z.of_nat j) P r a) (Z.of_nat i) (Z.of_nat j) =
  Ok (projective_overlap dim (Z.of_nat j) (Z.of_nat i) P r' a').

Lemma P0' : (0 < P)%RR. Proof. lra. Qed.

Lemma image_r0 : nth R0 r' 0 = (1 - nth R0 r 0)%RR.
Proof.
have P0 := P0'; have [w [Ew _ H]] := image_modulus sr sa id jd ij P0.
have ew : projective_overlap dim (Z.of_nat j) (Z.of_nat i) P r' a' = w by move: Ew; rewrite E => -[].
have := H i id ij; rewrite -ew overlap_modulus ?eqxx //; [|lia|by have := @o_lt dim j i; apply; lia].
rewrite -rad_0_flip //; exact: rad_0_inj.
Qed.

Lemma image_rk m : (m <= dim)%N -> m <> i -> m <> j ->
  nth R0 r' (loc j m) = nth R0 r (loc i m).
Proof.
move=> md mi mj.
have P0 := P0'; have [w [Ew _ H]] := image_modulus sr sa id jd ij P0.
have ew : projective_overlap dim (Z.of_nat j) (Z.of_nat i) P r' a' = w by move: Ew; rewrite E => -[].
have := H m md mj; rewrite -ew overlap_modulus //; [|lia|by apply: loc_lt].
have -> : (loc j m == loc j i) = false by rewrite loc_eq //; apply/eqP.
have -> : (m == i) = false by apply/eqP.
rewrite image_r0 rad_0_flip //.
have pp := Rinv_0_lt_compat _ (rad_0_gt0 P (nth R0 r 0)).
have q := rad_max_gt0 P0 pp.
move=> e; have {e} : sqrt (nth R0 r' (loc j m)) = sqrt (nth R0 r (loc i m)) by apply: (Rmult_eq_reg_l _ _ _ e); lra.
move=> e; apply: sqrt_inj => //.
  by have [] : (0 <= nth R0 r' (loc j m) < 1)%RR by apply: hr'; apply: mem_nth; rewrite sr' loc_lt.
by have [] : (0 <= nth R0 r (loc i m) < 1)%RR by apply: hr; apply: mem_nth; rewrite sr loc_lt.
Qed.

Lemma image_half : (0 < i)%N -> (0 < j)%N -> nth R0 r 0 = (1 / 2)%RR.
Proof.
move=> i0 j0; have := @image_rk 0; rewrite /loc i0 j0 image_r0 => h.
have : (1 - nth R0 r 0 = nth R0 r 0)%RR by apply: h; lia.
by move=> e; lra.
Qed.

Lemma image_first : (1 < i)%N -> j = 0%N -> nth R0 r 1 = (1 - nth R0 r 0)%RR.
Proof.
move=> i0 j0; have := @image_rk 1; rewrite /loc i0 j0 /= image_r0 => <- //; lia.
Qed.
End Refute.

(** coverage of the overlap region *)
Definition draw_angle (z : CR) : R := frac_part (arg z / (2 * PI))%RR.
Lemma draw_angleP (z : CR) : (0 <= draw_angle z < 1)%RR /\ z = rc (modulus z) * phase (draw_angle z).
Proof.
split; first by have [b1 b2] := base_fp (arg z / (2 * PI)); split; [apply: Rge_le|].
case: (eqVneq z 0) => [->|z0].
  by rewrite -{2}rc0 modulus_rc Rabs_R0 rc0 mul0r.
have mz : (0 < modulus z)%RR by apply/modulus_gt0.
have pi0 := PI_RGT_0.
rewrite phase_frac -[LHS]cexp_clog // /phase.
have -> : (2 * PI * (arg z / (2 * PI)))%RR = arg z by field; lra.
have e : exp (ln (modulus z)) = modulus z by apply: exp_ln.
by rewrite /cexp; apply: CR_eq; rewrite ReImE /= exp_0 e -?[GRing.zero _]/R0; ring.
Qed.

Lemma overlap_cover dim i j P (z : seq CR) : (i <= dim)%N -> (j <= dim)%N -> i <> j -> (1 < P)%RR ->
  loc i j = 0%N -> size z = dim ->
  (/ P <= modulus (nth 0%R z 0) < P)%RR ->
  (forall k, (0 < k < dim)%N -> (modulus (nth 0%R z k) < P)%RR /\
     (modulus (nth 0%R z k) < P * modulus (nth 0%R z 0))%RR) ->
  exists r a, [/\ size r = dim, size a = dim,
    forall x, x \in r -> (0 <= x < 1)%RR, forall x, x \in a -> (0 <= x < 1)%RR &
    projective_overlap dim (Z.of_nat i) (Z.of_nat j) P r a = z].
Proof.
move=> id jd ij P1 o0 sz b0 bk; have P0 : (0 < P)%RR by lra.
have l0 : (0 < ln P)%RR by rewrite -ln_1; apply: ln_increasing; lra.
have Pi := Rinv_0_lt_compat _ P0.
set m0 := modulus (nth 0%R z 0) in b0 bk; have m0p : (0 < m0)%RR by lra.
have rp := rad_max_gt0 P0 m0p.
pose r0 := ((ln m0 / ln P + 1) / 2)%RR.
pose rk k := if k == 0%N then r0 else Rsqr (modulus (nth 0%R z k) / rad_max P m0)%RR.
have rad0 : rad_0 P r0 = m0.
  rewrite rad_0E // /r0.
  have -> : ((2 * ((ln m0 / ln P + 1) / 2) - 1) * ln P)%RR = ln m0 by field; lra.
  exact: exp_ln.
exists [seq rk k | k <- iota 0 dim], [seq draw_angle x | x <- z].
have rkr k : (k < dim)%N -> (0 <= rk k < 1)%RR.
  move=> kd; rewrite /rk; case: eqP => k0.
    have lm : (- ln P <= ln m0 < ln P)%RR.
      split; last by apply: ln_increasing; lra.
      rewrite -ln_Rinv //; case: (Rle_lt_or_eq_dec _ _ (proj1 b0)) => [h|<-]; last by lra.
      by apply: Rlt_le; apply: ln_increasing.
    have : (-1 <= ln m0 / ln P < 1)%RR.
      split; last by apply: (Rmult_lt_reg_r (ln P)) => //; rewrite /Rdiv Rmult_assoc Rinv_l; lra.
      by apply: (Rmult_le_reg_r (ln P)) => //; rewrite /Rdiv Rmult_assoc Rinv_l; lra.
    by rewrite /r0; lra.
  have [h1 h2] := bk k ltac:(lia).
  have h3 : (modulus (nth 0%R z k) < rad_max P m0)%RR by rewrite /rad_max; apply: Rmin_glb_lt.
  have h4 : (0 <= modulus (nth 0%R z k))%RR by apply: sqrt_pos.
  split; first exact: Rle_0_sqr.
  have rpi := Rinv_0_lt_compat _ rp.
  have h5 : (modulus (nth 0%R z k) / rad_max P m0 < 1)%RR.
    by apply: (Rmult_lt_reg_r (rad_max P m0)) => //; rewrite /Rdiv Rmult_assoc Rinv_l; lra.
  have h6 : (0 <= modulus (nth 0%R z k) / rad_max P m0)%RR by rewrite /Rdiv; nra.
  by rewrite /Rsqr; nra.
have s1 : size [seq rk k | k <- iota 0 dim] = dim by rewrite size_map size_iota.
have s2 : size [seq draw_angle x | x <- z] = dim by rewrite size_map.
have d0 : (0 < dim)%N by lia.
split=> //.
- by move=> x /mapP[k]; rewrite mem_iota add0n => /andP[_ kd] ->; apply: rkr.
- by move=> x /mapP[y _ ->]; have [] := draw_angleP y.
have n0 : nth R0 [seq rk k | k <- iota 0 dim] 0 = r0 by rewrite (nth_map 0%N) ?size_iota // nth_iota.
apply: (@eq_from_nth _ 0); rewrite size_overlap // => k kd.
rewrite nth_overlap // o0 n0 rad0 (nth_map 0%N) ?size_iota // nth_iota // add0n (nth_map 0) ?sz //.
have [_ e] := draw_angleP (nth 0 z k); rewrite [RHS]e; congr (rc _ * _).
rewrite /rk; case: eqP => [-> //|k0].
rewrite sqrt_Rsqr; first by field; lra.
have h4 : (0 <= modulus (nth 0%R z k))%RR by apply: sqrt_pos.
by have rpi := Rinv_0_lt_compat _ rp; rewrite /Rdiv; nra.
Qed.

(** otherwise the modulus of coordinate 0 is a function of that of the other coordinate *)
Lemma overlap_degenerate dim i j P r a r' a' :
  size r = dim -> size a = dim -> size r' = dim -> size a' = dim ->
  (i <= dim)%N -> (j <= dim)%N -> i <> j -> (1 < P)%RR -> loc i j <> 0%N ->
  let z := projective_overlap dim (Z.of_nat i) (Z.of_nat j) P r a in
  let z' := projective_overlap dim (Z.of_nat i) (Z.of_nat j) P r' a' in
  modulus (nth 0 z (loc i j)) = modulus (nth 0 z' (loc i j)) -> modulus (nth 0 z 0) = modulus (nth 0 z' 0).
Proof.
move=> sr sa sr' sa' id jd ij P1 o0 z z'; have P0 : (0 < P)%RR by lra.
have d0 : (0 < dim)%N by lia.
have ol := o_lt id jd ij.
have f0 : (0%N == loc i j) = false by apply/eqP; lia.
rewrite /z /z' (overlap_modulus sr sa id jd ij P0 ol) (overlap_modulus sr' sa' id jd ij P0 ol) eqxx.
move=> /(rad_0_inj P1) e.
by rewrite (overlap_modulus sr sa id jd ij P0 d0) (overlap_modulus sr' sa' id jd ij P0 d0) f0 e.
Qed.

(** forms used by the claims *)
Lemma hom_other dim i j (z : seq CR) : size z = dim -> (i <= dim)%N -> (j <= dim)%N -> i <> j ->
  nth 0 (affine_to_hom z (Z.of_nat i)) j = nth 0 z (loc i j).
Proof.
move=> sz id jd ij; rewrite affine_to_homE ?sz // nth_ins ?sz // /loc.
by case: (ltngtP j i) => h //; case: ij.
Qed.

Lemma loc0 i j : i <> j -> loc i j = 0%N <-> j = 0%N \/ (i = 0%N /\ j = 1%N).
Proof. by move=> ij; rewrite /loc; case: (ltnP j i) => h; split=> [|[|[]]]; lia. Qed.

Lemma cover_claim dim i j P (z : seq CR) : (i <= dim)%N -> (j <= dim)%N -> i <> j -> (1 < P)%RR ->
  j = 0%N \/ (i = 0%N /\ j = 1%N) -> size z = dim ->
  (/ P <= modulus (nth 0%R z 0) < P)%RR ->
  (forall k, (0 < k < dim)%N -> (modulus (nth 0%R z k) < P)%RR /\
     (modulus (nth 0%R z k) < P * modulus (nth 0%R z 0))%RR) ->
  exists r a, [/\ size r = dim, size a = dim,
    forall x, x \in r -> (0 <= x < 1)%RR, forall x, x \in a -> (0 <= x < 1)%RR &
    projective_overlap dim (Z.of_nat i) (Z.of_nat j) P r a = z].
Proof. by move=> id jd ij P1 h; apply: overlap_cover => //; apply/loc0. Qed.

Lemma degenerate_claim dim i j P r a r' a' :
  size r = dim -> size a = dim -> size r' = dim -> size a' = dim ->
  (i <= dim)%N -> (0 < j <= dim)%N -> i <> j -> (1 < P)%RR -> ~ (i = 0%N /\ j = 1%N) ->
  let z := projective_overlap dim (Z.of_nat i) (Z.of_nat j) P r a in
  let z' := projective_overlap dim (Z.of_nat i) (Z.of_nat j) P r' a' in
  modulus (nth 0 (affine_to_hom z (Z.of_nat i)) j) = modulus (nth 0 (affine_to_hom z' (Z.of_nat i)) j) ->
  modulus (nth 0 z 0) = modulus (nth 0 z' 0).
Proof.
move=> sr sa sr' sa' id /andP[j0 jd] ij P1 h z z'; have P0 : (0 < P)%RR by lra.
rewrite !(@hom_other dim) ?size_overlap //; apply: overlap_degenerate => // /(loc0 ij); lia.
Qed.

Lemma flip_claim dim P i j r a : (0 < P)%RR -> (i = 0%N /\ j = 1%N) \/ (i = 1%N /\ j = 0%N) ->
  size r = dim.+1 -> size a = dim.+1 ->
  change_chart (projective_overlap dim.+1 (Z.of_nat i) (Z.of_nat j) P r a) (Z.of_nat i) (Z.of_nat j) =
  Ok (projective_overlap dim.+1 (Z.of_nat j) (Z.of_nat i) P (flip_r r) (flip_a a)).
Proof. by move=> P0; apply: flip_image. Qed.

Lemma flip_draw r a : (forall x, x \in r -> (0 <= x < 1)%RR) -> (forall x, x \in a -> (0 <= x < 1)%RR) ->
  (0 < head R1 r)%RR ->
  [/\ forall x, x \in flip_r r -> (0 <= x < 1)%RR, forall x, x \in flip_a a -> (0 <= x < 1)%RR,
      size (flip_r r) = size r, size (flip_a a) = size a & flip_r (flip_r r) = r /\ flip_a (flip_a a) = a].
Proof.
move=> hr ha h0; split; last by rewrite flip_r_inv flip_a_inv.
- case: r hr h0 => //= x r hr h0 y; rewrite inE => /orP[/eqP ->|yr].
    by have := hr x; rewrite inE eqxx => /(_ isT); lra.
  by apply: hr; rewrite inE yr orbT.
- by move=> x; apply: flip_a_range.
- by case: r {hr h0}.
- by case: a {ha} => //= x a; rewrite size_map.
Qed.

Lemma symmetric_refuted dim i j P r a :
  size r = dim -> size a = dim -> (forall x, x \in r -> (0 <= x < 1)%RR) ->
  (i <= dim)%N -> (j <= dim)%N -> i <> j -> (1 < P)%RR ->
  ((0 < i)%N /\ (0 < j)%N /\ nth R0 r 0 <> (1 / 2)%RR) \/
  ((1 < i)%N /\ j = 0%N /\ nth R0 r 1 <> (1 - nth R0 r 0)%RR) ->
  forall r' a', size r' = dim -> size a' = dim -> (forall x, x \in r' -> (0 <= x < 1)%RR) ->
  change_chart (projective_overlap dim (Z.of_nat i) (Z.of_nat j) P r a) (Z.of_nat i) (Z.of_nat j) <>
  Ok (projective_overlap dim (Z.of_nat j) (Z.of_nat i) P r' a').
Proof.
move=> sr sa hr id jd ij P1 h r' a' sr' sa' hr' E.
case: h => [[i0 [j0]]|[i1 [j0]]]; apply.
  exact: (image_half sr sa sr' sa' id jd ij P1 hr hr' E).
exact: (image_first sr sa sr' sa' id jd ij P1 hr hr' E).
Qed.

Lemma angle_claim m M a u : (0 <= m <= M)%RR -> (0 <= u < 1)%RR ->
  let z := uniform_angle m M a u in
  (m <= modulus z <= M)%RR /\ z = rc (modulus z) * cexp (Complex R0 (2 * PI * a)%RR).
Proof. by move=> [h1 h2] h' z; split; [apply: angle_range | apply: angle_polar]. Qed.

Lemma phase_inj a b : (0 <= a < 1)%RR -> (0 <= b < 1)%RR -> phase a = phase b -> a = b.
Proof.
move=> ha hb e; have := congr1 re e; have := congr1 im e; rewrite /= exp_0 !Rmult_1_l.
have pi0 := PI_RGT_0; have pn : PI <> R0 by lra.
move=> es ec.
have s0 : sin (2 * PI * a - 2 * PI * b) = R0 by rewrite sin_minus es ec; ring.
have c1 : cos (2 * PI * a - 2 * PI * b) = R1.
  by rewrite cos_minus es ec; have := sin2_cos2 (2 * PI * b); rewrite /Rsqr; lra.
have [k kE] := sin_eq_0_0 _ s0.
have e2 : (2 * (a - b) = IZR k)%RR by apply: (Rmult_eq_reg_r PI) => //; lra.
have k1 : (-2 < k)%Z by apply: lt_IZR; lra.
have k2 : (k < 2)%Z by apply: lt_IZR; lra.
have : k = 0%Z \/ k = 1%Z \/ k = (-1)%Z by lia.
case=> [k0|[k0|k0]]; move: kE e2; rewrite k0 => kE e2; first by lra.
  by move: c1; rewrite kE Rmult_1_l cos_PI; lra.
by move: c1; rewrite kE -cos_neg; have -> : (- (-1 * PI) = PI)%RR by [ring]; rewrite cos_PI; lra.
Qed.

Lemma angle_unit_claim :
  (forall a, modulus (uniform_angle_unit a) = R1) /\
  (forall z : CR, modulus z = R1 -> exists a, (0 <= a < 1)%RR /\ uniform_angle_unit a = z) /\
  (forall a b, (0 <= a < 1)%RR -> (0 <= b < 1)%RR -> uniform_angle_unit a = uniform_angle_unit b -> a = b).
Proof.
split; first exact: modulus_phase.
split; last exact: phase_inj.
move=> z hz; exists (draw_angle z); have [h e] := draw_angleP z; split=> //.
by rewrite [RHS]e hz rc1 mul1r.
Qed.

Lemma angle_ex : uniform_angle 1 3 0 (3 / 8) = Complex 2%RR R0.
Proof.
rewrite /uniform_angle.
have -> : (1 * 1 + 3 / 8 * (3 * 3 - 1 * 1) = 2 * 2)%RR by field.
by rewrite sqrt_square; [rewrite phase0 mulr1 | lra].
Qed.

Lemma sphere_ex : real_sphere [:: 3; 4]%RR = [:: 3 / 5; 4 / 5]%RR.
Proof.
rewrite /real_sphere /rnorm /=.
have -> : (3 * 3 + (4 * 4 + 0) = 5 * 5)%RR by ring.
by rewrite sqrt_square; [|lra].
Qed.

Lemma ov_ex : projective_overlap 2 0 1 2 [:: 1 / 2; 1 / 4]%RR [:: 0; 0]%RR = [:: 1; 1].
Proof.
have -> : Z0 = Z.of_nat 0 by [].
have -> : 1%Z = Z.of_nat 1 by [].
rewrite overlap01 //; last by left.
have e1 : rad_0 2 (1 / 2) = 1%RR.
  by rewrite rad_0E; [rewrite -exp_0; congr exp; field | lra].
rewrite e1 /= phase0 !mulr1; congr [:: _; _].
have -> : (1 / 4 = 1 / 2 * (1 / 2))%RR by field.
rewrite sqrt_square; last lra.
have -> : rad_max 2 1 = 2%RR by rewrite /rad_max Rmult_1_r Rmin_left //; lra.
by rewrite -rc1; congr rc; field.
Qed.
