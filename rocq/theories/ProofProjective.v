(** Lemmas about charts (ModelProjective.v). *)
From Coq Require Import ZArith Lia.
From mathcomp Require Import all_ssreflect all_algebra.
From mathcomp Require Import zify ring.
From Verif Require Import Base ModelUtil ModelProjective ProofUtil.
Delimit Scope Z_scope with Z.

Set Implicit Arguments.
Unset Strict Implicit.
Unset Printing Implicit Defensive.

Import GRing.Theory Num.Theory Order.POrderTheory.
Local Open Scope ring_scope.

(** Index conversions *)
Lemma index_lemma (n p : Z) : (0 <= p <= n)%Z ->
  [/\ forall i, (0 <= i < n)%Z ->
        (0 <= index_affine_to_hom p i <= n)%Z /\ index_affine_to_hom p i <> p /\
        index_hom_to_affine p (index_affine_to_hom p i) = i,
      forall h, (0 <= h <= n)%Z -> h <> p ->
        (0 <= index_hom_to_affine p h < n)%Z /\
        index_affine_to_hom p (index_hom_to_affine p h) = h &
      forall i j, (i < j)%Z -> (index_affine_to_hom p i < index_affine_to_hom p j)%Z].
Proof.
move=> Hp; rewrite /index_affine_to_hom /index_hom_to_affine; split.
- by move=> i Hi; do ![case: Z.leb_spec => ?]; repeat split; lia.
- by move=> h Hh hp; do ![case: Z.leb_spec => ?]; repeat split; lia.
- by move=> i j ij; do ![case: Z.leb_spec => ?]; lia.
Qed.

Section SeqNth.
Variable T : Type.
Implicit Type s : seq T.
(** Deleting and inserting one entry, by positions. *)
Definition del s i := take i s ++ drop i.+1 s.
Definition ins s i v := take i s ++ v :: drop i s.

Lemma size_del s i : (i < size s)%N -> size (del s i) = (size s).-1.
Proof. by move=> H; rewrite /del size_cat size_take H size_drop; lia. Qed.

Lemma size_ins s i v : (i <= size s)%N -> size (ins s i v) = (size s).+1.
Proof. by move=> H; rewrite /ins size_cat size_take /= size_drop; case: ltnP; lia. Qed.

Lemma nth_del x0 s i k : (i < size s)%N ->
  nth x0 (del s i) k = nth x0 s (if (k < i)%N then k else k.+1).
Proof.
move=> H; rewrite /del nth_cat size_take H; case: ltnP => ki.
  by rewrite nth_take.
by rewrite nth_drop; congr (nth _ _ _); lia.
Qed.

Lemma nth_ins x0 s i v k : (i <= size s)%N ->
  nth x0 (ins s i v) k =
  if (k < i)%N then nth x0 s k else if k == i then v else nth x0 s k.-1.
Proof.
move=> H; rewrite /ins nth_cat.
have -> : size (take i s) = i by rewrite size_take; case: ltngtP H => // ->.
case: ltnP => ki; first by rewrite nth_take.
case: eqVneq => [->|kni]; first by rewrite subnn.
have -> : (k - i = (k.-1 - i).+1)%N by lia.
by rewrite /= nth_drop; congr (nth _ _ _); lia.
Qed.

Lemma pop_del x0 s (i : nat) : (i < size s)%N ->
  pop s (Z.of_nat i) = Ok (nth x0 s i, del s i).
Proof. by move=> H; rewrite (pop_ok x0); [rewrite Nat2Z.id|lia]. Qed.

Lemma insert_ins s (i : nat) v : (i <= size s)%N ->
  insert_1d s [:: v] (Z.of_nat i) = ins s i v.
Proof. by move=> H; rewrite insert_1d_pos. Qed.

End SeqNth.

Lemma map_ins (T U : Type) (f : T -> U) s i v : map f (ins s i v) = ins (map f s) i (f v).
Proof. by rewrite /ins map_cat map_take /= map_drop. Qed.
Lemma map_del (T U : Type) (f : T -> U) s i : map f (del s i) = del (map f s) i.
Proof. by rewrite /del map_cat map_take map_drop. Qed.

Lemma ins_del (T : Type) x0 (s : seq T) i : (i < size s)%N -> ins (del s i) i (nth x0 s i) = s.
Proof.
move=> H; apply: (@eq_from_nth _ x0).
  by rewrite size_ins size_del //; lia.
rewrite size_ins ?size_del //; last by lia.
move=> k Hk; rewrite nth_ins ?size_del //; last by lia.
case: ltnP => ki; first by rewrite nth_del // ki.
case: eqVneq => [->//|kni]; rewrite nth_del //.
by case: ltnP; [lia|move=> _; congr (nth _ _ _); lia].
Qed.

Lemma del_ins (T : Type) (s : seq T) i v : (i <= size s)%N -> del (ins s i v) i = s.
Proof.
move=> H; have S := size_ins v H.
have st : size (take i s) = i by rewrite size_take; case: ltngtP H => // ->.
rewrite /del /ins take_cat st ltnn subnn take0 cats0 drop_cat st.
have -> : (i.+1 < i)%N = false by lia.
by rewrite subSnn /= drop0 cat_take_drop.
Qed.

Section Charts.
Variable F : fieldType.
Implicit Types (h z : seq F).

Lemma affine_to_homE z (p : nat) : (p <= size z)%N ->
  affine_to_hom z (Z.of_nat p) = ins z p 1.
Proof. exact: insert_ins. Qed.

Lemma hom_to_affineE h (p : nat) : (p < size h)%N ->
  hom_to_affine h (Z.of_nat p) = Ok [seq x / nth 0 h p | x <- del h p].
Proof. by move=> H; rewrite /hom_to_affine (pop_del 0). Qed.

Lemma map_div1 z : [seq x / 1 | x <- z] = z.
Proof. by rewrite -[RHS]map_id; apply: eq_map => x; rewrite divr1. Qed.

Lemma round1 z (p : nat) : (p <= size z)%N ->
  hom_to_affine (affine_to_hom z (Z.of_nat p)) (Z.of_nat p) = Ok z.
Proof.
move=> H; rewrite affine_to_homE // hom_to_affineE ?size_ins //.
by rewrite nth_ins // ltnn eqxx map_div1 del_ins.
Qed.

Lemma round2 h (p : nat) : (p < size h)%N -> nth 0 h p != 0 ->
  rmap (fun z => affine_to_hom z (Z.of_nat p)) (hom_to_affine h (Z.of_nat p)) =
  Ok [seq x / nth 0 h p | x <- h].
Proof.
move=> H nz; rewrite hom_to_affineE //= affine_to_homE; last first.
  by rewrite size_map size_del //; lia.
congr Ok; rewrite -[in RHS](ins_del 0 H) map_ins.
by rewrite nth_ins ?size_del ?ltnn ?eqxx ?divff //; lia.
Qed.

Lemma hom_to_affine_scale h (p : nat) c : (p < size h)%N -> c != 0 ->
  hom_to_affine [seq c * x | x <- h] (Z.of_nat p) = hom_to_affine h (Z.of_nat p).
Proof.
move=> H nz; rewrite !hom_to_affineE ?size_map //; congr Ok.
rewrite -map_del -map_comp (nth_map 0) //; apply: eq_map => x /=.
by rewrite -mulf_div divff // mul1r.
Qed.

Lemma nth_div s c k : nth 0 [seq x / c | x <- s] k = nth 0 s k / c :> F.
Proof.
case: (ltnP k (size s)) => H; first by rewrite (nth_map 0).
by rewrite !nth_default ?size_map // mul0r.
Qed.

Ltac ifs := repeat match goal with
  | |- context [if (?a < ?b)%N then _ else _] => case: (ltnP a b) => ?
  | |- context [if ?a == ?b :> nat then _ else _] => case: (eqVneq a b) => ?
  end.

Lemma change_chart_gen z (i j p q : nat) :
  (i <= size z)%N -> (j <= size z)%N ->
  ((i < j)%N /\ p = j.-1 /\ q = i) \/ ((j < i)%N /\ p = j /\ q = i.-1) ->
  ins [seq x / nth 0 z p | x <- del z p] q (nth 0 z p)^-1 =
  [seq x / nth 0 (ins z i 1) j | x <- del (ins z i 1) j].
Proof.
move=> Hi Hj H.
have pz : (p < size z)%N by lia.
have qz : (q <= size [seq (x / nth 0%R z p)%R | x <- del z p])%N.
  rewrite size_map size_del //; change (is_true (q <= (size z).-1)%N).
  by case: H => -[? [? ?]]; subst p q; lia.
have jz : (j < size (ins z i 1%R))%N by rewrite size_ins //.
apply: (@eq_from_nth _ 0).
  by rewrite size_ins // !size_map !size_del // size_ins //; case: (size z) pz.
move=> k Hk; rewrite nth_ins // !nth_div !nth_del // !nth_ins //.
by case: H => -[? [? ?]]; subst p q; case: (ltnP k j) => ?; ifs;
  rewrite ?mul1r //; try lia; congr (nth _ _ _ / nth _ _ _); lia.
Qed.

Lemma change_chartE z (i j : nat) : (i <= size z)%N -> (j <= size z)%N -> i <> j ->
  change_chart z (Z.of_nat i) (Z.of_nat j) =
  hom_to_affine (affine_to_hom z (Z.of_nat i)) (Z.of_nat j).
Proof.
move=> Hi Hj ij; rewrite affine_to_homE // hom_to_affineE ?size_ins //.
rewrite /change_chart /bool_int.
have [jl|jl] := ltnP i j.
- have -> : (Z.of_nat i <? Z.of_nat j)%Z = true by lia.
  have -> : (Z.of_nat j <? Z.of_nat i)%Z = false by lia.
  have -> : (Z.of_nat j - 1)%Z = Z.of_nat j.-1 by lia.
  rewrite Z.sub_0_r (pop_del 0) /=; last by lia.
  rewrite insert_ins; last by rewrite size_map size_del //; lia.
  by congr Ok; apply: change_chart_gen => //; left.
- have -> : (Z.of_nat i <? Z.of_nat j)%Z = false by lia.
  have -> : (Z.of_nat j <? Z.of_nat i)%Z = true by lia.
  have -> : (Z.of_nat i - 1)%Z = Z.of_nat i.-1 by lia.
  rewrite Z.sub_0_r (pop_del 0) /=; last by lia.
  rewrite insert_ins; last by rewrite size_map size_del //; lia.
  by congr Ok; apply: change_chart_gen => //; right; lia.
Qed.

(** The overlap condition: the coordinate that is divided by, z_j seen in patch i. *)
Definition overlap z (i j : nat) : bool := nth 0 (ins z i 1) j != 0.

Lemma change_chart_ok z (i j : nat) : (i <= size z)%N -> (j <= size z)%N -> i <> j ->
  exists w, change_chart z (Z.of_nat i) (Z.of_nat j) = Ok w /\ size w = size z /\
    (overlap z i j -> ins w j 1 = [seq x / nth 0 (ins z i 1) j | x <- ins z i 1]).
Proof.
move=> Hi Hj ij; rewrite change_chartE // affine_to_homE //.
have jz : (j < size (ins z i 1%R))%N by rewrite size_ins.
rewrite hom_to_affineE //; eexists; split; first by [].
split; first by rewrite size_map size_del // size_ins.
move=> ov; have := round2 jz ov; rewrite hom_to_affineE //= affine_to_homE //; last first.
  by rewrite size_map size_del // size_ins.
by case.
Qed.

Lemma hom_to_affine_div h (p : nat) c : (p < size h)%N -> c != 0 ->
  hom_to_affine [seq x / c | x <- h] (Z.of_nat p) = hom_to_affine h (Z.of_nat p).
Proof.
move=> H nz; rewrite -(hom_to_affine_scale H (invr_neq0 nz)).
by congr hom_to_affine; apply: eq_map => x; rewrite mulrC.
Qed.

Lemma change_chart_comp z (i j k : nat) :
  (i <= size z)%N -> (j <= size z)%N -> (k <= size z)%N -> i <> j -> j <> k -> i <> k ->
  overlap z i j ->
  rbind (change_chart z (Z.of_nat i) (Z.of_nat j))
        (fun w => change_chart w (Z.of_nat j) (Z.of_nat k)) =
  change_chart z (Z.of_nat i) (Z.of_nat k).
Proof.
move=> Hi Hj Hk ij jk ik ov.
have [w [E [sw H]]] := change_chart_ok Hi Hj ij.
rewrite E /= change_chartE ?sw // affine_to_homE ?sw // H //.
rewrite hom_to_affine_div // ?size_ins //.
by rewrite change_chartE // affine_to_homE.
Qed.

Lemma change_chart_back z (i j : nat) :
  (i <= size z)%N -> (j <= size z)%N -> i <> j -> overlap z i j ->
  rbind (change_chart z (Z.of_nat i) (Z.of_nat j))
        (fun w => change_chart w (Z.of_nat j) (Z.of_nat i)) = Ok z.
Proof.
move=> Hi Hj ij ov.
have [w [E [sw H]]] := change_chart_ok Hi Hj ij.
rewrite E /= change_chartE ?sw //; last by move=> e; apply: ij.
rewrite affine_to_homE ?sw // H // hom_to_affine_div ?size_ins //.
by rewrite -affine_to_homE // round1.
Qed.

(** Same patch: coordinate q = p mod n is replaced by its inverse. *)
Lemma change_chart_same z (p : nat) (q := (p %% size z)%N) : (0 < size z)%N ->
  (p <= size z)%N ->
  change_chart z (Z.of_nat p) (Z.of_nat p) =
  Ok [seq if k == q then (nth 0 z q)^-1 else nth 0 z k / nth 0 z q
     | k <- iota 0 (size z)].
Proof.
move=> n0 Hp; rewrite /change_chart /bool_int Z.ltb_irrefl Z.sub_0_r.
rewrite (pop_gen 0); last by rewrite -lt0n.
have qn : (q < size z)%N by rewrite /q ltn_mod.
have -> : (Z.of_nat p mod Z.of_nat (size z) = Z.of_nat q)%Z.
  symmetry; apply: (Z.mod_unique _ _ (Z.of_nat (p %/ size z)%N)); first by lia.
  by have := divn_eq p (size z); rewrite -/q; nia.
rewrite Nat2Z.id.
rewrite -/(del z q) /=; congr Ok.
set c := nth 0 z q; set f := fun x => x / c.
rewrite map_roll; set R := map f (del z q).
have sR : size R = (size z).-1 by rewrite size_map size_del.
have -> : insert_1d (roll R (Z.of_nat p / Z.of_nat (size z))) [:: c^-1] (Z.of_nat p)
   = ins R q c^-1.
  move: Hp; rewrite leq_eqVlt => /orP[/eqP e|lt].
    have -> : (Z.of_nat p / Z.of_nat (size z) = 1)%Z by rewrite e Z.div_same //; lia.
    have q0 : q = 0%N by rewrite /q e modnn.
    rewrite /insert_1d; have -> : (Z.of_nat p <? 0)%Z = false by lia.
    rewrite roll_roll.
    have -> : roll R (1 + - Z.of_nat p) = R.
      rewrite -[RHS]roll0; apply: roll_eqmod; rewrite sR.
      have -> : (1 + - Z.of_nat p = 0 + (-1) * Z.of_nat (size z).-1)%Z by lia.
      by rewrite Z_mod_plus_full.
    rewrite q0 /ins take0 drop0 /=.
    rewrite -[c^-1 :: R]/([:: c^-1] ++ R) -[RHS]roll_cat_l; apply: roll_eqmod.
    rewrite size_cat sR /=.
    have -> : (Z.of_nat p + 1 = 1 + 1 * Z.of_nat ((size z).-1 + 1))%Z by lia.
    by rewrite Z_mod_plus_full.
  have -> : (Z.of_nat p / Z.of_nat (size z) = 0)%Z by rewrite Z.div_small //; lia.
  by rewrite roll0 insert_ins ?sR /q ?modn_small //; lia.
apply: (@eq_from_nth _ 0).
  by rewrite size_ins ?sR ?size_map ?size_iota //; lia.
rewrite size_ins ?sR; last by lia.
move=> k Hk; rewrite (nth_map 0%N) ?size_iota; last by lia.
rewrite nth_iota ?add0n; last by lia.
rewrite nth_ins ?sR; last by lia.
rewrite /R /f !nth_div !nth_del //.
have [e|ne] := eqVneq k q; first by rewrite e ltnn.
by ifs; congr (nth _ _ _ / _); lia.
Qed.

Lemma change_chart_same_fix z (p : nat) (q := (p %% size z)%N) : (0 < size z)%N ->
  (p <= size z)%N -> nth 0 z q != 0 ->
  change_chart z (Z.of_nat p) (Z.of_nat p) = Ok z <->
  nth 0 z q = 1 \/
  (nth 0 z q = -1 /\ forall k, (k < size z)%N -> k <> q -> nth 0 z k = nth 0 z k * -1).
Proof.
move=> n0 Hp nz; rewrite change_chart_same // -/q.
have qn : (q < size z)%N by rewrite /q ltn_mod.
split.
  case=> E.
  have H k : (k < size z)%N -> nth 0 z k =
      if k == q then (nth 0 z q)^-1 else nth 0 z k / nth 0 z q.
    by move=> kn; rewrite -{1}E (nth_map 0%N) ?size_iota // nth_iota.
  have := H q qn; rewrite eqxx => Eq.
  have : nth 0 z q ^+ 2 == 1 by rewrite expr2 {2}Eq divff.
  rewrite sqrf_eq1 => /orP[/eqP ->|/eqP Em]; first by left.
  right; split=> // k kn kq; have := H k kn.
  case: eqVneq => // _; rewrite Em invrN invr1 => {1}->.
  by [].
move=> H; congr Ok; apply: (@eq_from_nth _ 0); first by rewrite size_map size_iota.
rewrite size_map size_iota => k kn; rewrite (nth_map 0%N) ?size_iota // nth_iota // add0n.
case: eqVneq => [->|kq]; case: H => [->|[Em H]]; rewrite ?invr1 ?mulr1 //.
  by rewrite Em invrN invr1.
by rewrite Em invrN invr1 -H //; apply/eqP.
Qed.
End Charts.

Section ArgmaxP.
Variable R : numDomainType.
Implicit Type s : seq R.

Lemma argmax_fromP x ib i s (pre : seq R) :
  (forall y, y \in pre ++ s -> y \is Num.real) ->
  size pre = i -> (ib < i)%N -> nth 0 pre ib = x ->
  (forall j, (j < i)%N -> nth 0 pre j <= x) ->
  (forall j, (j < ib)%N -> nth 0 pre j < x) ->
  let m := argmax_from x ib i s in
  let t := pre ++ s in
  [/\ (m < size t)%N,
      forall j, (j < size t)%N -> nth 0 t j <= nth 0 t m &
      forall j, (j < m)%N -> nth 0 t j < nth 0 t m].
Proof.
elim: s x ib i pre => [|y s IH] x ib i pre re sz ibi Ex Hle Hlt /=.
  by rewrite cats0 sz Ex; split.
have rx : x \is Num.real by rewrite -Ex; apply: re; rewrite mem_cat mem_nth ?sz.
have ry : y \is Num.real by apply: re; rewrite mem_cat inE eqxx orbT.
have Ecat : pre ++ y :: s = rcons pre y ++ s by rewrite cat_rcons.
rewrite Ecat; case: ifP => xy.
  apply: IH.
  - by rewrite -Ecat.
  - by rewrite size_rcons sz.
  - by [].
  - by rewrite nth_rcons sz ltnn eqxx.
  - move=> j; rewrite ltnS leq_eqVlt => /orP[/eqP ->|ji].
      by rewrite nth_rcons sz ltnn eqxx.
    by rewrite nth_rcons sz ji (le_trans (Hle _ ji)) // ltW.
  - move=> j ji; rewrite nth_rcons sz ji; exact: (le_lt_trans (Hle _ ji)).
have yx : y <= x by rewrite real_leNgt // xy.
apply: IH.
- by rewrite -Ecat.
- by rewrite size_rcons sz.
- exact: ltnW.
- by rewrite nth_rcons sz ibi.
- move=> j; rewrite ltnS leq_eqVlt => /orP[/eqP ->|ji].
    by rewrite nth_rcons sz ltnn eqxx.
  by rewrite nth_rcons sz ji; apply: Hle.
- move=> j jib; rewrite nth_rcons sz (ltn_trans jib ibi); exact: Hlt.
Qed.

Lemma argmaxP s : s != [::] -> (forall y, y \in s -> y \is Num.real) ->
  exists m, argmax s = Ok m /\
  [/\ (m < size s)%N,
      forall j, (j < size s)%N -> nth 0 s j <= nth 0 s m &
      forall j, (j < m)%N -> nth 0 s j < nth 0 s m].
Proof.
case: s => // x s _ re; eexists; split; first by [].
apply: (@argmax_fromP x 0 1 s [:: x]) => //.
by move=> [|j].
Qed.
End ArgmaxP.

Lemma skip_lt k p n : (k < n.-1)%N -> (p < n)%N ->
  ((if (k < p)%N then k else k.+1) < n)%N /\ (if (k < p)%N then k else k.+1) <> p.
Proof. by move=> *; case: (ltnP k p); split; lia. Qed.

Lemma unskip_lt j p n : (j < n)%N -> j <> p -> (p < n)%N ->
  let k := if (j < p)%N then j else j.-1 in
  (k < n.-1)%N /\ (if (k < p)%N then k else k.+1) = j.
Proof.
move=> ? ? ? k; rewrite /k; case: (ltnP j p) => H; first by rewrite H; lia.
by case: (ltnP j.-1 p) => ?; lia.
Qed.

Section Auto.
Variable C : numClosedFieldType.

Lemma auto_lemma (h : seq C) : has (fun x => x != 0) h ->
  exists z p, hom_to_affine_auto h = Ok (z, p) /\
  [/\ (p < size h)%N, nth 0 h p != 0,
     (forall j, (j < size h)%N -> `|nth 0 h j| <= `|nth 0 h p|),
     (forall j, (j < p)%N -> `|nth 0 h j| < `|nth 0 h p|) &
     [/\ affine_to_hom z (Z.of_nat p) = [seq x / nth 0 h p | x <- h],
         (forall x, x \in z -> `|x| <= 1) &
         ((forall x, x \in z -> `|x| < 1) <->
          (forall j, (j < size h)%N -> j <> p -> `|nth 0 h j| < `|nth 0 h p|))]].
Proof.
move=> nz.
have ne : [seq `|x| | x <- h] != [::] by case: h nz.
have re y : y \in [seq `|x| | x <- h] -> y \is Num.real.
  by move=> /mapP[x _ ->]; exact: normr_real.
have [p [E [pn Hle Hlt]]] := argmaxP ne re.
rewrite size_map in pn Hle.
have nthn j : nth 0 [seq `|x| | x <- h] j = `|nth 0 h j|.
  case: (ltnP j (size h)) => H; first by rewrite (nth_map 0).
  by rewrite !nth_default ?size_map // normr0.
have Hle' j : (j < size h)%N -> `|nth 0 h j| <= `|nth 0 h p|.
  by move=> jn; rewrite -!nthn Hle.
have p0 : nth 0 h p != 0.
  case/hasP: nz => x /(nthP 0)[j jn <-] xn0.
  rewrite -normr_gt0 (lt_le_trans _ (Hle' j jn)) // normr_gt0 //.
have A := hom_to_affineE pn.
exists [seq x / nth 0 h p | x <- del h p], p.
rewrite /hom_to_affine_auto E /= A /=; split=> //; split=> //.
  by move=> j jp; rewrite -!nthn Hlt.
have np : 0 < `|nth 0 h p| by rewrite normr_gt0.
have memd x : x \in [seq x / nth 0 h p | x <- del h p] ->
   exists2 j, (j < size h)%N /\ j <> p & x = nth 0 h j / nth 0 h p.
  move=> /mapP[y /(nthP 0)[k]]; rewrite size_del // => kn <- ->.
  exists (if (k < p)%N then k else k.+1); last by rewrite nth_del.
  exact: skip_lt.
split.
- by have := round2 pn p0; rewrite A /= => -[].
- move=> x /memd[j [jn jp] ->]; rewrite normrM normfV ler_pdivr_mulr // mul1r.
  exact: Hle'.
split=> H.
- move=> j jn jp.
  have jm : nth 0 h j / nth 0 h p \in [seq x / nth 0 h p | x <- del h p].
    apply: map_f; apply/(nthP 0).
    have [k1 k2] := unskip_lt jn jp pn.
    by exists (if (j < p)%N then j else j.-1); rewrite ?size_del ?nth_del ?k2.
  by have := H _ jm; rewrite normrM normfV ltr_pdivr_mulr // mul1r.
- move=> x /memd[j [jn jp] ->]; rewrite normrM normfV ltr_pdivr_mulr // mul1r.
  exact: H.
Qed.
End Auto.
