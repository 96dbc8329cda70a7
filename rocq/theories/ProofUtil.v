(** Lemmas about ModelUtil.v *)
From Coq Require Import ZArith Lia.
From mathcomp Require Import all_ssreflect.
From mathcomp Require Import zify.
From Verif Require Import Base ModelUtil.

Set Implicit Arguments.
Unset Strict Implicit.
Unset Printing Implicit Defensive.

Section RollLemmas.
Variable T : Type.
Implicit Types (s arr val : seq T).

Lemma roll_nil k : roll [::] k = [::] :> seq T. Proof. by []. Qed.

Lemma size_roll s k : size (roll s k) = size s.
Proof. by rewrite /roll; case: ifP => // _; rewrite size_rot. Qed.

Lemma rollE s k : size s != 0 ->
  roll s k = rot (Z.to_nat ((- k) mod Z.of_nat (size s))) s.
Proof. by rewrite /roll => /negbTE ->. Qed.

Lemma modZ_bound (a : Z) (n : nat) : n != 0 ->
  (0 <= a mod Z.of_nat n < Z.of_nat n)%Z.
Proof. by move=> n0; apply: Z.mod_pos_bound; lia. Qed.

Lemma roll_eqmod s a b : (a mod Z.of_nat (size s) = b mod Z.of_nat (size s))%Z ->
  roll s a = roll s b.
Proof.
case: (eqVneq (size s) 0) => [/size0nil -> //|n0 H].
rewrite !rollE //; congr (rot (Z.to_nat _) s).
set n := Z.of_nat (size s) in H *.
have nz : n <> 0%Z by rewrite /n; lia.
have -> : (- a = 0 - a)%Z by lia. have -> : (- b = 0 - b)%Z by lia.
by rewrite Zminus_mod H -Zminus_mod.
Qed.

Lemma roll_rot s k : k <= size s -> roll s (- Z.of_nat k) = rot k s.
Proof.
case: (eqVneq (size s) 0) => [/size0nil -> /=|n0 kn]; first by rewrite roll_nil.
rewrite rollE // Z.opp_involutive.
move: kn; rewrite leq_eqVlt => /orP[/eqP ->|kn].
  by rewrite Z.mod_same ?rot0 ?rot_size //; lia.
by rewrite Z.mod_small; [congr (rot _ s); lia|lia].
Qed.

Lemma roll_repr s a : size s != 0 ->
  exists2 k, k < size s & roll s a = rot k s /\
    (- Z.of_nat k mod Z.of_nat (size s) = a mod Z.of_nat (size s))%Z.
Proof.
move=> n0; exists (Z.to_nat ((- a) mod Z.of_nat (size s))).
  by have := modZ_bound (- a) n0; lia.
split; first exact: rollE.
have B := modZ_bound (- a) n0.
rewrite Z2Nat.id; last by lia.
have -> : (- ((- a) mod Z.of_nat (size s)) = 0 - ((- a) mod Z.of_nat (size s)))%Z by lia.
rewrite Zminus_mod_idemp_r; congr (_ mod _)%Z; lia.
Qed.

Lemma roll_roll s a b : roll (roll s a) b = roll s (a + b).
Proof.
case: (eqVneq (size s) 0) => [/size0nil ->|n0]; first by rewrite !roll_nil.
have [ka kan [-> Ha]] := roll_repr a n0.
have n0' : size (rot ka s) != 0 by rewrite size_rot.
have [kb kbn [-> Hb]] := roll_repr b n0'.
rewrite size_rot in kbn Hb.
rewrite rot_add_mod; [|by apply: ltnW|by apply: ltnW].
have -> : roll s (a + b) = roll s (- Z.of_nat (kb + ka)).
  apply: roll_eqmod; rewrite Zplus_mod -Ha -Hb -Zplus_mod; congr (_ mod _)%Z; lia.
case: ifP => H; first by rewrite -roll_rot.
rewrite -roll_rot; last by lia.
apply: roll_eqmod.
have -> : (- Z.of_nat (kb + ka) = - Z.of_nat (kb + ka - size s) + (-1) * Z.of_nat (size s))%Z by lia.
by rewrite Z_mod_plus_full.
Qed.

Lemma roll0 s : roll s 0 = s.
Proof. by rewrite -[0%Z]/(- Z.of_nat 0)%Z roll_rot // rot0. Qed.

Lemma roll_cat_l s t : roll (s ++ t) (Z.of_nat (size t)) = t ++ s.
Proof.
have -> : roll (s ++ t) (Z.of_nat (size t)) = roll (s ++ t) (- Z.of_nat (size s)).
  apply: roll_eqmod; rewrite size_cat.
  have -> : Z.of_nat (size t) = (- Z.of_nat (size s) + 1 * Z.of_nat (size s + size t))%Z by lia.
  by rewrite Z_mod_plus_full.
by rewrite roll_rot ?size_cat ?leq_addr // rot_size_cat.
Qed.

Lemma roll_cat_r s t : roll (s ++ t) (- Z.of_nat (size s)) = t ++ s.
Proof. by rewrite roll_rot ?size_cat ?leq_addr // rot_size_cat. Qed.

(** The general law of [pop]. *)
Lemma pop_gen x0 s (i : Z) (n := Z.of_nat (size s)) (r := Z.to_nat (i mod n)) :
  size s != 0 ->
  pop s i = Ok (nth x0 s r, roll (take r s ++ drop r.+1 s) (i / n)).
Proof.
move=> n0; rewrite /pop.
have B := modZ_bound i n0; rewrite -/n in B.
have rn : r < size s by rewrite /r; lia.
have -> : roll s (- i) = rot r s.
  rewrite -roll_rot; last by lia.
  apply: roll_eqmod; rewrite -/n /r Z2Nat.id; last by lia.
  have -> : (- (i mod n) = 0 - (i mod n))%Z by lia.
  by rewrite Zminus_mod_idemp_r.
rewrite /rot (drop_nth x0) //=; congr (Ok (_, _)).
set R := take r s ++ drop r.+1 s.
have sr : size (take r s) = r by rewrite size_take rn.
have -> : drop r.+1 s ++ take r s = roll R (- Z.of_nat r).
  by rewrite -sr /R roll_cat_r sr.
rewrite roll_roll; apply: roll_eqmod.
have sR : Z.of_nat (size R) = (n - 1)%Z.
  by rewrite /R size_cat sr size_drop /n; lia.
rewrite sR.
have -> : (- Z.of_nat r + i = i / n + (i / n) * (n - 1))%Z.
  have := Z.div_mod i n; rewrite /r Z2Nat.id; last by lia.
  by move=> H; rewrite {2}H; [ring|rewrite /n; lia].
by rewrite Z_mod_plus_full.
Qed.

Lemma pop_ok x0 s (i : Z) : (0 <= i < Z.of_nat (size s))%Z ->
  pop s i = Ok (nth x0 s (Z.to_nat i), take (Z.to_nat i) s ++ drop (Z.to_nat i).+1 s).
Proof.
move=> H; rewrite (pop_gen x0); last by lia.
by rewrite Z.mod_small // Z.div_small // roll0.
Qed.

Lemma pop_nil i : pop [::] i = Err IndexError :> res (T * seq T).
Proof. by []. Qed.

Lemma pop_neg x0 s (i : Z) (r := Z.to_nat (i + Z.of_nat (size s))) :
  (- Z.of_nat (size s) <= i < 0)%Z ->
  pop s i = Ok (nth x0 s r, rot 1 (take r s ++ drop r.+1 s)).
Proof.
move=> H; rewrite (pop_gen x0); last by lia.
have Hd : (i / Z.of_nat (size s) = -1)%Z by symmetry; apply: (Z.div_unique _ _ _ (i + Z.of_nat (size s))); lia.
have Hm : (i mod Z.of_nat (size s) = i + Z.of_nat (size s))%Z by symmetry; apply: (Z.mod_unique _ _ (-1)); lia.
rewrite Hd Hm -/r; congr (Ok (_, _)).
set R := _ ++ _; case: (eqVneq (size R) 0) => [/size0nil -> //|n0].
by rewrite -[(-1)%Z]/(- Z.of_nat 1)%Z roll_rot //; lia.
Qed.

(** insert_1d *)
Lemma insert_1d_pos s v (i : nat) : i <= size s ->
  insert_1d s v (Z.of_nat i) = take i s ++ v ++ drop i s.
Proof.
move=> Hi; rewrite /insert_1d.
have -> : (Z.of_nat i <? 0)%Z = false by lia.
rewrite roll_rot // /rot -catA.
have st : size (take i s) = i by rewrite size_take; case: ltngtP Hi => // ->.
have -> : (Z.of_nat i + Z.of_nat (size v))%Z = Z.of_nat (size (take i s ++ v)).
  by rewrite size_cat st; lia.
by rewrite roll_cat_l -catA.
Qed.

Lemma insert_1d_neg s v (i : Z) (p := Z.to_nat (i + Z.of_nat (size s) + 1)) :
  (- Z.of_nat (size s) - 1 <= i < 0)%Z ->
  insert_1d s v i = take p s ++ v ++ drop p s.
Proof.
move=> Hi; rewrite /insert_1d.
have -> : (i <? 0)%Z = true by lia.
rewrite Z.opp_involutive.
have Hp : p <= size s by rewrite /p; lia.
have st : size (take p s) = p by rewrite size_take; case: ltngtP Hp => // ->.
have sd : Z.of_nat (size (drop p s)) = (- (i + 1))%Z.
  by rewrite size_drop /p; lia.
have -> : roll s (- (i + 1)) = drop p s ++ take p s.
  by rewrite -sd -{1}(cat_take_drop p s) roll_cat_l.
have -> : (i + 1)%Z = (- Z.of_nat (size (drop p s)))%Z by rewrite sd; lia.
by rewrite -catA roll_cat_r -catA.
Qed.

Lemma size_insert_1d s v i : size (insert_1d s v i) = size s + size v.
Proof. by rewrite /insert_1d size_roll size_cat size_roll. Qed.

End RollLemmas.

Lemma map_roll (T U : Type) (f : T -> U) s k : map f (roll s k) = roll (map f s) k.
Proof. by rewrite /roll size_map; case: ifP => // _; rewrite map_rot. Qed.

Lemma map_insert_1d (T U : Type) (f : T -> U) s v k :
  map f (insert_1d s v k) = insert_1d (map f s) (map f v) k.
Proof. by rewrite /insert_1d map_roll map_cat map_roll size_map. Qed.

Lemma pop_map (T U : Type) (f : T -> U) s k :
  pop (map f s) k = rmap (fun p => (f p.1, map f p.2)) (pop s k).
Proof. by rewrite /pop -map_roll; case: roll => //= x r; rewrite map_roll. Qed.

Lemma insert_colE (T : Type) (mat col : seq (seq T)) ncol i :
  size mat = size col -> all (fun c => size c == ncol) col ->
  insert_col mat col ncol i = Ok [seq insert_1d p.1 p.2 i | p <- zip mat col].
Proof.
move=> sz al; rewrite /insert_col size_map sz eqxx /=; congr Ok.
rewrite -map_comp.
elim: mat col sz al => [|r mat IH] [|c col] //= [sz] /andP[/eqP sc al].
by rewrite IH // /insert_1d sc.
Qed.

Lemma insert_col_err (T : Type) (mat col : seq (seq T)) ncol i :
  size mat != size col -> insert_col mat col ncol i = Err TypeError.
Proof. by move=> sz; rewrite /insert_col size_map sz. Qed.

(** chunks *)
Lemma size_chunks (T : Type) m d (s : seq T) : size (chunks m d s) = m.
Proof. by elim: m s => //= m IH s; rewrite IH. Qed.

Lemma chunks_flatten (T : Type) m d (s : seq T) :
  size s = m * d -> flatten (chunks m d s) = s.
Proof.
elim: m s => [|m IH] s /=; first by move/size0nil->.
by move=> sz; rewrite IH ?cat_take_drop // size_drop sz mulSn addKn.
Qed.

Lemma chunks_all (T : Type) m d (s : seq T) :
  size s = m * d -> all (fun r => size r == d) (chunks m d s).
Proof.
elim: m s => [|m IH] s //= sz; rewrite size_take IH; last by rewrite size_drop sz mulSn addKn.
by rewrite andbT; case: ltngtP => //; move: sz; rewrite mulSn; lia.
Qed.

Lemma nth_chunks (T : Type) m d (s : seq T) k j x0 :
  k < m -> j < d -> nth x0 (nth [::] (chunks m d s) k) j = nth x0 s (k * d + j).
Proof.
elim: m k s => // m IH [|k] s km jd /=; first by rewrite nth_take.
by rewrite IH // nth_drop mulSn addnA.
Qed.

Lemma chunks_flattenK (T : Type) d (ss : seq (seq T)) :
  all (fun r => size r == d) ss -> chunks (size ss) d (flatten ss) = ss.
Proof.
elim: ss => //= r ss IH /andP[/eqP rd al].
by rewrite -rd take_size_cat // drop_size_cat // rd IH.
Qed.
