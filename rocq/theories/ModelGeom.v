(** Model of cyjax/donaldson.py: GeometricObjects, at one point.

    The class is a table of named functions evaluated on demand; the functions
    below are those of the table with the same arguments, and section [Objects]
    connects them.  One axis of length n is an index of type 'I_n; arrays with
    several axes are curried functions of their indices, an einsum is the sum over
    the repeated indices, and swapaxes / transpose permute the arguments.
    [pi] is jnp.pi, [log] is jnp.log. *)
From Coq Require Import ZArith.
From mathcomp Require Import all_ssreflect all_algebra.
From Verif Require Import Base ModelUtil ModelProjective ModelHom ModelDiff Deriv Bridge.
Delimit Scope Z_scope with Z.

Set Implicit Arguments.
Unset Strict Implicit.
Unset Printing Implicit Defensive.

Import GRing.Theory Num.Theory.
Local Open Scope ring_scope.

Section Geom.
Variable C : numClosedFieldType.
Variables (log : C -> C) (pi : C).

Section Contractions.
(** number of sections, number of affine coordinates *)
Variables N n : nat.
Notation A1 := ('I_n -> C).
Notation A2 := ('I_n -> 'I_n -> C).
Notation A3 := ('I_n -> 'I_n -> 'I_n -> C).
Notation A4 := ('I_n -> 'I_n -> 'I_n -> 'I_n -> C).
Notation S0 := ('I_N -> C).
Notation S1 := ('I_N -> 'I_n -> C).
Notation S2 := ('I_N -> 'I_n -> 'I_n -> C).

(** h: a matrix, or its diagonal (h.ndim == 1) *)
Inductive hvalue := HMat of 'M[C]_N | HVec of 'rV[C]_N.

(** donaldson.py:392-395  s_c *)
Definition s_c (s : S0) : S0 := fun i => (s i)^*.
(** donaldson.py:397-405  s_1_c *)
Definition s_1_c (s_1 : S1) : S1 := fun i a => (s_1 i a)^*.
(** donaldson.py:407-415  s_2_c *)
Definition s_2_c (s_2 : S2) : S2 := fun i a b => (s_2 i a b)^*.

(** donaldson.py:420-423  kahler *)
Definition kahler (psi : C) (degree : nat) : C := log psi / (pi * degree%:R).

(** donaldson.py:425-430  psi *)
Definition psi (h : hvalue) (s s_c : S0) : C :=
  match h with
  | HVec v => \sum_i s i * v 0 i * s_c i
  | HMat M => \sum_i \sum_j s i * M i j * s_c j
  end.

(** donaldson.py:432-437  psi_h *)
Definition psi_h (h : hvalue) (s_1 : S1) (s_c : S0) : A1 := fun a =>
  match h with
  | HVec v => \sum_i s_1 i a * v 0 i * s_c i
  | HMat M => \sum_i \sum_j s_1 i a * M i j * s_c j
  end.

(** donaldson.py:439-442  psi_a *)
Definition psi_a (psi_h : A1) : A1 := fun a => (psi_h a)^*.

(** donaldson.py:444-449  psi_ha *)
Definition psi_ha (h : hvalue) (s_1 s_1_c : S1) : A2 := fun a b =>
  match h with
  | HVec v => \sum_i s_1 i a * v 0 i * s_1_c i b
  | HMat M => \sum_i \sum_j s_1 i a * M i j * s_1_c j b
  end.

(** donaldson.py:451-456  psi_hh; the value of the branch for a 1-d h is dropped,
    and the second einsum rejects an operand 'ij' with one axis. *)
Definition psi_hh (h : hvalue) (s_2 : S2) (s_c : S0) : res A2 :=
  match h with
  | HVec v => Err ValueError
  | HMat M => Ok (fun a b => \sum_i \sum_j s_2 i a b * M i j * s_c j)
  end.

(** donaldson.py:458-461  psi_aa *)
Definition psi_aa (psi_hh : A2) : A2 := fun a b => (psi_hh a b)^*.

(** donaldson.py:463-468  psi_hha *)
Definition psi_hha (h : hvalue) (s_2 : S2) (s_1_c : S1) : A3 := fun a b c =>
  match h with
  | HVec v => \sum_i s_2 i a b * v 0 i * s_1_c i c
  | HMat M => \sum_i \sum_j s_2 i a b * M i j * s_1_c j c
  end.

(** donaldson.py:470-475  psi_hhaa *)
Definition psi_hhaa (h : hvalue) (s_2 s_2_c : S2) : A4 := fun a b c d =>
  match h with
  | HVec v => \sum_i s_2 i a b * v 0 i * s_2_c i c d
  | HMat M => \sum_i \sum_j s_2 i a b * M i j * s_2_c j c d
  end.

(** donaldson.py:480-484  g_proj *)
Definition g_proj (psi : C) (psi_h psi_a : A1) (psi_ha : A2) (degree : nat) : A2 := fun i j =>
  (psi_ha i j / psi - psi_h i * psi_a j / psi ^+ 2) / (degree%:R * pi).

(** donaldson.py:486-489  psi_h_psi_ha *)
Definition psi_h_psi_ha (psi_h : A1) (psi_ha : A2) : A3 := fun a i j => psi_h a * psi_ha i j.

(** donaldson.py:491-499  two_hha *)
Definition two_hha (psi_a : A1) (psi_hh : A2) (psi_h_psi_ha : A3) : A3 := fun a i j =>
  psi_h_psi_ha a i j + psi_h_psi_ha i a j + psi_a j * psi_hh a i.

(** donaldson.py:501-507  three_hha *)
Definition three_hha (psi_h psi_a : A1) : A3 := fun a i j => psi_h a * psi_h i * psi_a j.

(** donaldson.py:509-520  g_proj_h *)
Definition g_proj_h (psi : C) (psi_hha two_hha three_hha : A3) (degree : nat) : A3 := fun a i j =>
  (psi_hha a i j / psi - two_hha a i j / psi ^+ 2 + three_hha a i j * 2%:R / psi ^+ 3)
  / (degree%:R * pi).

(** donaldson.py:522-525  g_proj_a; transpose((0, 2, 1)) *)
Definition g_proj_a (g_proj_h : A3) : A3 := fun a i j => (g_proj_h a j i)^*.

(** donaldson.py:527-533  psi_hha_psi_a *)
Definition psi_hha_psi_a (psi_a : A1) (psi_hha : A3) : A4 := fun a b i j =>
  psi_hha a i j * psi_a b.

(** donaldson.py:535-540  psi_ha_psi_ha *)
Definition psi_ha_psi_ha (psi_ha : A2) : A4 := fun a b i j => psi_ha a b * psi_ha i j.

(** donaldson.py:542-558  two_haha; the entry [a, b, i, j] of x.transpose((1, 2, 3, 0))
    is x[j, a, b, i], that of x.transpose((3, 2, 1, 0)) is x[j, i, b, a]. *)
Definition two_haha (psi_hh psi_aa : A2) (psi_ha_psi_ha psi_hha_psi_a : A4) : A4 := fun a b i j =>
  psi_hha_psi_a a b i j + psi_hha_psi_a a j i b +
  (psi_hha_psi_a j a b i)^* +
  (psi_hha_psi_a j i b a)^* +
  psi_ha_psi_ha a b i j + psi_ha_psi_ha i b a j +
  psi_aa b j * psi_hh a i.

(** donaldson.py:560-572  three_haha *)
Definition three_haha (psi_h psi_a : A1) (psi_aa : A2) (two_hha psi_h_psi_ha : A3) : A4 :=
  fun a b i j =>
  two_hha a i j * psi_a b +
  (psi_h_psi_ha i a b + psi_h_psi_ha a i b) * psi_a j +
  psi_h a * psi_h i * psi_aa b j.

(** donaldson.py:574-580  four_haha *)
Definition four_haha (psi_a : A1) (three_hha : A3) : A4 := fun a b i j =>
  three_hha a i j * psi_a b.

(** donaldson.py:582-595  g_proj_ha; psi_hhaa.transpose((0, 2, 1, 3)) *)
Definition g_proj_ha (psi : C) (psi_hhaa two_haha three_haha four_haha : A4) (degree : nat) : A4 :=
  fun a b i j =>
  (psi_hhaa a i b j / psi - two_haha a b i j / psi ^+ 2
   + three_haha a b i j * 2%:R / psi ^+ 3 - four_haha a b i j * 6%:R / psi ^+ 4)
  / (degree%:R * pi).
End Contractions.

Section Local.
(** dimension of the variety; there are m.+1 affine coordinates *)
Variable m : nat.
Notation n := m.+1.

(** donaldson.py:603-606  jac (jacobian_embed of differential.py) *)
Definition jac (grad_def : 'rV[C]_n) (dependent : Z) : res 'M[C]_(m, n) :=
  rmap (mx_rows m n) (jacobian_embed (row_seq grad_def) dependent).

(** donaldson.py:608-611  jac_c *)
Definition jac_c (jac : 'M[C]_(m, n)) : 'M[C]_(m, n) := map_mx conjC jac.

(** donaldson.py:620-623  g_loc *)
Definition g_loc (g_proj : 'I_n -> 'I_n -> C) (jac jac_c : 'M[C]_(m, n)) : 'M[C]_m :=
  \matrix_(r, s) \sum_i \sum_j jac r i * g_proj i j * jac_c s j.

(** donaldson.py:625-633  g_loc_h; jac_h has axes r, i and the derivative *)
Definition g_loc_h (g_proj : 'I_n -> 'I_n -> C) (g_proj_h : 'I_n -> 'I_n -> 'I_n -> C)
    (jac : 'M[C]_(m, n)) (jac_h : 'I_m -> 'I_n -> 'I_n -> C) (jac_c : 'M[C]_(m, n))
    (a : 'I_n) : 'M[C]_m :=
  \matrix_(r, s) (\sum_i \sum_j jac_h r i a * g_proj i j * jac_c s j
                  + \sum_i \sum_j jac r i * g_proj_h a i j * jac_c s j).

(** donaldson.py:635-648  g_loc_ha *)
Definition g_loc_ha (g_proj : 'I_n -> 'I_n -> C) (g_proj_a g_proj_h : 'I_n -> 'I_n -> 'I_n -> C)
    (g_proj_ha : 'I_n -> 'I_n -> 'I_n -> 'I_n -> C)
    (jac jac_c : 'M[C]_(m, n)) (jac_h : 'I_m -> 'I_n -> 'I_n -> C) (a b : 'I_n) : 'M[C]_m :=
  let jac_c_a r i a := (jac_h r i a)^* in
  \matrix_(r, s) (\sum_i \sum_j jac_h r i a * g_proj_a b i j * jac_c s j
                  + \sum_i \sum_j jac r i * g_proj_ha a b i j * jac_c s j
                  + \sum_i \sum_j jac_h r i a * g_proj i j * jac_c_a s j b
                  + \sum_i \sum_j jac r i * g_proj_h a i j * jac_c_a s j b).

(** donaldson.py:650-653  g_loc_inv *)
Definition g_loc_inv (g_loc : 'M[C]_m) : 'M[C]_m := invmx g_loc.

(** donaldson.py:655-658  g_loc_a; swapaxes(2, 1) *)
Definition g_loc_a (g_loc_h : 'I_n -> 'M[C]_m) (a : 'I_n) : 'M[C]_m :=
  \matrix_(r, s) (g_loc_h a s r)^*.

(** donaldson.py:660-670  ricci_proj; the axes of the first einsum are those that
    occur once, a and b. *)
Definition ricci_proj (g_loc_h g_loc_a : 'I_n -> 'M[C]_m) (g_loc_ha : 'I_n -> 'I_n -> 'M[C]_m)
    (g_loc_inv : 'M[C]_m) : 'M[C]_n :=
  \matrix_(a, b)
  (\sum_i \sum_j \sum_k \sum_l g_loc_inv j i * g_loc_h a i k * g_loc_inv k l * g_loc_a b l j
   - \sum_i \sum_j g_loc_inv j i * g_loc_ha a b i j).

(** donaldson.py:672-675  ricci_loc *)
Definition ricci_loc (ricci_proj : 'M[C]_n) (jac jac_c : 'M[C]_(m, n)) : 'M[C]_m :=
  \matrix_(r, s) \sum_i \sum_j jac r i * ricci_proj i j * jac_c s j.

(** donaldson.py:677-680  ricci_scalar *)
Definition ricci_scalar (ricci_loc g_loc_inv : 'M[C]_m) : C :=
  \sum_i \sum_j ricci_loc i j * g_loc_inv j i.

(** donaldson.py:682-685  eta; grad_def[dependent], for an index in range *)
Definition eta (g_loc : 'M[C]_m) (grad_def : 'rV[C]_n) (dependent : Z) : res C :=
  do k <- py_pos n dependent;
  Ok (\det g_loc * `|nth 0 (row_seq grad_def) k| ^+ 2).
End Local.

Section Objects.
(** donaldson.py:318-377  GeometricObjects.__init__: the values at one point.
    The derivatives s_1, s_2 of the sections, the gradient of the defining
    equation and the derivative jac_h of the Jacobian (donaldson.py:615-618)
    come from JAX; they are fields here, and the theorems say of which functions
    they are the derivatives. *)
Variables N m : nat.
Notation n := m.+1.
Record objects := Objects {
  o_h : hvalue N;
  o_degree : nat;
  o_s : 'I_N -> C;
  o_s1 : 'I_N -> 'I_n -> C;
  o_s2 : 'I_N -> 'I_n -> 'I_n -> C;
  o_grad : 'rV[C]_n;
  o_dep : option Z;
  o_jach : 'I_m -> 'I_n -> 'I_n -> C }.

Variable o : objects.

(** donaldson.py:379-388  dependent, unless given *)
Definition ob_dependent : res Z :=
  if o_dep o is Some d then Ok d else rmap Z.of_nat (argmax [seq `|x| | x <- row_seq (o_grad o)]).
Definition ob_psi : C := psi (o_h o) (o_s o) (s_c (o_s o)).
Definition ob_kahler : C := kahler ob_psi (o_degree o).
Definition ob_psi_h := psi_h (o_h o) (o_s1 o) (s_c (o_s o)).
Definition ob_psi_a := psi_a ob_psi_h.
Definition ob_psi_ha := psi_ha (o_h o) (o_s1 o) (s_1_c (o_s1 o)).
Definition ob_psi_hh := psi_hh (o_h o) (o_s2 o) (s_c (o_s o)).
Definition ob_psi_hha := psi_hha (o_h o) (o_s2 o) (s_1_c (o_s1 o)).
Definition ob_psi_hhaa := psi_hhaa (o_h o) (o_s2 o) (s_2_c (o_s2 o)).
Definition ob_g_proj := g_proj ob_psi ob_psi_h ob_psi_a ob_psi_ha (o_degree o).
Definition ob_psi_h_psi_ha := psi_h_psi_ha ob_psi_h ob_psi_ha.
Definition ob_two_hha := rmap (fun hh => two_hha ob_psi_a hh ob_psi_h_psi_ha) ob_psi_hh.
Definition ob_three_hha := three_hha ob_psi_h ob_psi_a.
Definition ob_g_proj_h :=
  rmap (fun two => g_proj_h ob_psi ob_psi_hha two ob_three_hha (o_degree o)) ob_two_hha.
Definition ob_g_proj_a := rmap (@g_proj_a n) ob_g_proj_h.
Definition ob_two_haha :=
  rmap (fun hh => two_haha hh (psi_aa hh) (psi_ha_psi_ha ob_psi_ha) (psi_hha_psi_a ob_psi_a ob_psi_hha))
       ob_psi_hh.
Definition ob_three_haha :=
  do hh <- ob_psi_hh; do two <- ob_two_hha;
  Ok (three_haha ob_psi_h ob_psi_a (psi_aa hh) two ob_psi_h_psi_ha).
Definition ob_four_haha := four_haha ob_psi_a ob_three_hha.
Definition ob_g_proj_ha :=
  do two <- ob_two_haha; do three <- ob_three_haha;
  Ok (g_proj_ha ob_psi ob_psi_hhaa two three ob_four_haha (o_degree o)).

Definition ob_jac : res 'M[C]_(m, n) := do d <- ob_dependent; jac (o_grad o) d.
Definition ob_g_loc : res 'M[C]_m := do J <- ob_jac; Ok (g_loc ob_g_proj J (jac_c J)).
Definition ob_g_loc_h : res ('I_n -> 'M[C]_m) :=
  do J <- ob_jac; do gh <- ob_g_proj_h; Ok (g_loc_h ob_g_proj gh J (o_jach o) (jac_c J)).
Definition ob_g_loc_a := rmap (@g_loc_a m) ob_g_loc_h.
Definition ob_g_loc_ha : res ('I_n -> 'I_n -> 'M[C]_m) :=
  do J <- ob_jac; do ga <- ob_g_proj_a; do gh <- ob_g_proj_h; do gha <- ob_g_proj_ha;
  Ok (g_loc_ha ob_g_proj ga gh gha J (jac_c J) (o_jach o)).
Definition ob_ricci_proj : res 'M[C]_n :=
  do gh <- ob_g_loc_h; do ga <- ob_g_loc_a; do gha <- ob_g_loc_ha; do g <- ob_g_loc;
  Ok (ricci_proj gh ga gha (g_loc_inv g)).
Definition ob_ricci_loc : res 'M[C]_m :=
  do R <- ob_ricci_proj; do J <- ob_jac; Ok (ricci_loc R J (jac_c J)).
Definition ob_ricci_scalar : res C :=
  do R <- ob_ricci_loc; do g <- ob_g_loc; Ok (ricci_scalar R (g_loc_inv g)).
Definition ob_eta : res C :=
  do g <- ob_g_loc; do d <- ob_dependent; eta g (o_grad o) d.
End Objects.
End Geom.
