(** The extension-field gadgets' constraints can be satisfied: the right result
    extends to an assignment of the auxiliary variables. *)
From mathcomp Require Import all_ssreflect all_algebra zify.
From Verif Require Import Outcome Lincomb LincombSpec LincombFacts R1CS R1CSSpec Fieldtac.
From Verif Require Import Protoboard GadgetSpec GadgetLogic FieldGadgets ExtFieldSpec ExtFieldFacts ExtFieldAlgebra.
From Verif Require Import FieldGadgetsFacts.
Set Implicit Arguments.
Unset Strict Implicit.
Unset Printing Implicit Defensive.
Local Open Scope ring_scope.
Import GRing.Theory.

Section Sat.
Variable F : fieldType.
Variable nr : F.
Add Field Fs : (Fth F).
Implicit Types (x : seq F) (pb : protoboard F) (a b r : F).

Lemma xval_cat x zs v : (v <= size x)%N -> xval (x ++ zs) v = xval x v.
Proof. by case: v => [|v] // h; rewrite /xval /= nth_cat h. Qed.
Lemma fs_cat x zs l : in_range (size x) l -> formal_sum l (x ++ zs) = formal_sum l x.
Proof.
move=> h; rewrite /formal_sum; apply: eq_big_seq => t ht; rewrite xval_cat //.
by move/allP: h => /(_ _ ht).
Qed.

(** Existing combinations keep their values. *)
Definition ranged2 n (v : fp2_var F) : bool := in_range n (lc_terms (f2_c0 v)) && in_range n (lc_terms (f2_c1 v)).
Definition ranged3 n (v : fp3_var F) : bool :=
  [&& in_range n (lc_terms (f3_c0 v)), in_range n (lc_terms (f3_c1 v)) & in_range n (lc_terms (f3_c2 v))].

Lemma lval_cat x zs (o : pb_linear_combination F) : in_range (size x) (lc_terms o) -> lval (x ++ zs) o = lval x o.
Proof. exact: fs_cat. Qed.

Lemma fp2_mul_sat pb A B R g pb' x : pb_wf pb -> size x = size (pb_values pb) ->
  ranged2 (size x) A -> ranged2 (size x) B -> ranged2 (size x) R ->
  fp2_mul_new pb A B R = (g, pb') ->
  fp2_val x R = (fp2_val x A * fp2_val x B) %% ext_modulus 2 nr ->
  exists zs, size (x ++ zs) = size (pb_values pb') /\ holds (fp2_mul_constraints nr g) (x ++ zs).
Proof.
move=> [_ hf _ _] hs /andP[a0 a1] /andP[b0 b1] /andP[r0 r1].
rewrite /fp2_mul_new /= => -[<- <-]; rewrite {2 3}/fp2_val ext2_mul fp2_val_eq => -[e0 e1].
exists [:: lval x (f2_c1 A) * lval x (f2_c1 B)]; rewrite size_cat size_rcons hs addn1; split=> //.
rewrite fp2_mul_coef; cbn [f2m_A f2m_B f2m_result f2m_v1]; rewrite !lval_cat // e0 e1; split=> //.
by rewrite hf -hs /xval /= nth_cat ltnn subnn.
Qed.

Lemma fp3_mul_sat pb A B R g pb' x : 2%:R != 0 :> F -> 3%:R != 0 :> F -> nr != 0 ->
  pb_wf pb -> size x = size (pb_values pb) ->
  ranged3 (size x) A -> ranged3 (size x) B -> ranged3 (size x) R ->
  fp3_mul_new pb A B R = (g, pb') ->
  fp3_val x R = (fp3_val x A * fp3_val x B) %% ext_modulus 3 nr ->
  exists zs, size (x ++ zs) = size (pb_values pb') /\ holds (fp3_mul_constraints nr g) (x ++ zs).
Proof.
move=> h2 h3 hn [_ hf _ _] hs /and3P[a0 a1 a2] /and3P[b0 b1 b2] /and3P[r0 r1 r2].
rewrite /fp3_mul_new /= => -[<- <-]; rewrite {2 3}/fp3_val ext3_mul fp3_val_eq => -[e0 e1 e2].
exists [:: lval x (f3_c0 A) * lval x (f3_c0 B); lval x (f3_c2 A) * lval x (f3_c2 B)].
rewrite size_cat !size_rcons hs addn2; split=> //.
rewrite fp3_mul_coef //; cbn [f3m_A f3m_B f3m_result f3m_v0 f3m_v4]; rewrite !lval_cat // e0 e1 e2; split=> //.
- by rewrite hf -hs /xval /= nth_cat ltnn subnn.
- by rewrite hf -hs /xval /= nth_cat ltnNge leqnSn /= subSnn.
Qed.

Lemma alloc_next pb v pb' : allocate_var pb = (v, pb') ->
  [/\ v = pb_next_free_var pb, pb_next_free_var pb' = v.+1 & size (pb_values pb') = (size (pb_values pb)).+1].
Proof. by case=> <- <- /=; rewrite size_rcons. Qed.
Lemma assign_next pb l o pb' : lc_assign pb l = (o, pb') ->
  [/\ (forall x, lval x o = formal_sum l x), pb_next_free_var pb' = pb_next_free_var pb & size (pb_values pb') = size (pb_values pb)].
Proof. by case=> <- <-. Qed.

Lemma xval_at x zs i : xval (x ++ zs) (size x + i).+1 = nth 0 zs i.
Proof. by rewrite /xval /= nth_cat ltnNge leq_addr addKn. Qed.
End Sat.

Ltac step := match goal with
  | |- context [allocate_var ?q] =>
      let v := fresh "v" in let q' := fresh "pb" in let e := fresh "N" in let f := fresh "E" in let h := fresh "S" in
      case e: (allocate_var q) => [v q']; have [f {}e h] := alloc_next e
  | |- context [lc_assign ?q ?l] => let o := fresh "o" in let q' := fresh "pb" in let e := fresh "N" in
      let f := fresh "E" in let h := fresh "S" in
      case e: (lc_assign q l) => [o q']; have [f {}e h] := assign_next e; cbn [f2_c0 f2_c1 f3_c0 f3_c1 f3_c2] in f
  end.

Section Towers.
Variable F : fieldType.
Variable nr : F.
Add Field Ft : (Fth F).
Implicit Types (x : seq F) (pb : protoboard F) (a b r : F).
Definition ranged4 n (v : fp4_var F) : bool := ranged2 n (f4_c0 v) && ranged2 n (f4_c1 v).
Definition ranged6 n (v : fp6_var F) : bool := ranged3 n (f6_c0 v) && ranged3 n (f6_c1 v).

Lemma fp4_direct_mul_sat pb A B R g pb' x : 2%:R != 0 :> F -> 3%:R != 0 :> F -> 5%:R != 0 :> F -> 1 - nr != 0 ->
  pb_wf pb -> size x = size (pb_values pb) ->
  ranged4 (size x) A -> ranged4 (size x) B -> ranged4 (size x) R ->
  fp4_direct_mul_new pb A B R = (g, pb') ->
  fp4_val x R = (fp4_val x A * fp4_val x B) %% ext_modulus 4 nr ->
  exists zs, size (x ++ zs) = size (pb_values pb') /\ holds (fp4_direct_mul_constraints nr g) (x ++ zs).
Proof.
move=> h2 h3 h5 hn [_ hf _ _] hs /andP[/andP[a0 a1] /andP[a2 a3]] /andP[/andP[b0 b1] /andP[b2 b3]] /andP[/andP[r0 r1] /andP[r2 r3]].
rewrite /fp4_direct_mul_new; do 3 step; case=> <- <-.
rewrite {2 3}/fp4_val ext4_mul fp4_val_eq => e.
set A0 := lval x (f2_c0 (f4_c0 A)) in e; set A1 := lval x (f2_c0 (f4_c1 A)) in e.
set A2 := lval x (f2_c1 (f4_c0 A)) in e; set A3 := lval x (f2_c1 (f4_c1 A)) in e.
set B0 := lval x (f2_c0 (f4_c0 B)) in e; set B1 := lval x (f2_c0 (f4_c1 B)) in e.
set B2 := lval x (f2_c1 (f4_c0 B)) in e; set B3 := lval x (f2_c1 (f4_c1 B)) in e.
exists [:: (A0 + A1 + A2 + A3) * (B0 + B1 + B2 + B3); (A0 - A1 + A2 - A3) * (B0 - B1 + B2 - B3); A3 * B3].
split; first by rewrite size_cat hs S1 S0 S addn3.
have w1 : v = (size x + 0).+1 by rewrite E hf hs addn0.
have w2 : v0 = (size x + 1).+1 by rewrite E0 N w1 addn0 addn1.
have w3 : v1 = (size x + 2).+1 by rewrite E1 N0 w2 addn1 addn2.
rewrite /fp4_direct_mul_constraints !holds_cons holds_nil /constraint_holds.
cbn [f4d_A f4d_B f4d_result f4d_v1 f4d_v2 f4d_v6 c_a c_b c_c]; rewrite !fsE !sum_lval.
cbn [var_scale fst snd]; rewrite !lval_cat // w1 w2 w3 !xval_at; cbn [nth].
rewrite -/A0 -/A1 -/A2 -/A3 -/B0 -/B1 -/B2 -/B3.
have := iffRL (direct_alg A0 A1 A2 A3 B0 B1 B2 B3 h2 hn h3 h5 _ _ _ _ _ _ _) (And4 erefl erefl erefl e).
by case=> _ _ _ [-> -> -> ->].
Qed.

Lemma fp4_tower_mul_sat pb A B R g pb' x :
  pb_wf pb -> size x = size (pb_values pb) ->
  ranged4 (size x) A -> ranged4 (size x) B -> ranged4 (size x) R ->
  fp4_tower_mul_new nr pb A B R = (g, pb') ->
  fp4_val x R = (fp4_val x A * fp4_val x B) %% ext_modulus 4 nr ->
  exists zs, size (x ++ zs) = size (pb_values pb') /\ holds (fp4_tower_mul_constraints nr g) (x ++ zs).
Proof.
move=> [_ hf _ _] hs /andP[/andP[a0 a1] /andP[a2 a3]] /andP[/andP[b0 b1] /andP[b2 b3]] /andP[/andP[r0 r1] /andP[r2 r3]].
rewrite /fp4_tower_mul_new /fp2_new /fp2_mul_new /fp2_add; do 13 step; case=> <- <-.
rewrite {2 3}/fp4_val ext4_mul fp4_val_eq => -[e0 e1 e2 e3].
set A0 := lval x (f2_c0 (f4_c0 A)) in e0 e1 e2 e3; set A1 := lval x (f2_c0 (f4_c1 A)) in e0 e1 e2 e3.
set A2 := lval x (f2_c1 (f4_c0 A)) in e0 e1 e2 e3; set A3 := lval x (f2_c1 (f4_c1 A)) in e0 e1 e2 e3.
set B0 := lval x (f2_c0 (f4_c0 B)) in e0 e1 e2 e3; set B1 := lval x (f2_c0 (f4_c1 B)) in e0 e1 e2 e3.
set B2 := lval x (f2_c1 (f4_c0 B)) in e0 e1 e2 e3; set B3 := lval x (f2_c1 (f4_c1 B)) in e0 e1 e2 e3.
exists [:: A1 * B1 + nr * (A3 * B3); A1 * B3 + A3 * B1; A3 * B3; A2 * B2; (A2 + A3) * (B2 + B3)].
split.
  by rewrite size_cat hs S11 S10 S9 S8 S7 S6 S5 S4 S3 S2 S1 S0 S !addnS addn0.
have w0 : v = (size x + 0).+1 by rewrite E hf hs addn0.
have w1 : v0 = (size x + 1).+1 by rewrite E0 N w0 addn0 addn1.
have w2 : v1 = (size x + 2).+1 by rewrite E1 N0 w1 addn1 addn2.
have w3 : v2 = (size x + 3).+1 by rewrite E4 N3 N2 N1 w2 addn2 addn3.
have w4 : v3 = (size x + 4).+1 by rewrite E11 N10 N9 N8 N7 N6 N5 N4 w3 !addnS.
rewrite /fp4_tower_mul_constraints [f4t_compute_v0 _]/= [f4t_compute_v1 _]/= [f4t_compute_result_c1 _]/= !holds_cat !fp2_mul_coef.
cbn [f2m_A f2m_B f2m_result f2m_v1 f2_c0 f2_c1 f4_c0 f4_c1].
rewrite E2 E3 E5 E6 E7 E8 E9 E10 !fsE !sum_lval E2 E3 !fsE !sum_lval !lval_var !lval_cat // w0 w1 w2 w3 w4 !xval_at; cbn [nth].
rewrite e0 e1 e2 e3 -/A0 -/A1 -/A2 -/A3 -/B0 -/B1 -/B2 -/B3.
by do !split=> //; fring F.
Qed.

Lemma fp6_mul_sat pb A B R g pb' x : 2%:R != 0 :> F -> 3%:R != 0 :> F -> nr != 0 ->
  pb_wf pb -> size x = size (pb_values pb) ->
  ranged6 (size x) A -> ranged6 (size x) B -> ranged6 (size x) R ->
  fp6_mul_new nr pb A B R = (g, pb') ->
  fp6_val x R = (fp6_val x A * fp6_val x B) %% ext_modulus 6 nr ->
  exists zs, size (x ++ zs) = size (pb_values pb') /\ holds (fp6_mul_constraints nr g) (x ++ zs).
Proof.
move=> h2 h3 hn [_ hf _ _] hs /andP[/and3P[a0 a1 a2] /and3P[a3 a4 a5]] /andP[/and3P[b0 b1 b2] /and3P[b3 b4 b5]]
  /andP[/and3P[r0 r1 r2] /and3P[r3 r4 r5]].
rewrite /fp6_mul_new /fp3_new /fp3_mul_new /fp3_add; do 21 step; case=> <- <-.
rewrite {2 3}/fp6_val ext6_mul fp6_val_eq => -[e0 e1 e2 [e3 e4 e5]].
set A0 := lval x (f3_c0 (f6_c0 A)) in e0 e1 e2 e3 e4 e5; set B0 := lval x (f3_c0 (f6_c0 B)) in e0 e1 e2 e3 e4 e5.
set A1 := lval x (f3_c0 (f6_c1 A)) in e0 e1 e2 e3 e4 e5; set B1 := lval x (f3_c0 (f6_c1 B)) in e0 e1 e2 e3 e4 e5.
set A2 := lval x (f3_c1 (f6_c0 A)) in e0 e1 e2 e3 e4 e5; set B2 := lval x (f3_c1 (f6_c0 B)) in e0 e1 e2 e3 e4 e5.
set A3 := lval x (f3_c1 (f6_c1 A)) in e0 e1 e2 e3 e4 e5; set B3 := lval x (f3_c1 (f6_c1 B)) in e0 e1 e2 e3 e4 e5.
set A4 := lval x (f3_c2 (f6_c0 A)) in e0 e1 e2 e3 e4 e5; set B4 := lval x (f3_c2 (f6_c0 B)) in e0 e1 e2 e3 e4 e5.
set A5 := lval x (f3_c2 (f6_c1 A)) in e0 e1 e2 e3 e4 e5; set B5 := lval x (f3_c2 (f6_c1 B)) in e0 e1 e2 e3 e4 e5.
exists [:: A1 * B1 + nr * (A3 * B5 + A5 * B3); A1 * B3 + A3 * B1 + nr * (A5 * B5); A1 * B5 + A3 * B3 + A5 * B1;
  A1 * B1; A5 * B5; A0 * B0; A4 * B4; (A0 + A1) * (B0 + B1); (A4 + A5) * (B4 + B5)].
split.
  by rewrite size_cat hs S19 S18 S17 S16 S15 S14 S13 S12 S11 S10 S9 S8 S7 S6 S5 S4 S3 S2 S1 S0 S !addnS addn0.
have w0 : v = (size x + 0).+1 by rewrite E hf hs addn0.
have w1 : v0 = (size x + 1).+1 by rewrite E0 N w0 !addnS.
have w2 : v1 = (size x + 2).+1 by rewrite E1 N0 w1 !addnS.
have w3 : v2 = (size x + 3).+1 by rewrite E2 N1 w2 !addnS.
have w4 : v3 = (size x + 4).+1 by rewrite E3 N2 w3 !addnS.
have w5 : v4 = (size x + 5).+1 by rewrite E7 N6 N5 N4 N3 w4 !addnS.
have w6 : v5 = (size x + 6).+1 by rewrite E8 N7 w5 !addnS.
have w7 : v6 = (size x + 7).+1 by rewrite E18 N17 N16 N15 N14 N13 N12 N11 N10 N9 N8 w6 !addnS.
have w8 : v7 = (size x + 8).+1 by rewrite E19 N18 w7 !addnS.
rewrite /fp6_mul_constraints [f6m_compute_v0 _]/= [f6m_compute_v1 _]/= [f6m_compute_result_c1 _]/= !holds_cat !(fp3_mul_coef _ _ h2 h3 hn).
cbn [f3m_A f3m_B f3m_result f3m_v0 f3m_v4 f3_c0 f3_c1 f3_c2 f6_c0 f6_c1].
rewrite E4 E5 E6 E9 E10 E11 E12 E13 E14 E15 E16 E17 !fsE !sum_lval E4 E5 E6 !fsE !sum_lval !lval_var !lval_cat //.
rewrite w0 w1 w2 w3 w4 w5 w6 w7 w8 !xval_at; cbn [nth].
rewrite e0 e1 e2 e3 e4 e5 -/A0 -/B0 -/A1 -/B1 -/A2 -/B2 -/A3 -/B3 -/A4 -/B4 -/A5 -/B5.
by do !split=> //; fring F.
Qed.
End Towers.
