(** What the CPU checker's own constraints force.  Models nothing of /repo. *)
From mathcomp Require Import all_ssreflect all_algebra zify.
From Verif Require Import Outcome Lincomb LincombSpec LincombFacts R1CS R1CSSpec R1CSFacts Fieldtac.
From Verif Require Import Protoboard GadgetSpec GadgetLogic BasicGadgets BasicGadgetsFacts BasicGadgetsMore.
From Verif Require Import BasicGadgetsCopy GadgetNew GadgetSeq Benes Alu AluSpec AluFacts FieldGadgetsFacts TinyramCpuFacts TinyramTop.
Set Implicit Arguments.
Unset Strict Implicit.
Unset Printing Implicit Defensive.
Local Open Scope ring_scope.
Import GRing.Theory.

Section Facts.
Variable F : fieldType.
Variable R : bigint_repr F.
Implicit Types (x : seq F).

Lemma opcode_sound x opcode ind bs : (2 ^ size opcode <= fp_order R)%N -> size ind = (2 ^ size opcode)%N ->
  bits_are x opcode bs -> holds (opcode_constraints F opcode ind) x ->
  forall i, (i < 2 ^ size opcode)%N -> xval x (nth 0%N ind i) = (nat_of_bool (i == bits_nat bs))%:R.
Proof.
move=> hp hs hb; rewrite /opcode_constraints holds_cat holds_iota holds1 => [[h1 h2]].
have sb : size bs = size opcode by move: (congr1 size hb); rewrite !size_map.
have hk : (bits_nat bs < 2 ^ size opcode)%N by rewrite -sb bits_nat_lt.
set k := bits_nat bs in hk *.
have q1 i : (i < 2 ^ size opcode)%N -> xval x (nth 0%N ind i) * (k%:R - i%:R) = 0.
  by move=> hi; have := h1 i hi; rewrite /constraint_holds [c_a _]/= [c_b _]/= [c_c _]/= !fsE packing_sumE lval_vars (pack_are hb).
have q2 i : (i < 2 ^ size opcode)%N -> i != k -> xval x (nth 0%N ind i) = 0.
  move=> hi hne; move/eqP: (q1 i hi); rewrite mulf_eq0 subr_eq0 => /orP [/eqP //|/eqP e].
  have e' := natF_eq (R := R) (leq_trans hk hp) (leq_trans hi hp) e.
  by rewrite e' eqxx in hne.
have q3 : xval x (nth 0%N ind k) = 1.
  have : \sum_(a <- map (xval x) ind) a = 1.
    have := h2; rewrite /constraint_holds [c_a _]/= [c_b _]/= [c_c _]/= pb_sumE !fsE mul1r.
    rewrite /plcs_of_vars !big_map => e; transitivity (1%:~R : F) => //; rewrite -e.
    by apply: eq_bigr => v _; rewrite lval_var.
  rewrite (@sum_nth_one _ _ k) ?size_map ?hs // ?(nth_map 0%N) ?hs //.
  by move=> j hj hji; rewrite (nth_map 0%N) ?hs // q2.
by move=> i hi; case: eqP => [->|/eqP ne]; rewrite ?q3 ?q2.
Qed.

Lemma opcode_complete x opcode ind bs : size ind = (2 ^ size opcode)%N -> bits_are x opcode bs ->
  (forall i, (i < 2 ^ size opcode)%N -> xval x (nth 0%N ind i) = (nat_of_bool (i == bits_nat bs))%:R) ->
  holds (opcode_constraints F opcode ind) x.
Proof.
move=> hs hb h; rewrite /opcode_constraints holds_cat holds_iota holds1.
have sb : size bs = size opcode by move: (congr1 size hb); rewrite !size_map.
have hk : (bits_nat bs < 2 ^ size opcode)%N by rewrite -sb bits_nat_lt.
split.
  move=> i hi; rewrite /constraint_holds [c_a _]/= [c_b _]/= [c_c _]/= !fsE packing_sumE lval_vars (pack_are hb) h //.
  by case: eqP => [->|_]; rewrite ?subrr ?mulr0 ?mul0r.
rewrite /constraint_holds [c_a _]/= [c_b _]/= [c_c _]/= pb_sumE !fsE mul1r /plcs_of_vars big_map.
transitivity (\sum_(a <- map (xval x) ind) a); first by rewrite big_map; apply: eq_bigr => v _; rewrite lval_var.
rewrite (@sum_nth_one _ _ (bits_nat bs)) ?size_map ?hs // ?(nth_map 0%N) ?hs //; first by rewrite h // eqxx.
by move=> j hj hji; rewrite (nth_map 0%N) ?hs // h // (negbTE hji).
Qed.

Lemma accept_iff x ind arg2 acc : holds (accept_constraints F ind arg2 acc) x <->
  (xval x acc != 0 -> xval x (nth 0%N ind 31) = 1 /\ xval x arg2 = 0).
Proof.
rewrite /accept_constraints holds_cons holds1 /constraint_holds; cbn [c_a c_b c_c]; rewrite !fsE.
split=> [[h1 h2] ha|h].
  move/eqP: h1; rewrite mulf_eq0 (negbTE ha) subr_eq0 /= => /eqP h1.
  by move/eqP: h2; rewrite mulf_eq0 (negbTE ha) /= => /eqP h2; split.
by have [->|/h [-> ->]] := eqVneq (xval x acc) 0; rewrite ?mul0r ?subrr ?mulr0.
Qed.

Lemma mul0_imp (a b : F) : a * b = 0 <-> (a != 0 -> b = 0).
Proof.
split=> [/eqP|h]; first by rewrite mulf_eq0 => /orP [->|/eqP].
by have [->|/h ->] := eqVneq a 0; rewrite ?mul0r ?mulr0.
Qed.

Lemma tape_iff x ind arg2 prev next rn flag result : holds (tape_constraints F ind arg2 prev next rn flag result) x <->
  [/\ xval x prev != 0 -> xval x next = 1 /\ xval x flag = 1,
      xval x rn = xval x (nth 0%N ind 30) * (1 - xval x arg2),
      xval x (nth 0%N ind 30) != 0 -> xval x arg2 != 1 -> xval x flag = 1 &
      xval x flag != 0 -> xval x result = 0].
Proof.
rewrite /tape_constraints 4!holds_cons holds1 /constraint_holds; cbn [c_a c_b c_c]; rewrite !fsE.
have one (a : F) : 1 - a = 0 <-> a = 1.
  by split=> [/eqP|->]; rewrite ?subrr // subr_eq0 => /eqP.
split=> [[h1 [h2 [h3 [h4 h5]]]]|[h1 h2 h3 h4]].
  split=> //; last by move/mul0_imp: h5.
  - by move=> hp; split; apply/one; [move/mul0_imp: h1|move/mul0_imp: h2]; apply.
  - move=> hi ha; apply/one; move/mul0_imp: h4; apply; rewrite -h3 mulf_eq0 (negbTE hi) /= subr_eq0.
    by rewrite eq_sym.
split; [|split; [|split; [|split]]]; rewrite ?h2 //.
- by apply/mul0_imp => /h1 [/one].
- by apply/mul0_imp => /h1 [_ /one].
- apply/mul0_imp; rewrite mulf_eq0 negb_or subr_eq0 => /andP [hi ha].
  by apply/one; apply: h3 => //; rewrite eq_sym.
- exact/mul0_imp.
Qed.
End Facts.
