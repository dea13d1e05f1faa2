(** What the constraints of the ALU gadgets force.  Models nothing of /repo. *)
From mathcomp Require Import all_ssreflect all_algebra zify.
From Verif Require Import Outcome Lincomb LincombSpec LincombFacts R1CS R1CSSpec R1CSFacts Fieldtac.
From Verif Require Import Protoboard GadgetSpec GadgetLogic BasicGadgets BasicGadgetsFacts BasicGadgetsMore.
From Verif Require Import BasicGadgetsCopy GadgetNew GadgetSeq Benes Alu AluSpec.
Set Implicit Arguments.
Unset Strict Implicit.
Unset Printing Implicit Defensive.
Local Open Scope ring_scope.
Import GRing.Theory.

Lemma bits_nat_eq0 bs : (bits_nat bs == 0)%N = ~~ has id bs.
Proof. by elim: bs => [|[] bs IH] //=; rewrite add0n muln_eq0 /= IH. Qed.
Lemma bits_nat_rcons bs b : bits_nat (rcons bs b) = (bits_nat bs + 2 ^ size bs * b)%N.
Proof. by rewrite -cats1 bits_nat_cat /= muln0 addn0. Qed.

Section Facts.
Variable F : fieldType.
Variable R : bigint_repr F.
Add Field Ff : (Fth F).
Implicit Types (x : seq F).

Lemma holds1 (c : r1cs_constraint F) x : holds [:: c] x <-> constraint_holds c x.
Proof. by rewrite holds_cons holds_nil; tauto. Qed.

Lemma bits_size x vs bs : bits_are x vs bs -> size vs = size bs.
Proof. by move/(congr1 size); rewrite !size_map. Qed.
Lemma bits_nth x vs bs i : bits_are x vs bs -> (i < size bs)%N -> xval x (nth 0%N vs i) = (nat_of_bool (nth false bs i))%:R.
Proof.
move=> h hi; have e := bits_size h.
have := congr1 (fun s => nth 0 s i) h.
by rewrite (nth_map 0%N) ?e // (nth_map false).
Qed.
Lemma bits_isbit x vs bs : bits_are x vs bs -> all (fun v => isbit (xval x v)) vs.
Proof.
move=> h; have : all (@isbit F) (map (xval x) vs).
  by rewrite h all_map; apply/allP => b _ /=; exact: isbit_nat.
by rewrite all_map.
Qed.
Lemma pack_are x vs bs : bits_are x vs bs -> pack (map (xval x) vs) = (bits_nat bs)%:R.
Proof.
move=> ->; elim: bs => [|b bs IH] //=.
by rewrite IH natrD natrM.
Qed.
Lemma bits_catP x vs ws bs : bits_are x (vs ++ ws) bs ->
  bits_are x vs (take (size vs) bs) /\ bits_are x ws (drop (size vs) bs).
Proof.
rewrite /bits_are map_cat => h; split.
  by rewrite map_take -h take_size_cat // size_map.
by rewrite map_drop -h drop_size_cat // size_map.
Qed.
Lemma bits_take x vs bs n : bits_are x vs bs -> bits_are x (take n vs) (take n bs).
Proof. by rewrite /bits_are => h; rewrite !map_take h. Qed.
Lemma bits_drop x vs bs n : bits_are x vs bs -> bits_are x (drop n vs) (drop n bs).
Proof. by rewrite /bits_are => h; rewrite !map_drop h. Qed.
Lemma bits_rev x vs bs : bits_are x vs bs -> bits_are x (rev vs) (rev bs).
Proof. by rewrite /bits_are => h; rewrite !map_rev h. Qed.
Lemma bits_rcons x vs v bs b : bits_are x vs bs -> xval x v = (nat_of_bool b)%:R ->
  bits_are x (rcons vs v) (rcons bs b).
Proof. by rewrite /bits_are => h1 h2; rewrite !map_rcons h1 h2. Qed.
Lemma bits_rconsP x vs v bs : bits_are x (rcons vs v) bs -> exists b cs,
  [/\ bs = rcons cs b, bits_are x vs cs & xval x v = (nat_of_bool b)%:R].
Proof.
case/lastP: bs => [|cs b]; first by move=> /bits_size; rewrite size_rcons.
rewrite /bits_are !map_rcons => h; exists b, cs; split=> //; have := h.
  by move/(congr1 (fun s => take (size vs) s)); rewrite -!cats1 !take_size_cat ?size_map //; move/(congr1 size): h; rewrite !size_rcons !size_map => -[].
by move/(congr1 (last 0)); rewrite !last_rcons.
Qed.
Lemma isbits_are x vs : all (fun v => isbit (xval x v)) vs -> exists bs, bits_are x vs bs.
Proof.
move=> h; exists [seq bit_of (xval x v) | v <- vs].
rewrite /bits_are -map_comp; elim: vs h => [|v vs IH] //= /andP[h1 h2].
by rewrite IH // {1}(isbitP h1).
Qed.

(** ** Packing *)
Definition pv (vs : seq nat) (v : nat) : packing F := Packing (plcs_of_vars F vs) (plc_of_var F v).
Lemma pv_true x vs v : holds (packing_constraints (pv vs v) true) x -> exists bs,
  bits_are x vs bs /\ xval x v = (bits_nat bs)%:R.
Proof.
move=> /packing_constraintsE /= [h1 /(_ isT) h2].
have hall : all (fun v => isbit (xval x v)) vs.
  by move: h2; rewrite /plcs_of_vars all_map; apply: sub_all => u /=; rewrite lval_var.
have [bs hb] := isbits_are hall; exists bs; split=> //.
by rewrite -(pack_are hb) -lval_vars -h1 lval_var.
Qed.
Lemma pv_false x vs v bs : bits_are x vs bs ->
  holds (packing_constraints (pv vs v) false) x <-> xval x v = (bits_nat bs)%:R.
Proof.
move=> hb; rewrite packing_constraintsE /= lval_var lval_vars (pack_are hb).
by split=> [[]|->].
Qed.
Lemma pv_true_iff x vs v bs : bits_are x vs bs ->
  holds (packing_constraints (pv vs v) true) x <-> xval x v = (bits_nat bs)%:R.
Proof.
move=> hb; rewrite packing_constraintsE /= lval_var lval_vars (pack_are hb).
split=> [[]|->] //; split=> // _.
by rewrite /plcs_of_vars all_map; apply: sub_all (bits_isbit hb) => u /=; rewrite lval_var.
Qed.
Lemma word_of_constraints x d : holds (dual_variable_constraints F d true) x -> exists bs, is_word x d bs.
Proof. by case/pv_true => bs [h1 h2]; exists bs. Qed.
Lemma natF_eq (a b : nat) : (a < fp_order R)%N -> (b < fp_order R)%N -> a%:R = b%:R :> F -> a = b.
Proof. by move=> h1 h2 h; exact: (@natF_inj F R). Qed.

Lemma has_bits x vs bs : bits_are x vs bs -> has (fun v => bit_of (xval x v)) vs = has id bs.
Proof.
rewrite /bits_are; elim: vs bs => [|v vs IH] [|b bs] //= [h1 h2].
by rewrite h1 bit_of_nat (IH bs).
Qed.
Lemma disj_are (g : disjunction) x bs : holds (disjunction_constraints F g) x ->
  bits_are x (dj_inputs g) bs -> (size bs < fp_order R)%N ->
  xval x (dj_output g) = (nat_of_bool (bits_nat bs != 0)%N)%:R.
Proof.
move=> h hb hs; rewrite (disjunction_sound (R := R) h) ?(bits_size hb) //; last exact: bits_isbit hb.
by rewrite (has_bits hb) bits_nat_eq0 negbK.
Qed.

(** ** Sums of terms *)
Lemma rcE (A B C : seq (linear_combination F)) x :
  constraint_holds (r1cs_constraint_of_lists A B C) x <->
  (foldr (fun l s => formal_sum l x + s) 0 A) * (foldr (fun l s => formal_sum l x + s) 0 B) =
  foldr (fun l s => formal_sum l x + s) 0 C.
Proof. by rewrite constraint_of_lists_iff !unlock. Qed.
Lemma vrE x v : formal_sum (lc_of_var F v) x = xval x v.
Proof. by rewrite /lc_of_var /formal_sum /= big_seq1 /= mul1r. Qed.
Lemma tmE x v c : formal_sum (lc_of_term (var_scale v c)) x = c * xval x v.
Proof. by rewrite /formal_sum /= big_seq1. Qed.
Lemma xone x : xval x ONE = 1. Proof. by []. Qed.
Lemma holds_rc (A B C : seq (linear_combination F)) cs x :
  holds (r1cs_constraint_of_lists A B C :: cs) x <->
  (foldr (fun l s => formal_sum l x + s) 0 A) * (foldr (fun l s => formal_sum l x + s) 0 B) =
  foldr (fun l s => formal_sum l x + s) 0 C /\ holds cs x.
Proof. by rewrite holds_cons rcE. Qed.
End Facts.
