(** C56: the TinyRAM CPU checker decodes the instruction, selects its opcode, and binds
    acceptance and the reads of the tapes.

    [bits_are x vs bs] says that the assignment [x] gives the variables [vs] the bits [bs],
    least significant first, and [bits_nat bs] is their number.  [low_bits n d] are the low
    [n] bits of [d]. *)
From mathcomp Require Import all_ssreflect all_algebra zify.
From Verif Require Import Outcome Lincomb LincombSpec LincombFacts R1CS R1CSSpec R1CSFacts Fieldtac.
From Verif Require Import Protoboard GadgetSpec GadgetLogic BasicGadgets BasicGadgetsFacts BasicGadgetsMore.
From Verif Require Import Alu AluSpec AluFacts TinyramTop TinyramTopFacts Prop_Alu.
From Verif Require Import StdMap MerkleTree Memory Prop_Memory Tinyram Prop_Tinyram.
Set Implicit Arguments.
Unset Strict Implicit.
Unset Printing Implicit Defensive.
Local Open Scope ring_scope.
Import GRing.Theory.

Section Props.
Variable F : fieldType.
Variable R : bigint_repr F.
Implicit Types (x : seq F).

(** The checker cuts the double word at the program counter into the fields from which
    [as_dword] made it, for every instruction in range. *)
Theorem C56_decode ap ti d x v : fits ap -> in_range ap ti -> as_dword ap ti = Ok d ->
  bits_are x v (low_bits (2 * ap_w ap) d) ->
  exists2 p, parse_instruction (reg_arg_or_imm_width ap) (instruction_padding_width ap) (reg_arg_width ap) opcode_width v = Ok p &
  [/\ bits_are x (ib_arg2 p) (low_bits (reg_arg_or_imm_width ap) (ti_arg2idx_or_imm ti)),
      bits_are x (ib_arg1 p) (low_bits (reg_arg_width ap) (ti_arg1idx ti)),
      bits_are x (ib_des p) (low_bits (reg_arg_width ap) (ti_desidx ti)),
      xval x (ib_is_imm p) = (nat_of_bool (ti_arg2_is_imm ti))%:R &
      bits_are x (ib_opcode p) (low_bits 5 (ti_opcode ti))].
Proof.
move=> hf hr hd hb; have [e1 [_ e3]] := encode_spec hf hr.
have ed : d = encoded ap ti by move: hd; rewrite e1 => -[].
rewrite ed e3 in hb; clear e1 e3 hd ed.
rewrite -/(reg_arg_width ap) -/(reg_arg_or_imm_width ap) in hb *.
move: (reg_arg_or_imm_width ap) (instruction_padding_width ap) (reg_arg_width ap) hb => iw pad rw hb.
have sl n a : size (low_bits n a) = n by rewrite size_map size_iota.
have sv : size v = (iw + pad + rw + rw + 1 + opcode_width)%N.
  have := congr1 size hb; rewrite !size_map !size_cat !sl size_nseq opcode_widthE /= => ->.
  by clear; lia.
rewrite /parse_instruction sv eqxx /=; eexists; first reflexivity.
cbn [ib_arg2 ib_arg1 ib_des ib_is_imm ib_opcode].
have t0 := bits_take iw hb; rewrite take_size_cat ?sl // in t0.
have d1 := bits_drop (iw + pad) hb.
rewrite catA drop_size_cat ?size_cat ?sl ?size_nseq // in d1.
have t1 := bits_take rw d1; rewrite take_size_cat ?sl // in t1.
have d2 := bits_drop rw d1; rewrite drop_size_cat ?sl // in d2.
have t2 := bits_take rw d2; rewrite take_size_cat ?sl // in t2.
have d3 := bits_drop rw d2; rewrite drop_size_cat ?sl // in d3.
split=> //.
- have s3 : (0 < size (drop rw (drop rw (drop (iw + pad) v))))%N.
    by move: (congr1 size d3); rewrite !size_map => ->.
  by have := congr1 (fun l => nth 0 l 0) d3; rewrite (nth_map 0%N) //=.
- have d4 := bits_drop 1 d3; rewrite drop_size_cat // in d4.
  by have := bits_take opcode_width d4; rewrite [take _ (low_bits _ _)]take_oversize ?sl.
Qed.

(** The constraints on the indicators say exactly this: the indicator of the instruction's
    opcode is one and the others are zero. *)
Theorem C56_opcode x opcode ind bs : (2 ^ size opcode <= fp_order R)%N -> size ind = (2 ^ size opcode)%N ->
  bits_are x opcode bs ->
  holds (opcode_constraints F opcode ind) x <->
  forall i, (i < 2 ^ size opcode)%N -> xval x (nth 0%N ind i) = (nat_of_bool (i == bits_nat bs))%:R.
Proof. by move=> hp hs hb; split; [exact: (opcode_sound hp hs hb)|exact: opcode_complete]. Qed.

(** A step is accepted only if its instruction is answer (opcode 31) and the second
    argument's value is zero. *)
Theorem C56_accept x opcode ind arg2 acc bs : (2 ^ 5 <= fp_order R)%N -> size opcode = 5%N -> size ind = (2 ^ 5)%N ->
  bits_are x opcode bs -> holds (opcode_constraints F opcode ind ++ accept_constraints F ind arg2 acc) x ->
  xval x acc != 0 -> bits_nat bs = 31%N /\ xval x arg2 = 0.
Proof.
move=> hp so si hb /holds_cat [h1 /accept_iff h2] ha; have [e1 e2] := h2 ha; split=> //.
rewrite -so in hp si; have := opcode_sound hp si hb h1 (i := 31); rewrite so => /(_ isT); rewrite e1.
by case: eqP => [//|_ /eqP]; rewrite oner_eq0.
Qed.

(** The tapes, exactly: an exhausted tape stays exhausted and raises the flag of a read, a read
    (opcode 30) of any tape but 1 raises the flag, and a raised flag makes the result zero.
    Nothing else is demanded of the flag and the result, so a read of tape 1 that is
    not exhausted may return any value. *)
Theorem C56_tapes x opcode ind arg2 prev next rn flag result bs :
  (2 ^ 5 <= fp_order R)%N -> size opcode = 5%N -> size ind = (2 ^ 5)%N -> bits_are x opcode bs ->
  holds (opcode_constraints F opcode ind) x ->
  holds (tape_constraints F ind arg2 prev next rn flag result) x <->
  [/\ xval x prev != 0 -> xval x next = 1 /\ xval x flag = 1,
      xval x rn = (if bits_nat bs == 30%N then 1 - xval x arg2 else 0),
      bits_nat bs = 30%N -> xval x arg2 != 1 -> xval x flag = 1 &
      xval x flag != 0 -> xval x result = 0].
Proof.
move=> hp so si hb h1; rewrite tape_iff.
rewrite -so in hp si; have := opcode_sound hp si hb h1 (i := 30); rewrite so => /(_ isT) ->.
rewrite (eq_sym 30%N); case: (bits_nat bs =P 30%N) => [e|ne]; rewrite ?mul1r ?mul0r ?oner_eq0 ?eqxx.
  by split=> [] [q1 q2 q3 q4]; split=> // _; apply: q3.
by split=> [] [q1 q2 q3 q4]; split.
Qed.
End Props.

(** * The hypotheses are met *)
Definition F37 : fieldType := [fieldType of 'F_37].
Definition repr37 : bigint_repr F37.
Proof.
refine (@BigintRepr F37 37 isT _ (fun a : 'F_37 => nat_of_ord a) _ _).
- by apply/eqP; vm_compute.
- by move=> a; apply: (leq_trans (ltn_ord a)).
- by move=> a; rewrite natr_Zp.
Defined.
(** The constraints, evaluated *)
Definition sumb37 (l : linear_combination F37) (x : seq F37) : F37 := foldr (fun t s => t.2 * xval x t.1 + s) 0 l.
Definition holdsb37 (cs : seq (r1cs_constraint F37)) (x : seq F37) : bool :=
  all (fun c => sumb37 (c_a c) x * sumb37 (c_b c) x == sumb37 (c_c c) x) cs.
Local Open Scope nat_scope.
(** Variables: opcode 1-5, indicators 6-37, arg2 38, accepted 39; or tape 39-43. *)
Definition top_x (op arg2 : nat) (rest : seq nat) : seq F37 :=
  [seq (nat_of_bool (odd (op %/ 2 ^ i)))%:R%R | i <- iota 0 5] ++ [seq (nat_of_bool (i == op))%:R%R | i <- iota 0 32] ++
  [seq n%:R%R | n <- arg2 :: rest].
Example C56_ex_accept : (2 ^ 5 <= fp_order repr37) &&
  holdsb37 (opcode_constraints F37 (iota 1 5) (iota 6 32) ++ accept_constraints F37 (iota 6 32) 38 39) (top_x 31 0 [:: 1]).
Proof. by vm_compute. Qed.
(** A read of tape 1 that returns 7, and a read of tape 2, which raises the flag. *)
Example C56_ex_tapes :
  let cs := opcode_constraints F37 (iota 1 5) (iota 6 32) ++ tape_constraints F37 (iota 6 32) 38 39 40 41 42 43 in
  [&& holdsb37 cs (top_x 30 1 [:: 0; 0; 0; 0; 7]), holdsb37 cs (top_x 30 2 [:: 0; 0; 36; 1; 0]) &
      ~~ holdsb37 cs (top_x 30 2 [:: 0; 0; 36; 0; 7])].
Proof. by vm_compute. Qed.
Example C56_ex_decode : fits (TinyramParams 16 16) && in_range (TinyramParams 16 16) (TinyramInstruction (BinNat.N.of_nat 18) true (BinNat.N.of_nat 1) (BinNat.N.of_nat 0) (BinNat.N.of_nat 200)).
Proof. by vm_compute. Qed.
Print Assumptions C56_decode.
Print Assumptions C56_opcode.
Print Assumptions C56_accept.
Print Assumptions C56_tapes.
