(** C39: the ALU gadgets of the TinyRAM CPU checker compute their instruction.

    A word of [w] bits is given by its list of bits [bs], least significant first; its value
    is [bits_nat bs] and its value in two's complement [signed bs].  [is_word x d bs] says
    that the assignment [x] gives the word variable [d] that word.  The theorems range over
    all assignments [x] that satisfy the gadget's constraints. *)
From mathcomp Require Import all_ssreflect all_algebra zify.
From Verif Require Import Outcome Lincomb LincombSpec LincombFacts R1CS R1CSSpec R1CSFacts Fieldtac.
From Verif Require Import Protoboard GadgetSpec GadgetLogic BasicGadgets BasicGadgetsFacts BasicGadgetsMore.
From Verif Require Import BasicGadgetsCopy GadgetNew GadgetSeq Benes Alu AluSpec AluFacts AluSound AluSound2 AluShift.
Set Implicit Arguments.
Unset Strict Implicit.
Unset Printing Implicit Defensive.
Local Open Scope ring_scope.
Import GRing.Theory.

Section Props.
Variable F : fieldType.
Variable R : bigint_repr F.
Implicit Types (x : seq F) (pb : protoboard F).
Let bit (b : bool) : F := (nat_of_bool b)%:R.

(** A word variable whose bits are constrained holds a word. *)
Theorem C39_words x d : holds (dual_variable_constraints F d true) x -> exists bs, is_word x d bs.
Proof. exact: word_of_constraints. Qed.

(** [and], [or], [xor], [not]: the result is computed bit by bit, and the flag says whether
    it is zero. *)
Theorem C39_and pb w r rf g pb' arg1 arg2 x bs cs :
  pb_wf pb -> alu_bitwise_new pb w r rf = Ok (g, pb') -> (w < fp_order R)%N ->
  size bs = w -> size cs = w -> is_word x arg1 bs -> is_word x arg2 cs ->
  holds (alu_and_constraints F arg1 arg2 g) x ->
  let v := bits_nat (bitwise andb bs cs) in xval x r = v%:R /\ xval x rf = bit (v == 0)%N.
Proof. by apply: bitwise_final => t p q h1 h2; exact: and_step. Qed.
Theorem C39_or pb w r rf g pb' arg1 arg2 x bs cs :
  pb_wf pb -> alu_bitwise_new pb w r rf = Ok (g, pb') -> (w < fp_order R)%N ->
  size bs = w -> size cs = w -> is_word x arg1 bs -> is_word x arg2 cs ->
  holds (alu_or_constraints F arg1 arg2 g) x ->
  let v := bits_nat (bitwise orb bs cs) in xval x r = v%:R /\ xval x rf = bit (v == 0)%N.
Proof. by apply: bitwise_final => t p q h1 h2; exact: or_step. Qed.
Theorem C39_xor pb w r rf g pb' arg1 arg2 x bs cs :
  pb_wf pb -> alu_bitwise_new pb w r rf = Ok (g, pb') -> (w < fp_order R)%N ->
  size bs = w -> size cs = w -> is_word x arg1 bs -> is_word x arg2 cs ->
  holds (alu_xor_constraints F arg1 arg2 g) x ->
  let v := bits_nat (bitwise addb bs cs) in xval x r = v%:R /\ xval x rf = bit (v == 0)%N.
Proof. by apply: bitwise_final => t p q h1 h2; exact: xor_step. Qed.
Theorem C39_not pb w r rf g pb' arg2 x cs :
  pb_wf pb -> alu_bitwise_new pb w r rf = Ok (g, pb') -> (w < fp_order R)%N ->
  size cs = w -> is_word x arg2 cs -> holds (alu_not_constraints F arg2 g) x ->
  let v := bits_nat (map negb cs) in xval x r = v%:R /\ xval x rf = bit (v == 0)%N.
Proof. exact: not_final. Qed.

(** [add]: the sum modulo 2^w, and the carry; [sub]: the difference modulo 2^w, and the borrow. *)
Theorem C39_add pb w r rf g pb' arg1 arg2 x bs cs :
  pb_wf pb -> alu_add_new pb w r rf = (g, pb') -> (2 ^ w.+1 <= fp_order R)%N ->
  size bs = w -> size cs = w -> is_word x arg1 bs -> is_word x arg2 cs ->
  holds (alu_add_constraints F arg1 arg2 g) x ->
  let s := (bits_nat bs + bits_nat cs)%N in
  xval x r = (s %% 2 ^ w)%N%:R /\ xval x rf = bit (2 ^ w <= s)%N.
Proof.
move=> hw hn hp sb sc h1 h2 hx; have [sg <- <-] := add_new_spec hw hn.
exact: (add_sound (R := R) sg sb sc hp h1 h2 hx).
Qed.
Theorem C39_sub pb w r rf g pb' arg1 arg2 x bs cs :
  pb_wf pb -> alu_sub_new pb w r rf = (g, pb') -> (2 ^ w.+1 <= fp_order R)%N ->
  size bs = w -> size cs = w -> is_word x arg1 bs -> is_word x arg2 cs ->
  holds (alu_sub_constraints F w arg1 arg2 g) x ->
  xval x r = ((2 ^ w + bits_nat bs - bits_nat cs) %% 2 ^ w)%N%:R /\ xval x rf = bit (bits_nat bs < bits_nat cs)%N.
Proof.
move=> hw hn hp sb sc h1 h2 hx; have [sg <- <-] := sub_new_spec hw hn.
exact: (sub_sound (R := R) sg sb sc hp h1 h2 hx).
Qed.

(** [mov] and [cmov] *)
Theorem C39_mov arg2 (f r rf : nat) x :
  holds (alu_mov_constraints F arg2 f r rf) x <-> xval x r = xval x (dv_packed arg2) /\ xval x rf = xval x f.
Proof. exact: mov_iff. Qed.
Theorem C39_cmov des arg2 (f r rf : nat) (b : bool) x : xval x f = bit b ->
  holds (alu_cmov_constraints F des arg2 f r rf) x <->
  xval x r = xval x (dv_packed (if b then arg2 else des)) /\ xval x rf = xval x f.
Proof. exact: cmov_iff. Qed.

(** [cmpe], [cmpa], [cmpae]: the flags compare the unsigned values, the destination keeps its value. *)
Theorem C39_cmp pb w des arg1 arg2 o g pb' x bs cs : pb_wf pb ->
  alu_cmp_new pb w arg1 arg2 o = Ok (g, pb') -> (2 ^ w.+1 <= fp_order R)%N ->
  size bs = w -> size cs = w -> is_word x arg1 bs -> is_word x arg2 cs ->
  holds (alu_cmp_constraints des o g) x ->
  [/\ xval x (co_e_flag o) = bit (bits_nat bs == bits_nat cs)%N,
      xval x (co_a_flag o) = bit (bits_nat cs < bits_nat bs)%N,
      xval x (co_ae_flag o) = bit (bits_nat cs <= bits_nat bs)%N &
      all (fun v => xval x v == xval x (dv_packed des)) [:: co_e o; co_a o; co_ae o]].
Proof. by move=> hw hn hp sb sc h1 h2; exact: (cmp_sound (R := R) hw hn sb sc hp h1 h2). Qed.
(** [cmpg], [cmpge]: the same for the signed values. *)
Theorem C39_cmps pb w des arg1 arg2 o g pb' x bs cs : pb_wf pb ->
  alu_cmps_new pb w o = Ok (g, pb') -> (0 < w)%N -> (2 ^ w.+1 <= fp_order R)%N ->
  size bs = w -> size cs = w -> is_word x arg1 bs -> is_word x arg2 cs ->
  holds (alu_cmps_constraints des arg1 arg2 o g) x ->
  [/\ xval x (cs_g_flag o) = bit (signed cs < signed bs), xval x (cs_ge_flag o) = bit (signed cs <= signed bs) &
      all (fun v => xval x v == xval x (dv_packed des)) [:: cs_g o; cs_ge o]].
Proof. by move=> hw hn w0 hp sb sc h1 h2; exact: (cmps_sound (R := R) hw hn w0 sb sc hp h1 h2). Qed.

(** [mull], [umulh]: the low and the high word of the product; both flags say whether the
    product does not fit a word. *)
Theorem C39_umul pb w arg1 arg2 o g pb' x bs cs : pb_wf pb ->
  alu_umul_new pb w = Ok (g, pb') -> (2 ^ (2 * w) <= fp_order R)%N ->
  size bs = w -> size cs = w -> is_word x arg1 bs -> is_word x arg2 cs ->
  holds (alu_umul_constraints F w arg1 arg2 o g) x ->
  let m := (bits_nat bs * bits_nat cs)%N in
  [/\ xval x (um_mull o) = (m %% 2 ^ w)%N%:R, xval x (um_umulh o) = (m %/ 2 ^ w)%N%:R,
      xval x (um_mull_flag o) = bit (2 ^ w <= m)%N & xval x (um_umulh_flag o) = bit (2 ^ w <= m)%N].
Proof. by move=> hw hn hp sb sc h1 h2; exact: (umul_sound (R := R) hw hn sb sc hp h1 h2). Qed.
(** [smulh]: the high word of the signed product (rounding down, modulo 2^w); the flag says
    whether the product does not fit a signed word.  The word has [w+1] bits. *)
Theorem C39_smulh pb w arg1 arg2 (result flag : nat) g pb' c x bs cs : pb_wf pb ->
  alu_smul_new pb w.+1 = (g, pb') -> alu_smul_constraints F w.+1 arg1 arg2 result flag g = Ok c ->
  (2 ^ (2 * w.+1).+1 <= fp_order R)%N ->
  size bs = w.+1 -> size cs = w.+1 -> is_word x arg1 bs -> is_word x arg2 cs ->
  holds c x ->
  let p := signed bs * signed cs in
  xval x result = (modz (divz p (2 ^ w.+1)%N) (2 ^ w.+1)%N)%:~R /\
  xval x flag = bit (~~ (- (2 ^ w)%N%:Z <= p < (2 ^ w)%N%:Z)).
Proof. by move=> hw hn hc hp sb sc h1 h2; exact: (smul_sound (R := R) hw hn hc sb sc hp h1 h2). Qed.
(** Its constraints exist for words of up to 62 bits; for longer ones a shift is undefined. *)
Theorem C39_smulh_defined w arg1 arg2 (result flag : nat) g :
  (exists c, alu_smul_constraints F w arg1 arg2 result flag g = Ok c) <-> (w < 63)%N.
Proof.
rewrite /alu_smul_constraints; case: (leqP 64 w.+1) => h; split=> //; last by move=> _; eexists.
by case.
by rewrite ltnNge (h : (63 <= w)%N).
Qed.

(** [udiv], [umod]: if quotient and remainder are both known to be words, they are those of
    the division, or 0 if the divisor is.  Missing from the property: nothing in the gadget
    makes them words (see [C39_udiv_refuted], [C39_umod_refuted]), and the flags. *)
Theorem C39_divmod_partial pb w arg1 arg2 o g pb' x bs cs (q r : nat) : pb_wf pb ->
  alu_divmod_new pb w arg2 o = Ok (g, pb') ->
  (2 ^ w.+1 <= fp_order R)%N -> (2 ^ (2 * w) <= fp_order R)%N ->
  size bs = w -> size cs = w -> is_word x arg1 bs -> is_word x arg2 cs ->
  xval x (dm_q o) = q%:R -> (q < 2 ^ w)%N -> xval x (dm_r o) = r%:R -> (r < 2 ^ w)%N ->
  holds (alu_divmod_constraints arg1 arg2 o g) x ->
  if (bits_nat cs == 0)%N then q = 0%N /\ r = 0%N
  else q = (bits_nat bs %/ bits_nat cs)%N /\ r = (bits_nat bs %% bits_nat cs)%N.
Proof. by move=> hw hn hp hp2 sb sc h1 h2; exact: (divmod_sound (R := R) hw hn sb sc hp hp2 h1 h2). Qed.
(** The constraints are the same whichever variables are given as the flags. *)
Theorem C39_divmod_flags_refuted arg1 arg2 (q qf qf' r rf rf' : nat) (g : alu_divmod F) :
  alu_divmod_constraints arg1 arg2 (DivOuts q qf r rf) g = alu_divmod_constraints arg1 arg2 (DivOuts q qf' r rf') g.
Proof. by []. Qed.

(** [shr]: 0 if the shift is at least the word size, rounded up to a power of two; right for
    shifts by 0, 1, 2 and 3.  Missing: the other shifts and all of [shl] (see
    [C39_shr_refuted], [C39_shl_refuted]).  The flags are the bits shifted out first. *)
Theorem C39_shr_partial pb w (shr : nat) arg1 arg2 o g pb' x bs cs : pb_wf pb ->
  alu_shift_new pb w arg2 = Ok (g, pb') -> (0 < w)%N -> (2 ^ (w + 3) <= fp_order R)%N ->
  size bs = w -> size cs = w -> is_word x arg1 bs -> is_word x arg2 cs ->
  xval x shr = 1 ->
  holds (alu_shift_constraints F w shr arg1 arg2 o g) x ->
  [/\ (2 ^ ceil_log2 w <= bits_nat cs)%N -> xval x (so_shr o) = 0,
      (bits_nat cs < 4)%N -> (bits_nat cs < 2 ^ ceil_log2 w)%N ->
      xval x (so_shr o) = (bits_nat bs %/ 2 ^ bits_nat cs)%N%:R,
      xval x (so_shr_flag o) = bit (head false bs) & xval x (so_shl_flag o) = bit (last false bs)].
Proof. by move=> hw hn w0 hp sb sc h1 h2; exact: (shift_sound (R := R) hw hn w0 sb sc hp h1 h2). Qed.

(** [jmp], [cjmp], [cnjmp]: the next program counter is the target, a byte address without
    its [s] lowest bits, or the next instruction. *)
Theorem C39_jmp s arg2 (r : nat) x bs : is_word x arg2 bs -> (s <= size bs)%N ->
  holds (alu_jmp_constraints F s arg2 r) x <-> xval x r = (bits_nat bs %/ 2 ^ s)%N%:R.
Proof. exact: jmp_iff. Qed.
Theorem C39_cjmp s pc arg2 (f r : nat) x bs (b : bool) : is_word x arg2 bs -> (s <= size bs)%N -> xval x f = bit b ->
  holds (alu_cjmp_constraints F s pc arg2 f r) x <->
  xval x r = if b then (bits_nat bs %/ 2 ^ s)%N%:R else xval x (dv_packed pc) + 1.
Proof. exact: cjmp_iff. Qed.
Theorem C39_cnjmp s pc arg2 (f r : nat) x bs (b : bool) : is_word x arg2 bs -> (s <= size bs)%N -> xval x f = bit b ->
  holds (alu_cnjmp_constraints F s pc arg2 f r) x <->
  xval x r = if b then xval x (dv_packed pc) + 1 else (bits_nat bs %/ 2 ^ s)%N%:R.
Proof. exact: cnjmp_iff. Qed.

(** ** What the shift gadget accepts *)
Definition W8 (first : nat) : dual_variable := DualVariable first (iota first.+1 8).
Definition ex_shift_pb : protoboard F := (allocate_array (pb_new F) 23).2.
Definition ex_shift : alu_shift := (AluShift 24 (iota 25 4) [:: [:: 29]; [:: 30; 31]; iota 32 4] 36
  (Disjunction 37 (iota 14 5) 36) 38 (iota 39 8) 47)%N.
Definition ex_outs : shift_outs := (ShiftOuts 20 21 22 23)%N.
Definition eight : seq bool := [:: false; false; false; true; false; false; false; false].
Definition four : seq bool := [:: false; false; true; false; false; false; false; false].
Definition zero8 : seq bool := nseq 8 false.
Let bits (bs : seq bool) : seq F := map bit bs.
(** 8 shifted right by 4 *)
Definition ex_shr : seq F :=
  8%:R :: bits eight ++ 4%:R :: bits four ++ [:: 1; 1; 0; 0; 0; 16%:R; 8%:R; 8%:R; 8%:R; 1] ++
  nseq 7 0 ++ [:: 0; 0; 1] ++ [:: 1; 0; 0; 0; 0; 0; 0; 0; 128%:R].
(** 8 shifted left by 0, with [v] as the result *)
Definition ex_shl (v : F) : seq F :=
  8%:R :: bits eight ++ 0 :: bits zero8 ++ [:: 0; 8%:R; 0; v; 0; 16%:R; 16%:R; 16%:R; 16%:R; 16%:R] ++
  nseq 7 0 ++ [:: 0; 0; 16%:R] ++ [:: 0; 0; 0; 0; 1; 0; 0; 0; 8%:R].

Let X (x : seq F) (n : nat) := xval x n.
Lemma ex_shift_holds x bs cs rs (s : bool) :
  bits_are x (iota 2 8) bs -> bits_are x (iota 11 8) cs -> size bs = 8%N -> size cs = 8%N -> X x 19 = bit s ->
  X x 24 = (bits_nat (rev bs))%:R -> X x 25 = (if s then X x 1 else X x 24) ->
  all (fun v => X x v == 0) (iota 29 7) ->
  (forall i, (i < 3)%N -> X x (25 + i) = if nth false cs i then 2%:R ^+ i.+1 * X x (26 + i) else X x (26 + i)) ->
  drop 3 cs = nseq 5 false -> X x 36 = 0 -> X x 37 = 0 -> X x 38 = X x 28 ->
  bits_are x (iota 39 8) rs -> X x 38 = (bits_nat rs)%:R -> X x 47 = (bits_nat (rev rs))%:R ->
  X x 20 = (if s then X x 38 else X x 47) ->
  X x 21 = bit (head false bs) -> X x 23 = bit (last false bs) ->
  holds (alu_shift_constraints F 8 19%N (W8 1) (W8 10) ex_outs ex_shift) x.
Proof.
rewrite /X => h1 h2 sb sc hs h24 h25 hz ht hd h36 h37 h38 hr hr1 hr2 h20 h21 h23.
have hlog : ceil_log2 8 = 3%N by vm_compute.
have hsteps : holds (flatten [seq alu_shift_step F (W8 10) ex_shift i | i <- iota 0 3]) x.
  apply/holds_flatten => i /In_iota; rewrite add0n => /= hi.
  have hin : {subset nth [::] (sh_out_bits ex_shift) i <= iota 29 7} by case: i hi => [|[|[|//]]] _; apply/allP.
  have hz0 v : v \in nth [::] (sh_out_bits ex_shift) i -> xval x v = 0 by move/hin; move/allP: hz => /[apply] /eqP.
  apply/shift_step_iff; first by case: i hi {hin hz0} => [|[|[|//]]].
  split; first by apply/allP => v /hz0 ->; rewrite /isbit eqxx.
  have -> : pack [seq xval x i0 | i0 <- nth [::] (sh_out_bits ex_shift) i] = 0.
    elim: (nth _ _ _) hz0 => [|v vs IH] //= h; rewrite h ?mem_head // IH ?mulr0 ?addr0 // => u hu.
    by apply: h; rewrite inE hu orbT.
  have hn : xval x (nth ONE (dv_bits (W8 10)) i) = bit (nth false cs i).
    have hic : (i < size cs)%N by rewrite sc; move: hi; clear; lia.
    have := bits_nth h2 hic; rewrite (set_nth_default ONE) ?size_iota //.
    by move: hi; clear; lia.
  have hb j : (j < 4)%N -> barrel_at ex_shift j = (25 + j)%N by case: j => [|[|[|[|//]]]].
  rewrite hn !hb ?(ht i hi) //; [|by move: hi; clear; lia].
  rewrite addSnnS; move: (xval x _) => v; case: (nth false cs i); rewrite /bit ?mulr1 ?mulr0 ?subrr ?addr0 //.
  by rewrite mulrBl mul1r.
rewrite /alu_shift_constraints hlog; move: (flatten _) hsteps => st hsteps; rewrite !holds_cat !holds_rc !holds_nil; cbn [foldr]; rewrite !vrE !tmE !addr0 ?xone !mul1r !mulN1r.
split; first by apply/(pv_false _ (bits_rev h1)).
split; first by split=> //; rewrite /barrel_at /= hs h25; case: s {hs h25 h20}; rewrite /bit ?mulr1 ?mulr0 ?subrr.
split; first exact: hsteps.
split.
  have hsum : \sum_(v <- iota 14 5) xval x v = 0.
    have := bits_drop 3 h2; rewrite hd /bits_are => e.
    rewrite big_seq big1 // => v hv; have : xval x v \in map (xval x) (drop 3 (iota 11 8)) by apply: map_f.
    by rewrite e /= !inE !orbb => /eqP.
  apply/disjunctionE; change (xval x 37 * (\sum_(v <- iota 14 5) xval x v) = xval x 36 /\
    (1 - xval x 36) * (\sum_(v <- iota 14 5) xval x v) = 0).
  by rewrite hsum h36 !mulr0.
split; first by split=> //; rewrite /= h36 subr0 mul1r h38.
split; first by apply/(pv_true_iff _ hr).
split; first by apply/(pv_false _ (bits_rev hr)).
have hsel : (xval x 38 - xval x 47) * xval x 19 = xval x 20 - xval x 47.
  by rewrite hs h20; case: s {hs h25 h20}; rewrite /bit ?mulr1 ?mulr0 ?subrr.
split; first exact: hsel.
split; first exact: hsel.
split; last split=> //.
  rewrite [so_shr_flag _]/= h21.
  by move: h1; rewrite /bits_are; case: (bs) sb => [|b l] // _ [->].
rewrite [so_shl_flag _]/= h23.
have := bits_nth (i := 7) h1; rewrite sb => /(_ isT) /=; rewrite -(nth_last false) sb; exact: id.
Qed.


(** The gadget built on 23 variables: 8 >> 4 is 0, and the gadget accepts 1. *)
Theorem C39_shr_refuted : exists pb1 x,
  [/\ alu_shift_new ex_shift_pb 8 (W8 10) = Ok (ex_shift, pb1),
      is_word x (W8 1) eight, is_word x (W8 10) four, xval x 19 = 1 &
      holds (alu_shift_constraints F 8 19%N (W8 1) (W8 10) ex_outs ex_shift) x /\
      xval x (so_shr ex_outs) != (bits_nat eight %/ 2 ^ bits_nat four)%N%:R].
Proof.
eexists; exists ex_shr; split; [by vm_compute|by split|by split|by []|].
split; last by rewrite [so_shr _]/= (_ : (_ %/ _)%N = 0%N) ?oner_neq0.
apply: (@ex_shift_holds _ eight four [:: true; false; false; false; false; false; false; false] true); try reflexivity.
  by rewrite /= !eqxx.
case=> [|[|[|//]]] _; first reflexivity; first reflexivity.
by rewrite /X [nth _ _ _]/= [xval _ (25 + _)]/= [xval _ (26 + _)]/= mulr1 -natrX.
Qed.
(** With [shl] selected, any value at all is accepted as the result of 8 << 0. *)
Theorem C39_shl_refuted v : exists pb1 x,
  [/\ alu_shift_new ex_shift_pb 8 (W8 10) = Ok (ex_shift, pb1),
      is_word x (W8 1) eight, is_word x (W8 10) zero8, xval x 19 = 0 &
      holds (alu_shift_constraints F 8 19%N (W8 1) (W8 10) ex_outs ex_shift) x /\ xval x (so_shl ex_outs) = v].
Proof.
eexists; exists (ex_shl v); split; [by vm_compute|by split|by split|by []|].
split; last by [].
apply: (@ex_shift_holds _ eight zero8 [:: false; false; false; false; true; false; false; false] false); try reflexivity.
  by rewrite /= !eqxx.
case=> [|[|[|//]]] _; reflexivity.
Qed.
End Props.

(** * Concrete cases, in the field of order 17 *)
Definition F17 : fieldType := [fieldType of 'F_17].
Definition repr17 : bigint_repr F17.
Proof.
refine (@BigintRepr F17 17 isT _ (fun a : 'F_17 => nat_of_ord a) _ _).
- by apply/eqP; vm_compute.
- by move=> a; apply: (leq_trans (ltn_ord a)).
- by move=> a; rewrite natr_Zp.
Defined.
Definition sumb (l : linear_combination F17) (x : seq F17) : F17 := foldr (fun t s => t.2 * xval x t.1 + s) 0 l.
Definition holdsb (cs : seq (r1cs_constraint F17)) (x : seq F17) : bool :=
  foldr (fun c b => (sumb (c_a c) x * sumb (c_b c) x == sumb (c_c c) x) && b) true cs.
Lemma holdsbP cs x : holdsb cs x -> holds cs x.
Proof.
elim: cs => [|c cs IH] /=; first by rewrite holds_nil.
case/andP => /eqP h1 /IH h2; rewrite holds_cons; split=> //.
by move: h1; rewrite /constraint_holds /sumb /formal_sum !unlock.
Qed.
(** Sixteen variables: the words of two bits [arg1], [arg2], [des], a flag, and six outputs. *)
Definition arg1_17 := (DualVariable 1 [:: 2; 3])%N.
Definition arg2_17 := (DualVariable 4 [:: 5; 6])%N.
Definition des_17 := (DualVariable 7 [:: 8; 9])%N.
Definition two_bits (n : nat) : seq bool := [:: odd n; odd n./2].
Definition word17 (n : nat) : seq F17 := n%:R :: [seq (nat_of_bool b)%:R | b <- two_bits n].
Definition pb17 (a b d : nat) (f : bool) : protoboard F17 :=
  upd (allocate_array (pb_new F17) 16).2 (word17 a ++ word17 b ++ word17 d ++ (nat_of_bool f)%:R :: nseq 6 0) [::].

Definition div_17 : div_outs := (DivOuts 11 12 13 14)%N.
Section Division.
Variable F : fieldType.
Definition ex_div_pb : protoboard F := (allocate_array (pb_new F) 16).2.
Definition ex_div : alu_divmod F :=
  (AluDivmod 17 18 19 (Comparison 2 (plc_of_var F 13) (plc_of_var F 4) 18 ONE [:: 20; 21; ONE] 22 23
    (Packing (plcs_of_vars F [:: 20; 21; ONE]) (plc_of_var F 22)) (Disjunction 24 [:: 20; 21] 23)))%N.
(** Values for [q], its flag, [r], its flag; the inverse of the divisor, 1, the dividend, the
    low two bits of 4 + divisor - [r], and the auxiliary variables of the comparison. *)
Definition ex_div_x (a b : nat) (q r inv : F) (alpha0 alpha1 : F) : seq F :=
  let word n := n%:R :: [seq (nat_of_bool b)%:R | b <- two_bits n] in
  word a ++ word b ++ word 0%N ++ [:: 0; q; 0; r; 0; 0; 0; inv; 1; a%:R; alpha0; alpha1;
    4%:R + b%:R - r; 1; (alpha0 + alpha1)^-1].
Lemma ex_div_new : exists pb1, alu_divmod_new ex_div_pb 2 arg2_17 div_17 = Ok (ex_div, pb1).
Proof. by eexists; vm_compute. Qed.
Lemma ex_div_words q r inv u v :
  (is_word (ex_div_x 1 1 q r inv u v) arg1_17 (two_bits 1) /\ is_word (ex_div_x 1 1 q r inv u v) arg2_17 (two_bits 1)) /\
  (is_word (ex_div_x 1 2 q r inv u v) arg1_17 (two_bits 1) /\ is_word (ex_div_x 1 2 q r inv u v) arg2_17 (two_bits 2)).
Proof. by split; split; split. Qed.
Lemma ex_div_outs a b q r inv u v :
  xval (ex_div_x a b q r inv u v) (dm_q div_17) = q /\ xval (ex_div_x a b q r inv u v) (dm_r div_17) = r.
Proof. by []. Qed.
End Division.
(** 1 / 1 is 1, and the gadget accepts 2, which is a word; the remainder is then -1. *)
Theorem C39_udiv_refuted : exists pb1 x,
  [/\ alu_divmod_new (ex_div_pb F17) 2 arg2_17 div_17 = Ok (ex_div F17, pb1),
      is_word x arg1_17 (two_bits 1), is_word x arg2_17 (two_bits 1),
      holds (alu_divmod_constraints arg1_17 arg2_17 div_17 (ex_div F17)) x & xval x (dm_q div_17) = 2%:R].
Proof.
have [pb1 h] := ex_div_new F17; exists pb1, (ex_div_x 1 1 2%:R (- 1) 1 0 1).
have [[h1 h2] _] := @ex_div_words F17 2%:R (- 1) 1 0 1.
split; [exact: h|exact: h1|exact: h2| |exact: (proj1 (ex_div_outs _ _ _ _ _ _ _))].
by apply: holdsbP; vm_compute.
Qed.
(** 1 mod 2 is 1, and the gadget accepts 0; the quotient is then 1/2 in the field. *)
Theorem C39_umod_refuted : exists pb1 x,
  [/\ alu_divmod_new (ex_div_pb F17) 2 arg2_17 div_17 = Ok (ex_div F17, pb1),
      is_word x arg1_17 (two_bits 1), is_word x arg2_17 (two_bits 2),
      holds (alu_divmod_constraints arg1_17 arg2_17 div_17 (ex_div F17)) x & xval x (dm_r div_17) = 0].
Proof.
have [pb1 h] := ex_div_new F17; exists pb1, (ex_div_x 1 2 9%:R 0 9%:R 0 1).
have [_ [h1 h2]] := @ex_div_words F17 9%:R 0 9%:R 0 1.
split; [exact: h|exact: h1|exact: h2| |exact: (proj2 (ex_div_outs _ _ _ _ _ _ _))].
by apply: holdsbP; vm_compute.
Qed.

(** Witness generation on the gadget just built, then the constraints and the values named. *)
Definition alu_runs A (o : outcome (A * protoboard F17)) (wit : A -> protoboard F17 -> outcome (protoboard F17))
    (cs : A -> seq (r1cs_constraint F17)) (vals : seq (nat * nat)) : bool :=
  if o is Ok gp then
    if wit gp.1 gp.2 is Ok pb then
      holdsb (cs gp.1) (pb_values pb) && all (fun v => xval (pb_values pb) v.1 == v.2%:R) vals
    else false
  else false.
Local Open Scope nat_scope.
Example C39_ex_sizes : [&& (2 ^ 3 <= fp_order repr17), (2 ^ (2 * 2) <= fp_order repr17), (2 ^ (2 * 1).+1 <= fp_order repr17) &
  (2 ^ (1 + 3) <= fp_order repr17)].
Proof. by vm_compute. Qed.
Example C39_ex_bitwise : let pb := pb17 2 3 0 false in let new := alu_bitwise_new pb 2 11 12 in
  [&& alu_runs new (alu_bitwise_witness andb arg1_17 arg2_17) (alu_and_constraints F17 arg1_17 arg2_17) [:: (11, 2); (12, 0)],
      alu_runs new (alu_bitwise_witness orb arg1_17 arg2_17) (alu_or_constraints F17 arg1_17 arg2_17) [:: (11, 3); (12, 0)],
      alu_runs new (alu_bitwise_witness addb arg1_17 arg2_17) (alu_xor_constraints F17 arg1_17 arg2_17) [:: (11, 1); (12, 0)] &
      alu_runs new (alu_bitwise_witness (fun _ b => ~~ b) arg1_17 arg2_17) (alu_not_constraints F17 arg2_17) [:: (11, 0); (12, 1)]].
Proof. by vm_compute. Qed.
Example C39_ex_add_sub : let pb := pb17 2 3 0 false in
  alu_runs (Ok (alu_add_new pb 2 11 12)) (alu_add_witness repr17 arg1_17 arg2_17) (alu_add_constraints F17 arg1_17 arg2_17) [:: (11, 1); (12, 1)] &&
  alu_runs (Ok (alu_sub_new pb 2 11 12)) (alu_sub_witness repr17 2 arg1_17 arg2_17) (alu_sub_constraints F17 2 arg1_17 arg2_17) [:: (11, 3); (12, 1)].
Proof. by vm_compute. Qed.
Example C39_ex_mov : let pb f := Ok (tt, pb17 2 3 1 f) in
  [&& alu_runs (pb true) (fun=> alu_mov_witness arg2_17 10 11 12) (fun=> alu_mov_constraints F17 arg2_17 10 11 12) [:: (11, 3); (12, 1)],
      alu_runs (pb true) (fun=> alu_cmov_witness des_17 arg2_17 10 11 12) (fun=> alu_cmov_constraints F17 des_17 arg2_17 10 11 12) [:: (11, 3); (12, 1)] &
      alu_runs (pb false) (fun=> alu_cmov_witness des_17 arg2_17 10 11 12) (fun=> alu_cmov_constraints F17 des_17 arg2_17 10 11 12) [:: (11, 1); (12, 0)]].
Proof. by vm_compute. Qed.
Definition cmp_17 : cmp_outs := CmpOuts 11 12 13 14 15 16.
Definition cmps_17 : cmps_outs := CmpsOuts 11 12 13 14.
Example C39_ex_cmp :
  let run a b := alu_runs (alu_cmp_new (pb17 a b 1 false) 2 arg1_17 arg2_17 cmp_17) (alu_cmp_witness repr17 des_17 cmp_17)
    (alu_cmp_constraints des_17 cmp_17) in
  [&& run 3 2 [:: (11, 1); (12, 0); (14, 1); (16, 1)], run 2 2 [:: (12, 1); (14, 0); (16, 1)] & run 1 2 [:: (12, 0); (14, 0); (16, 0)]].
Proof. by vm_compute. Qed.
(** As signed words of two bits, 3 is -1 and 2 is -2. *)
Example C39_ex_cmps :
  let run a b := alu_runs (alu_cmps_new (pb17 a b 1 false) 2 cmps_17) (alu_cmps_witness repr17 des_17 arg1_17 arg2_17 cmps_17)
    (alu_cmps_constraints des_17 arg1_17 arg2_17 cmps_17) in
  [&& run 3 2 [:: (11, 1); (12, 1); (13, 1); (14, 1)], run 2 2 [:: (12, 0); (14, 1)], run 2 1 [:: (12, 0); (14, 0)] & run 0 3 [:: (12, 1); (14, 1)]].
Proof. by vm_compute. Qed.
Definition mul_17 : umul_outs := UmulOuts 11 12 13 14.
Example C39_ex_umul :
  let run a b := alu_runs (alu_umul_new (pb17 a b 1 false) 2) (alu_umul_witness repr17 2 arg1_17 arg2_17 mul_17)
    (alu_umul_constraints F17 2 arg1_17 arg2_17 mul_17) in
  run 3 3 [:: (11, 1); (12, 1); (13, 2); (14, 1)] && run 3 1 [:: (11, 3); (12, 0); (13, 0); (14, 0)].
Proof. by vm_compute. Qed.
(** With one bit, 1 means -1: -1 * -1 does not fit. *)
Definition one_bit (d : dual_variable) := DualVariable (head 0 (dv_bits d)) (take 1 (dv_bits d)).
Example C39_ex_smulh :
  let cs g := if alu_smul_constraints F17 1 (one_bit arg1_17) (one_bit arg2_17) 11 12 g is Ok c then c else [::] in
  let run a b := alu_runs (Ok (alu_smul_new (pb17 a b 1 false) 1)) (alu_smul_witness repr17 1 (one_bit arg1_17) (one_bit arg2_17) 11 12) cs in
  run 1 1 [:: (11, 0); (12, 1)] && run 1 0 [:: (11, 0); (12, 0)].
Proof. by vm_compute. Qed.
Example C39_ex_divmod :
  let run a b := alu_runs (alu_divmod_new (pb17 a b 1 false) 2 arg2_17 div_17) (alu_divmod_witness repr17 arg1_17 arg2_17 div_17)
    (alu_divmod_constraints arg1_17 arg2_17 div_17) in
  run 3 2 [:: (11, 1); (12, 0); (13, 1); (14, 0)] && run 3 0 [:: (11, 0); (12, 1); (13, 0); (14, 1)].
Proof. by vm_compute. Qed.
Definition shift_17 : shift_outs := ShiftOuts 11 12 13 14.
Example C39_ex_shift :
  let run a b := alu_runs (alu_shift_new (pb17 a b 1 true) 2 arg2_17) (alu_shift_witness repr17 2 10 arg1_17 arg2_17 shift_17)
    (alu_shift_constraints F17 2 10 arg1_17 arg2_17 shift_17) in
  [&& run 3 1 [:: (11, 1); (12, 1); (14, 1)], run 2 0 [:: (11, 2); (12, 0); (14, 1)] & run 3 2 [:: (11, 0)]].
Proof. by vm_compute. Qed.
(** One-bit words, for which the field is large enough for the theorem. *)
Example C39_ex_shift1 :
  let run a b := alu_runs (alu_shift_new (pb17 a b 1 true) 1 (one_bit arg2_17))
    (alu_shift_witness repr17 1 10 (one_bit arg1_17) (one_bit arg2_17) shift_17)
    (alu_shift_constraints F17 1 10 (one_bit arg1_17) (one_bit arg2_17) shift_17) in
  run 1 0 [:: (11, 1); (12, 1); (14, 1)] && run 1 1 [:: (11, 0); (12, 1)].
Proof. by vm_compute. Qed.
Example C39_ex_jumps : let pb f := Ok (tt, pb17 2 3 1 f) in
  let cj := alu_cjmp_constraints F17 1 des_17 arg2_17 10 11 in let cn := alu_cnjmp_constraints F17 1 des_17 arg2_17 10 11 in
  [&& alu_runs (pb true) (fun=> alu_jmp_witness repr17 1 arg2_17 11) (fun=> alu_jmp_constraints F17 1 arg2_17 11) [:: (11, 1)],
      alu_runs (pb true) (fun=> alu_cjmp_witness repr17 1 des_17 arg2_17 10 11) (fun=> cj) [:: (11, 1)],
      alu_runs (pb false) (fun=> alu_cjmp_witness repr17 1 des_17 arg2_17 10 11) (fun=> cj) [:: (11, 2)],
      alu_runs (pb true) (fun=> alu_cnjmp_witness repr17 1 des_17 arg2_17 10 11) (fun=> cn) [:: (11, 2)] &
      alu_runs (pb false) (fun=> alu_cnjmp_witness repr17 1 des_17 arg2_17 10 11) (fun=> cn) [:: (11, 1)]].
Proof. by vm_compute. Qed.

Print Assumptions C39_words.
Print Assumptions C39_and.
Print Assumptions C39_or.
Print Assumptions C39_xor.
Print Assumptions C39_not.
Print Assumptions C39_add.
Print Assumptions C39_sub.
Print Assumptions C39_mov.
Print Assumptions C39_cmov.
Print Assumptions C39_cmp.
Print Assumptions C39_cmps.
Print Assumptions C39_umul.
Print Assumptions C39_smulh.
Print Assumptions C39_smulh_defined.
Print Assumptions C39_divmod_partial.
Print Assumptions C39_divmod_flags_refuted.
Print Assumptions C39_shr_partial.
Print Assumptions C39_jmp.
Print Assumptions C39_cjmp.
Print Assumptions C39_cnjmp.
Print Assumptions C39_shr_refuted.
Print Assumptions C39_shl_refuted.
Print Assumptions C39_udiv_refuted.
Print Assumptions C39_umod_refuted.
