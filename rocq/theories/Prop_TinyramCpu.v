(** C53: the argument decoder and the consistency enforcer of the TinyRAM CPU checker force
    the register file, the flag and the program counter of one step.

    [bits_are x vs bs] says that the assignment [x] gives the variables [vs] the bits [bs],
    least significant first, and [bits_nat bs] is their number.  The theorems range over all
    assignments [x] that satisfy the gadget's constraints. *)
From mathcomp Require Import all_ssreflect all_algebra zify.
From Verif Require Import Outcome Lincomb LincombSpec LincombFacts R1CS R1CSSpec R1CSFacts Fieldtac.
From Verif Require Import Protoboard GadgetSpec GadgetLogic BasicGadgets BasicGadgetsFacts BasicGadgetsMore.
From Verif Require Import BasicGadgetsCopy GadgetNew GadgetSeq Benes Alu AluSpec AluFacts TinyramCpu TinyramCpuFacts Prop_Alu.
Set Implicit Arguments.
Unset Strict Implicit.
Unset Printing Implicit Defensive.
Local Open Scope ring_scope.
Import GRing.Theory.

(** * Specification: the instruction set by opcode number.
    0 to 19 are the arithmetic, comparison and move instructions, 20 to 22 the jumps,
    26 and 28 the stores, 27 and 29 the loads, 30 is [read], 31 is [answer]; 23 to 25 are unused. *)
Definition writes_register (op : nat) : bool := (op <= 19)%N || [|| op == 27, op == 29 | op == 30]%N.
Definition is_jump (op : nat) : bool := (20 <= op <= 22)%N.
Definition stays (op : nat) : bool := (23 <= op <= 25)%N || (op == 31)%N.

Section Props.
Variable F : fieldType.
Variable R : bigint_repr F.
Implicit Types (x : seq F) (pb : protoboard F).
Let bit (b : bool) : F := (nat_of_bool b)%:R.
(** exactly the indicator of opcode [op] is 1 *)
Definition indicates x (inds : seq nat) (op : nat) : Prop :=
  (op < 32)%N /\ forall j, (j < 32)%N -> xval x (nth 0%N inds j) = bit (j == op).

(** The argument decoder: the indices are numbers in binary; the destination and first
    argument values are those of the registers they name, which exist; the second argument
    is the number itself if it is an immediate, and otherwise the value of the register it
    names, which exists. *)
Theorem C53_arguments pb rw iw imm desidx arg1idx arg2idx regs desval arg1val arg2val g pb' x (i : bool) :
  pb_wf pb -> arg_decoder_new pb rw iw imm desidx arg1idx arg2idx regs desval arg1val arg2val = Ok (g, pb') ->
  (size regs <= fp_order R)%N -> (2 ^ rw <= fp_order R)%N -> (2 ^ iw <= fp_order R)%N ->
  xval x imm = bit i -> holds (arg_decoder_constraints g) x ->
  exists ds as_ bs, let: (d, a, b) := (bits_nat ds, bits_nat as_, bits_nat bs) in
    [/\ bits_are x desidx ds, bits_are x arg1idx as_, bits_are x arg2idx bs,
        (d < size regs)%N /\ xval x desval = xval x (nth 0%N regs d) &
        [/\ (a < size regs)%N, xval x arg1val = xval x (nth 0%N regs a) &
            if i then xval x arg2val = b%:R
            else (b < size regs)%N /\ xval x arg2val = xval x (nth 0%N regs b)]].
Proof. exact: arg_decoder_sound. Qed.

(** The consistency enforcer: the instruction's result goes to the destination register and
    its flag to the flag, if the instruction writes a register; otherwise the destination
    register keeps its old value and so does the flag.  All other registers are unchanged.
    A jump sets the program counter to the instruction's result, [answer] and the unused
    opcodes leave it, and all other instructions add one. *)
Theorem C53_step pb rw inds results flags desidx pc regs desval flag out_pc out_regs out_flag g pb' x op ds :
  pb_wf pb ->
  enforcer_new pb rw inds results flags desidx pc regs desval flag out_pc out_regs out_flag = Ok (g, pb') ->
  size inds = 32%N -> size out_regs = size regs -> (size regs <= fp_order R)%N -> (2 ^ rw <= fp_order R)%N ->
  indicates x inds op -> bits_are x desidx ds ->
  holds (enforcer_constraints g (size regs)) x ->
  let d := bits_nat ds in
  [/\ (d < size regs)%N,
      xval x (nth 0%N out_regs d) = (if writes_register op then xval x (nth 0%N results op) else xval x desval),
      forall i, (i < size regs)%N -> i != d -> xval x (nth 0%N out_regs i) = xval x (nth 0%N regs i),
      xval x out_flag = (if writes_register op then xval x (nth 0%N flags op) else xval x flag) &
      xval x out_pc = (if is_jump op then xval x (nth 0%N results op)
                       else if stays op then xval x pc else xval x pc + 1)].
Proof.
move=> hw hg hn hsz hk hrw [hop hone] hds hh.
have e1 : writes_register op = (op \in opcodes_register) by move: op hop {hone}; do 32!case=> //.
have e2 : is_jump op = (op \in opcodes_control_flow) by move: op hop {hone e1}; do 32!case=> //.
have e3 : stays op = (op \in opcodes_stall) by move: op hop {hone e1 e2}; do 32!case=> //.
rewrite e1 e2 e3; apply: (enforcer_sound (R := R) hw hg) => //.
by move=> j; rewrite hn; exact: hone.
Qed.

(** The two together: a step writes at most the destination register. *)
Theorem C53_registers pb rw iw imm desidx arg1idx arg2idx regs desval arg1val arg2val g pb1
    pb2 inds results flags pc flag out_pc out_regs out_flag h pb3 x op (i : bool) :
  pb_wf pb -> arg_decoder_new pb rw iw imm desidx arg1idx arg2idx regs desval arg1val arg2val = Ok (g, pb1) ->
  pb_wf pb2 ->
  enforcer_new pb2 rw inds results flags desidx pc regs desval flag out_pc out_regs out_flag = Ok (h, pb3) ->
  (size regs <= fp_order R)%N -> (2 ^ rw <= fp_order R)%N -> (2 ^ iw <= fp_order R)%N ->
  size inds = 32%N -> size out_regs = size regs -> xval x imm = bit i -> indicates x inds op ->
  holds (arg_decoder_constraints g ++ enforcer_constraints h (size regs)) x ->
  exists ds, bits_are x desidx ds /\ forall j, (j < size regs)%N ->
    xval x (nth 0%N out_regs j) =
    if writes_register op && (j == bits_nat ds) then xval x (nth 0%N results op) else xval x (nth 0%N regs j).
Proof.
move=> hw hg hw2 hh hk hrw hiw hn hsz hi hop /holds_cat [h1 h2].
have [ds [as_ [bs [hds _ _ [_ hdv] _]]]] := C53_arguments hw hg hk hrw hiw hi h1.
have [hd ho hrest _ _] := C53_step hw2 hh hn hsz hk hrw hop hds h2.
exists ds; split=> // j hj; case: (j =P bits_nat ds) => [->|/eqP ne]; last by rewrite andbF hrest.
by rewrite andbT ho hdv.
Qed.
End Props.

(** Two registers, holding 5 and 7, over the field of order 17: destination 1, first
    argument 0, and as second argument the register 1 or the number 3. *)
Local Open Scope nat_scope.
Definition dec17 (imm : bool) (b : seq nat) : protoboard F17 :=
  upd (allocate_array (pb_new F17) 10).2 [seq n%:R%R | n <- [:: nat_of_bool imm; 1; 0] ++ b ++ [:: 5; 7; 0; 0; 0]] [::].
Example C53_ex_arguments :
  let run imm b := alu_runs (arg_decoder_new (dec17 imm b) 1 2 1 [:: 2] [:: 3] [:: 4; 5] [:: 6; 7] 8 9 10)
    (arg_decoder_witness repr17) (@arg_decoder_constraints F17) in
  [&& run false [:: 1; 0] [:: (8, 7); (9, 5); (10, 7)], run true [:: 1; 1] [:: (8, 7); (9, 5); (10, 3)],
      (2 ^ 2 <= fp_order repr17) & (2 <= fp_order repr17)].
Proof. by vm_compute. Qed.
(** Opcode 4 (add), 20 (jmp), 26 (store) and 31 (answer), with result 9 and flag 1, from
    program counter 3, flag 0 and destination register 1. *)
Definition enf17 (op : nat) : protoboard F17 :=
  upd (allocate_array (pb_new F17) 106).2
    [seq n%:R%R | n <- [seq nat_of_bool (j == op) | j <- iota 0 32] ++ nseq 32 9 ++ nseq 32 1 ++ [:: 1; 3; 5; 7; 7; 0; 0; 0; 0; 0]] [::].
Example C53_ex_step :
  let run op := alu_runs (enforcer_new (enf17 op) 1 (iota 1 32) (iota 33 32) (iota 65 32) [:: 97] 98 [:: 99; 100] 101 102
                            103 [:: 104; 105] 106)
    (fun g => enforcer_witness repr17 g 2) (fun g => enforcer_constraints g 2) in
  [&& run 4 [:: (103, 4); (104, 5); (105, 9); (106, 1)], run 20 [:: (103, 9); (104, 5); (105, 7); (106, 0)],
      run 26 [:: (103, 4); (104, 5); (105, 7); (106, 0)] & run 31 [:: (103, 3); (104, 5); (105, 7); (106, 0)]].
Proof. by vm_compute. Qed.

Print Assumptions C53_arguments.
Print Assumptions C53_step.
Print Assumptions C53_registers.
