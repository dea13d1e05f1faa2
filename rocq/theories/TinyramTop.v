(** The constraints that the TinyRAM CPU checker generates itself, besides those of its parts
    and those on memory (MemoryMask.v): opcode indicators, acceptance and the input tapes
    (gadgets/cpu_checkers/tinyram/tinyram_cpu_checker.tcc:127-135, 197-235). *)
From mathcomp Require Import all_ssreflect all_algebra zify.
From Verif Require Import Outcome Lincomb R1CS Protoboard BasicGadgets.
Set Implicit Arguments.
Unset Strict Implicit.
Unset Printing Implicit Defensive.
Local Open Scope ring_scope.
Import GRing.Theory.

Section Top.
Variable F : fieldType.
Let vr (v : pb_variable) : linear_combination F := lc_of_var F v.
Let minus1 (v : pb_variable) : linear_combination F := lc_sub (lc_of_int F 1) (vr v).
Let zero : linear_combination F := lc_of_int F 0.

(** tinyram_cpu_checker.tcc:20-45: the fields of the instruction, from its least significant
    bit.  [iw] is the width of a register or immediate, [pad] of the padding, [rw] of a
    register, [ow] of the opcode; the final assertion is on the total size. *)
Record instruction_bits := InstructionBits {
  ib_arg2 : pb_variable_array; ib_arg1 : pb_variable_array; ib_des : pb_variable_array;
  ib_is_imm : pb_variable; ib_opcode : pb_variable_array }.
Definition parse_instruction (iw pad rw ow : nat) (v : pb_variable_array) : outcome instruction_bits :=
  assert! (size v == iw + pad + rw + rw + 1 + ow)%N in
  let v1 := drop (iw + pad) v in
  let v2 := drop rw v1 in
  let v3 := drop rw v2 in
  Ok (InstructionBits (take iw v) (take rw v1) (take rw v2) (nth 0%N v3 0) (take ow (drop 1 v3))).

(** tinyram_cpu_checker.tcc:129-135 *)
Definition opcode_constraints (opcode ind : pb_variable_array) : seq (r1cs_constraint F) :=
  [seq R1csConstraint (vr (nth 0%N ind i)) (lc_sub (pb_packing_sum (plcs_of_vars F opcode)) (lc_of_int F (Posz i))) zero
  | i <- iota 0 (2 ^ size opcode)] ++
  [:: R1csConstraint (lc_of_int F 1) (pb_sum (plcs_of_vars F ind)) (lc_of_int F 1)].
(** tinyram_cpu_checker.tcc:197-205 *)
Definition accept_constraints (ind : pb_variable_array) (arg2 accepted : pb_variable) : seq (r1cs_constraint F) :=
  [:: R1csConstraint (vr accepted) (minus1 (nth 0%N ind 31)) zero;
      R1csConstraint (vr accepted) (vr arg2) zero].
(** tinyram_cpu_checker.tcc:207-235; [flag] and [result] are those of the instruction read *)
Definition tape_constraints (ind : pb_variable_array) (arg2 prev next read_not1 flag result : pb_variable) :
    seq (r1cs_constraint F) :=
  [:: R1csConstraint (vr prev) (minus1 next) zero;
      R1csConstraint (vr prev) (minus1 flag) zero;
      R1csConstraint (vr (nth 0%N ind 30)) (minus1 arg2) (vr read_not1);
      R1csConstraint (vr read_not1) (minus1 flag) zero;
      R1csConstraint (vr flag) (vr result) zero].
End Top.
