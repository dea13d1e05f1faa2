(** The argument decoder and the consistency enforcer of the TinyRAM CPU checker
    (gadgets/cpu_checkers/tinyram/components/{argument_decoder,consistency_enforcer}_gadget.{hpp,tcc}).

    [tinyram_protoboard] is a protoboard with the architecture parameters: [rw] stands for
    [reg_arg_width()], [iw] for [reg_arg_or_imm_width()] and [k] for the number of registers.
    Reading an array beyond its end, undefined behaviour in the code, yields variable 0 here;
    the theorems give the arrays the sizes the code uses. *)
From mathcomp Require Import all_ssreflect all_algebra zify.
From Verif Require Import Outcome Lincomb R1CS Protoboard BasicGadgets.
Set Implicit Arguments.
Unset Strict Implicit.
Unset Printing Implicit Defensive.
Local Open Scope ring_scope.

(** tinyram_aux.hpp:27-65 gives the numbers of the opcodes. *)
(** tinyram_aux.hpp:80-108 [tinyram_opcodes_register] *)
Definition opcodes_register : seq nat :=
  [:: 0; 1; 2; 3; 4; 5; 6; 7; 8; 9; 10; 11; 12; 13; 14; 15; 16; 17; 18; 19; 27; 29; 30]%N.
(** tinyram_aux.hpp:110-118 [tinyram_opcodes_control_flow] *)
Definition opcodes_control_flow : seq nat := [:: 20; 21; 22]%N.
(** tinyram_aux.hpp:120-130 [tinyram_opcodes_stall] *)
Definition opcodes_stall : seq nat := [:: 23; 24; 25; 31]%N.

Section Cpu.
Variable F : fieldType.
Variable R : bigint_repr F.
Implicit Types (pb : protoboard F).

Let vr (v : pb_variable) : linear_combination F := lc_of_var F v.
Let tm (v : pb_variable) (c : F) : linear_combination F := lc_of_term (var_scale v c).
Let rc := @r1cs_constraint_of_lists F.
Let pack_vars (bits : pb_variable_array) (packed : pb_variable) : packing F :=
  Packing (plcs_of_vars F bits) (plc_of_var F packed).

(** * argument_decoder_gadget, argument_decoder_gadget.hpp:20-56 *)
Record arg_decoder := ArgDecoder {
  ad_arg2_is_imm : pb_variable; ad_desidx : pb_variable_array; ad_arg1idx : pb_variable_array;
  ad_arg2idx : pb_variable_array; ad_packed_desidx : pb_variable; ad_packed_arg1idx : pb_variable;
  ad_packed_arg2idx : pb_variable; ad_demux_result : pb_variable; ad_demux_success : pb_variable;
  ad_arg2val : pb_variable; ad_demux_des : loose_mux F; ad_demux_arg1 : loose_mux F; ad_demux_arg2 : loose_mux F }.
(** argument_decoder_gadget.tcc:19-68 *)
Definition arg_decoder_new pb (rw iw : nat) (arg2_is_imm : pb_variable) (desidx arg1idx arg2idx registers : pb_variable_array)
    (desval arg1val arg2val : pb_variable) : outcome (arg_decoder * protoboard F) :=
  assert! (size desidx == rw) in
  assert! (size arg1idx == rw) in
  assert! (size arg2idx == iw) in
  let: (pdes, pb) := allocate_var pb in
  let: (parg1, pb) := allocate_var pb in
  let: (parg2, pb) := allocate_var pb in
  let: (res, pb) := allocate_var pb in
  let: (succ, pb) := allocate_var pb in
  let! m1 := loose_mux_new pb (plcs_of_vars F registers) pdes desval ONE in
  let! m2 := loose_mux_new m1.2 (plcs_of_vars F registers) parg1 arg1val ONE in
  let! m3 := loose_mux_new m2.2 (plcs_of_vars F registers) parg2 res succ in
  Ok (ArgDecoder arg2_is_imm desidx arg1idx arg2idx pdes parg1 parg2 res succ arg2val m1.1 m2.1 m3.1, m3.2).
(** argument_decoder_gadget.tcc:83-104, the constraints on the second argument *)
Definition arg2_constraints (g : arg_decoder) : seq (r1cs_constraint F) :=
  [:: rc [:: vr ONE; tm (ad_arg2_is_imm g) (- 1)] [:: vr ONE; tm (ad_demux_success g) (- 1)] [:: tm ONE 0];
      rc [:: vr (ad_arg2_is_imm g)] [:: vr (ad_packed_arg2idx g); tm (ad_demux_result g) (- 1)]
         [:: vr (ad_arg2val g); tm (ad_demux_result g) (- 1)]].
(** argument_decoder_gadget.tcc:70-106 *)
Definition arg_decoder_constraints (g : arg_decoder) : seq (r1cs_constraint F) :=
  packing_constraints (pack_vars (ad_desidx g) (ad_packed_desidx g)) true ++
  packing_constraints (pack_vars (ad_arg1idx g) (ad_packed_arg1idx g)) true ++
  packing_constraints (pack_vars (ad_arg2idx g) (ad_packed_arg2idx g)) true ++
  loose_mux_constraints (ad_demux_des g) ++ loose_mux_constraints (ad_demux_arg1 g) ++
  loose_mux_constraints (ad_demux_arg2 g) ++ arg2_constraints g.
(** argument_decoder_gadget.tcc:108-127 *)
Definition arg_decoder_witness (g : arg_decoder) pb : outcome (protoboard F) :=
  let! pb := packing_witness_from_bits (pack_vars (ad_desidx g) (ad_packed_desidx g)) pb in
  let! pb := packing_witness_from_bits (pack_vars (ad_arg1idx g) (ad_packed_arg1idx g)) pb in
  let! pb := packing_witness_from_bits (pack_vars (ad_arg2idx g) (ad_packed_arg2idx g)) pb in
  let! pb := loose_mux_witness R (ad_demux_des g) pb in
  let! pb := loose_mux_witness R (ad_demux_arg1 g) pb in
  let! pb := loose_mux_witness R (ad_demux_arg2 g) pb in
  let! i := pb_val pb (ad_arg2_is_imm g) in
  let! v := pb_val pb (if i == 1 then ad_packed_arg2idx g else ad_demux_result g) in
  pb_set pb (ad_arg2val g) v.

(** * consistency_enforcer_gadget, consistency_enforcer_gadget.hpp:20-74 *)
Record enforcer := Enforcer {
  en_indicators : pb_variable_array; en_desidx : pb_variable_array;
  en_pc : pb_variable; en_registers : pb_variable_array; en_desval : pb_variable; en_flag : pb_variable;
  en_out_pc : pb_variable; en_out_registers : pb_variable_array; en_out_flag : pb_variable;
  en_out_desval : pb_variable; en_is_register : pb_variable; en_is_cf : pb_variable; en_is_stall : pb_variable;
  en_packed_desidx : pb_variable; en_result : pb_variable; en_comp_flag : pb_variable;
  en_compute_result : inner_product F; en_compute_flag : inner_product F; en_pc_from_cf : pb_variable;
  en_demux : loose_mux F }.
(** consistency_enforcer_gadget.tcc:19-74 *)
Definition enforcer_new pb (rw : nat) (indicators results flags desidx : pb_variable_array) (pc : pb_variable)
    (registers : pb_variable_array) (desval flag out_pc : pb_variable) (out_registers : pb_variable_array)
    (out_flag : pb_variable) : outcome (enforcer * protoboard F) :=
  assert! (size desidx == rw) in
  let: (out_desval, pb) := allocate_var pb in
  let: (is_reg, pb) := allocate_var pb in
  let: (is_cf, pb) := allocate_var pb in
  let: (is_stall, pb) := allocate_var pb in
  let: (pdes, pb) := allocate_var pb in
  let: (result, pb) := allocate_var pb in
  let: (cflag, pb) := allocate_var pb in
  let! ip1 := inner_product_new pb (plcs_of_vars F indicators) (plcs_of_vars F results) result in
  let! ip2 := inner_product_new ip1.2 (plcs_of_vars F indicators) (plcs_of_vars F flags) cflag in
  let: (pcf, pb) := allocate_var ip2.2 in
  let! m := loose_mux_new pb (plcs_of_vars F out_registers) pdes out_desval ONE in
  Ok (Enforcer indicators desidx pc registers desval flag out_pc out_registers out_flag out_desval is_reg is_cf is_stall
        pdes result cflag ip1.1 ip2.1 pcf m.1, m.2).
(** consistency_enforcer_gadget.tcc:84-115: [1 * (sum of indicators) = kind] *)
Definition kind_constraint (indicators : pb_variable_array) (ops : seq nat) (kind : pb_variable) : r1cs_constraint F :=
  R1csConstraint (add_term (@lc_zero F) (lt_of_var F ONE))
    (add_vars (@lc_zero F) [seq nth 0%N indicators i | i <- ops]) (add_term (@lc_zero F) (lt_of_var F kind)).
(** consistency_enforcer_gadget.tcc:121-139: the program counter *)
Definition pc_constraints (g : enforcer) : seq (r1cs_constraint F) :=
  [:: R1csConstraint (vr (en_result g)) (vr (en_is_cf g)) (vr (en_pc_from_cf g));
      R1csConstraint (vr (en_pc g)) (lc_sub (lc_of_int F 1) (vr (en_is_cf g)))
        (lc_sub (var_sub_lc (en_out_pc g) (vr (en_pc_from_cf g)))
           (lc_sub (lc_sub (lc_of_int F 1) (vr (en_is_cf g))) (vr (en_is_stall g))))].
(** consistency_enforcer_gadget.tcc:141-152, 173-179: [(new - old) * is_register = out - old],
    for the flag and for the destination register *)
Definition update_constraint (new old out is_reg : pb_variable) : r1cs_constraint F :=
  rc [:: vr new; tm old (- 1)] [:: vr is_reg] [:: vr out; tm old (- 1)].
(** consistency_enforcer_gadget.tcc:154-171: the other registers carry over *)
Definition carryover_constraints (g : enforcer) (k : nat) : seq (r1cs_constraint F) :=
  [seq rc [:: vr ONE; tm (nth 0%N (lm_alpha (en_demux g)) i) (- 1)]
          [:: vr (nth 0%N (en_out_registers g) i); tm (nth 0%N (en_registers g) i) (- 1)] [:: tm ONE 0]
  | i <- iota 0 k].
(** consistency_enforcer_gadget.tcc:76-180 *)
Definition enforcer_constraints (g : enforcer) (k : nat) : seq (r1cs_constraint F) :=
  packing_constraints (pack_vars (en_desidx g) (en_packed_desidx g)) false ++
  loose_mux_constraints (en_demux g) ++
  [:: kind_constraint (en_indicators g) opcodes_register (en_is_register g)] ++
  [:: kind_constraint (en_indicators g) opcodes_control_flow (en_is_cf g)] ++
  [:: kind_constraint (en_indicators g) opcodes_stall (en_is_stall g)] ++
  inner_product_constraints (en_compute_result g) ++ inner_product_constraints (en_compute_flag g) ++
  pc_constraints g ++
  [:: update_constraint (en_comp_flag g) (en_flag g) (en_out_flag g) (en_is_register g)] ++
  carryover_constraints g k ++
  [:: update_constraint (en_result g) (en_desval g) (en_out_desval g) (en_is_register g)].
(** consistency_enforcer_gadget.tcc:188-213 *)
Definition kind_witness (indicators : pb_variable_array) (ops : seq nat) (kind : pb_variable) pb : outcome (protoboard F) :=
  let! pb := pb_set pb kind 0 in
  ofold (fun pb i => let! a := pb_val pb kind in let! b := pb_val pb (nth 0%N indicators i) in pb_set pb kind (a + b)) pb ops.
(** consistency_enforcer_gadget.tcc:182-259.  [as_ulong] of the packed index is exact for
    indices below 2^64. *)
Definition enforcer_witness (g : enforcer) (k : nat) pb : outcome (protoboard F) :=
  let! pb := packing_witness_from_bits (pack_vars (en_desidx g) (en_packed_desidx g)) pb in
  let! pb := kind_witness (en_indicators g) opcodes_register (en_is_register g) pb in
  let! pb := kind_witness (en_indicators g) opcodes_control_flow (en_is_cf g) pb in
  let! pb := kind_witness (en_indicators g) opcodes_stall (en_is_stall g) pb in
  let! pb := inner_product_witness (en_compute_result g) pb in
  let! pb := inner_product_witness (en_compute_flag g) pb in
  let! res := pb_val pb (en_result g) in
  let! cf := pb_val pb (en_is_cf g) in
  let! st := pb_val pb (en_is_stall g) in
  let! pc := pb_val pb (en_pc g) in
  let! pb := pb_set pb (en_pc_from_cf g) (res * cf) in
  let! pb := pb_set pb (en_out_pc g) (res * cf + pc * st + (pc + 1) * (1 - cf - st)) in
  let! fl := pb_val pb (en_comp_flag g) in
  let! reg := pb_val pb (en_is_register g) in
  let! old := pb_val pb (en_flag g) in
  let! pb := pb_set pb (en_out_flag g) (fl * reg + old * (1 - reg)) in
  let! des := pb_val pb (en_desval g) in
  let! pb := ofold (fun pb i =>
      let! d := pb_val pb (en_packed_desidx g) in
      let! v := (if as_bigint R d == i then Ok (res * reg + des * (1 - reg)) else pb_val pb (nth 0%N (en_registers g) i)) in
      pb_set pb (nth 0%N (en_out_registers g) i) v) pb (iota 0 k) in
  loose_mux_witness R (en_demux g) pb.
End Cpu.
