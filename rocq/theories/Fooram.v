(** The CPU checker of FOORAM
    (gadgets/cpu_checkers/fooram/{fooram_cpu_checker,components/bar_gadget}.{hpp,tcc}).

    [fooram_protoboard] is a protoboard with the word size, which the gadgets do not read:
    they take the width from their arguments (fooram_protoboard.tcc:19-29). *)
From mathcomp Require Import all_ssreflect all_algebra zify.
From Verif Require Import Outcome Lincomb R1CS Protoboard BasicGadgets.
Set Implicit Arguments.
Unset Strict Implicit.
Unset Printing Implicit Defensive.
Local Open Scope ring_scope.

Section Fooram.
Variable F : fieldType.
Variable R : bigint_repr F.
Implicit Types (pb : protoboard F).

Let vr (v : pb_variable) : linear_combination F := lc_of_var F v.
Let pack_vars (bits : pb_variable_array) (packed : pb_variable) : packing F :=
  Packing (plcs_of_vars F bits) (plc_of_var F packed).

(** * bar_gadget, bar_gadget.hpp:32-58: [Z = a X + b Y (mod 2^w)] *)
Record bar := Bar {
  bar_X : pb_linear_combination_array F; bar_a : F; bar_Y : pb_linear_combination_array F; bar_b : F;
  bar_Z : pb_variable; bar_result : pb_variable; bar_Z_bits : pb_variable_array; bar_overflow : pb_variable_array }.
(** bar_gadget.tcc:19-47 *)
Definition bar_new pb (X : pb_linear_combination_array F) (a : F) (Y : pb_linear_combination_array F) (b : F)
    (Z : pb_variable) : outcome (bar * protoboard F) :=
  assert! (size X == size Y) in
  let: (result, pb) := allocate_var pb in
  let: (Z_bits, pb) := allocate_array pb (size X) in
  let: (overflow, pb) := allocate_array pb (2 * size X) in
  Ok (Bar X a Y b Z result Z_bits overflow, pb).
(** bar_gadget.tcc:41-45: the packing gadgets [unpack_result] and [pack_Z] *)
Definition bar_unpack (g : bar) : packing F := pack_vars (bar_Z_bits g ++ bar_overflow g) (bar_result g).
Definition bar_pack (g : bar) : packing F := pack_vars (bar_Z_bits g) (bar_Z g).
(** bar_gadget.tcc:49-56 *)
Definition bar_constraints (g : bar) : seq (r1cs_constraint F) :=
  packing_constraints (bar_unpack g) true ++ packing_constraints (bar_pack g) false ++
  [:: R1csConstraint (lc_of_int F 1)
        (lc_add (lc_scale (pb_packing_sum (bar_X g)) (bar_a g)) (lc_scale (pb_packing_sum (bar_Y g)) (bar_b g)))
        (vr (bar_result g))].
(** bar_gadget.tcc:58-65 *)
Definition bar_witness (g : bar) pb : outcome (protoboard F) :=
  let! x := lcs_get_field_element_from_bits pb (bar_X g) in
  let! y := lcs_get_field_element_from_bits pb (bar_Y g) in
  let! pb := pb_set pb (bar_result g) (x * bar_a g + y * bar_b g) in
  let! pb := packing_witness_from_packed R (bar_unpack g) pb in
  packing_witness_from_bits (bar_pack g) pb.

(** * fooram_cpu_checker, fooram_cpu_checker.hpp:36-90 *)
Record foo_io := FooIo {
  fi_pc_addr : pb_variable_array; fi_pc_val : pb_variable_array; fi_state : pb_variable_array;
  fi_ls_addr : pb_variable_array; fi_ls_prev : pb_variable_array; fi_ls_next : pb_variable_array;
  fi_next_state : pb_variable_array; fi_next_pc : pb_variable_array; fi_accepted : pb_variable }.
Record foo_cpu := FooCpu {
  fc_packed_next_pc : pb_variable; fc_one : pb_linear_combination_array F; fc_increment : bar;
  fc_packed_store_addr : pb_variable; fc_store_addr : bar; fc_packed_load_addr : pb_variable; fc_load_addr : bar;
  fc_packed_ls_addr : pb_variable; fc_packed_store_val : pb_variable; fc_store_val : bar;
  fc_packed_ls_prev : pb_variable; fc_packed_ls_next : pb_variable; fc_packed_state : pb_variable;
  fc_packed_next_state : pb_variable }.
(** fooram_cpu_checker.tcc:45-50: the bits of the number one, as constants *)
Fixpoint const_bits pb (bs : seq int) : pb_linear_combination_array F * protoboard F :=
  if bs is b :: bs then
    let: (l, pb) := lc_assign pb (lc_of_int F b) in let: (ls, pb) := const_bits pb bs in (l :: ls, pb)
  else ([::], pb).
(** fooram_cpu_checker.tcc:19-95; [one_as_addr[0]] of an empty address is undefined behaviour *)
Definition foo_cpu_new pb (io : foo_io) : outcome (foo_cpu * protoboard F) :=
  let: (pnext, pb) := allocate_var pb in
  if size (fi_next_pc io) == 0%N then UB else
  let: (one, pb) := const_bits pb (1%:Z :: nseq (size (fi_next_pc io)).-1 0%:Z) in
  let! inc := bar_new pb (plcs_of_vars F (fi_pc_addr io)) 1 one 1 pnext in
  let: (psa, pb) := allocate_var inc.2 in
  let! sa := bar_new pb (plcs_of_vars F (fi_pc_addr io)) 1 (plcs_of_vars F (fi_pc_val io)) 1 psa in
  let: (pla, pb) := allocate_var sa.2 in
  let! la := bar_new pb (plcs_of_vars F (fi_pc_val io)) 2%:R (plcs_of_vars F (fi_next_pc io)) 1 pla in
  let: (plsa, pb) := allocate_var la.2 in
  let: (psv, pb) := allocate_var pb in
  let! sv := bar_new pb (plcs_of_vars F (fi_state io)) 1 (plcs_of_vars F (fi_pc_addr io)) 1 psv in
  let: (plp, pb) := allocate_var sv.2 in
  let: (pln, pb) := allocate_var pb in
  let: (pst, pb) := allocate_var pb in
  let: (pns, pb) := allocate_var pb in
  Ok (FooCpu pnext one inc.1 psa sa.1 pla la.1 plsa psv sv.1 plp pln pst pns, pb).
(** [x0 * (a - b) = out - b], fooram_cpu_checker.tcc:116-119, 131-134, 144-147 *)
Definition select_constraint (x0 a b out : pb_variable) : r1cs_constraint F :=
  R1csConstraint (vr x0) (var_sub_lc a (vr b)) (var_sub_lc out (vr b)).
(** [prev_pc_val[0]] *)
Definition foo_x0 (io : foo_io) : pb_variable := nth 0%N (fi_pc_val io) 0.
(** fooram_cpu_checker.tcc:97-151 *)
Definition foo_cpu_constraints (io : foo_io) (g : foo_cpu) : seq (r1cs_constraint F) :=
  packing_constraints (pack_vars (fi_next_pc io) (fc_packed_next_pc g)) false ++
  bar_constraints (fc_increment g) ++ bar_constraints (fc_store_addr g) ++ bar_constraints (fc_load_addr g) ++
  packing_constraints (pack_vars (fi_ls_addr io) (fc_packed_ls_addr g)) false ++
  [:: select_constraint (foo_x0 io) (fc_packed_load_addr g) (fc_packed_store_addr g) (fc_packed_ls_addr g)] ++
  bar_constraints (fc_store_val g) ++
  packing_constraints (pack_vars (fi_ls_prev io) (fc_packed_ls_prev g)) false ++
  packing_constraints (pack_vars (fi_ls_next io) (fc_packed_ls_next g)) false ++
  [:: select_constraint (foo_x0 io) (fc_packed_ls_prev g) (fc_packed_store_val g) (fc_packed_ls_next g)] ++
  packing_constraints (pack_vars (fi_state io) (fc_packed_state g)) false ++
  packing_constraints (pack_vars (fi_next_state io) (fc_packed_next_state g)) false ++
  [:: select_constraint (foo_x0 io) (fc_packed_ls_prev g) (fc_packed_state g) (fc_packed_next_state g)] ++
  [:: R1csConstraint (lc_of_int F 1) (vr (fi_accepted io)) (lc_of_int F 1)].
(** [out = x0 * a + (1 - x0) * b], fooram_cpu_checker.tcc:172-173, 193-194, 204-205 *)
Definition select_witness (x0 a b out : pb_variable) pb : outcome (protoboard F) :=
  let! x := pb_val pb x0 in let! a := pb_val pb a in let! b := pb_val pb b in pb_set pb out (x * a + (1 - x) * b).
(** fooram_cpu_checker.tcc:153-176 *)
Definition foo_witness_address (io : foo_io) (g : foo_cpu) pb : outcome (protoboard F) :=
  let! pb := lcs_evaluate pb (fc_one g) in
  let! pb := bar_witness (fc_increment g) pb in
  let! pb := packing_witness_from_packed R (pack_vars (fi_next_pc io) (fc_packed_next_pc g)) pb in
  let! pb := bar_witness (fc_store_addr g) pb in
  let! pb := bar_witness (fc_load_addr g) pb in
  let! pb := select_witness (foo_x0 io) (fc_packed_load_addr g) (fc_packed_store_addr g) (fc_packed_ls_addr g) pb in
  packing_witness_from_packed R (pack_vars (fi_ls_addr io) (fc_packed_ls_addr g)) pb.
(** fooram_cpu_checker.tcc:178-211 *)
Definition foo_witness_other (io : foo_io) (g : foo_cpu) pb : outcome (protoboard F) :=
  let! pb := bar_witness (fc_store_val g) pb in
  let! pb := packing_witness_from_bits (pack_vars (fi_ls_prev io) (fc_packed_ls_prev g)) pb in
  let! pb := select_witness (foo_x0 io) (fc_packed_ls_prev g) (fc_packed_store_val g) (fc_packed_ls_next g) pb in
  let! pb := packing_witness_from_packed R (pack_vars (fi_ls_next io) (fc_packed_ls_next g)) pb in
  let! pb := packing_witness_from_bits (pack_vars (fi_state io) (fc_packed_state g)) pb in
  let! pb := select_witness (foo_x0 io) (fc_packed_ls_prev g) (fc_packed_state g) (fc_packed_next_state g) pb in
  let! pb := packing_witness_from_packed R (pack_vars (fi_next_state io) (fc_packed_next_state g)) pb in
  pb_set pb (fi_accepted io) 1.
End Fooram.
