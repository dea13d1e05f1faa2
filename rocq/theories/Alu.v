(** The ALU gadgets of the TinyRAM CPU checker
    (gadgets/cpu_checkers/tinyram/components/{alu_arithmetic,alu_control_flow,
    word_variable_gadget}.{hpp,tcc}).

    [tinyram_protoboard] is a protoboard with the architecture parameters; the word
    size [w] and [subaddr_len] are arguments.  A [word_variable_gadget] is a dual
    variable of [w] bits (word_variable_gadget.hpp:22-31); where the code reads
    [bits[i]] for [i] below [w], the model walks along the list of bits, which is the
    same for lists of [w] bits. *)
From mathcomp Require Import all_ssreflect all_algebra zify.
From Verif Require Import Outcome Lincomb R1CS Protoboard BasicGadgets Benes.
Set Implicit Arguments.
Unset Strict Implicit.
Unset Printing Implicit Defensive.
Local Open Scope ring_scope.

Section Alu.
Variable F : fieldType.
Variable R : bigint_repr F.
Implicit Types (pb : protoboard F) (arg des : dual_variable).

(** The elements of the initializer lists: a variable, and a variable with a coefficient. *)
Let vr (v : pb_variable) : linear_combination F := lc_of_var F v.
Let tm (v : pb_variable) (c : F) : linear_combination F := lc_of_term (var_scale v c).
Let rc := @r1cs_constraint_of_lists F.
(** [packing_gadget] over variables *)
Let pack_vars (bits : pb_variable_array) (packed : pb_variable) : packing F :=
  Packing (plcs_of_vars F bits) (plc_of_var F packed).
(** [bits[w-1]] *)
Definition top_bit (d : dual_variable) : pb_variable := last ONE (dv_bits d).

(** * and, or, xor, not: alu_arithmetic.hpp:53-200 *)
Record alu_bitwise := AluBitwise {
  bw_res_word : pb_variable_array; bw_nz_result : pb_variable;
  bw_result : pb_variable; bw_result_flag : pb_variable; bw_not_all_zeros : disjunction }.
(** alu_arithmetic.hpp:72-84, 109-121, 146-158, 184-196: the four constructors are alike *)
Definition alu_bitwise_new pb (w : nat) (result result_flag : pb_variable) : outcome (alu_bitwise * protoboard F) :=
  let: (res_word, pb) := allocate_array pb w in
  let: (nz, pb) := allocate_var pb in
  let! d := disjunction_new pb res_word nz in
  Ok (AluBitwise res_word nz result result_flag d.1, d.2).
(** alu_arithmetic.tcc:140-151, 205-216, 271-282, 336-347 *)
Definition alu_bitwise_tail (g : alu_bitwise) : seq (r1cs_constraint F) :=
  packing_constraints (pack_vars (bw_res_word g) (bw_result g)) false ++
  disjunction_constraints F (bw_not_all_zeros g) ++
  [:: rc [:: vr ONE] [:: vr ONE; tm (bw_nz_result g) (- 1)] [:: vr (bw_result_flag g)]].
(** The triples [(arg1val.bits[i], arg2val.bits[i], res_word[i])]. *)
Definition alu_triples arg1 arg2 (g : alu_bitwise) : seq (pb_variable * pb_variable * pb_variable) :=
  zip (zip (dv_bits arg1) (dv_bits arg2)) (bw_res_word g).
(** alu_arithmetic.tcc:126-151 *)
Definition alu_and_constraints arg1 arg2 (g : alu_bitwise) : seq (r1cs_constraint F) :=
  [seq rc [:: vr t.1.1] [:: vr t.1.2] [:: vr t.2] | t <- alu_triples arg1 arg2 g] ++ alu_bitwise_tail g.
(** alu_arithmetic.tcc:192-216 *)
Definition alu_or_constraints arg1 arg2 (g : alu_bitwise) : seq (r1cs_constraint F) :=
  [seq rc [:: vr ONE; tm t.1.1 (- 1)] [:: vr ONE; tm t.1.2 (- 1)] [:: vr ONE; tm t.2 (- 1)]
  | t <- alu_triples arg1 arg2 g] ++ alu_bitwise_tail g.
(** alu_arithmetic.tcc:257-282 *)
Definition alu_xor_constraints arg1 arg2 (g : alu_bitwise) : seq (r1cs_constraint F) :=
  [seq rc [:: tm t.1.1 2%:R] [:: vr t.1.2] [:: vr t.1.1; vr t.1.2; tm t.2 (- 1)]
  | t <- alu_triples arg1 arg2 g] ++ alu_bitwise_tail g.
(** alu_arithmetic.tcc:323-347 *)
Definition alu_not_constraints arg2 (g : alu_bitwise) : seq (r1cs_constraint F) :=
  [seq rc [:: vr ONE] [:: vr ONE; tm t.1 (- 1)] [:: vr t.2] | t <- zip (dv_bits arg2) (bw_res_word g)] ++
  alu_bitwise_tail g.
(** alu_arithmetic.tcc:153-167, 218-232, 284-298, 349-362: [op] is applied to
    [pb.val(bits[i]) == 1]; for [not] the first operand is not read *)
Definition alu_bitwise_witness (op : bool -> bool -> bool) arg1 arg2 (g : alu_bitwise) pb : outcome (protoboard F) :=
  let! pb := ofold (fun pb (t : pb_variable * pb_variable * pb_variable) =>
    let! b1 := pb_val pb t.1.1 in
    let! b2 := pb_val pb t.1.2 in
    pb_set pb t.2 (bit_val F (op (b1 == 1) (b2 == 1)))) pb (alu_triples arg1 arg2 g) in
  let! pb := packing_witness_from_bits (pack_vars (bw_res_word g) (bw_result g)) pb in
  let! pb := disjunction_witness (bw_not_all_zeros g) pb in
  let! nz := pb_val pb (bw_nz_result g) in
  pb_set pb (bw_result_flag g) (1 - nz).

(** * add: alu_arithmetic.hpp:202-240, alu_arithmetic.tcc:386-411 *)
Record alu_add := AluAdd { ad_sum : pb_variable; ad_res_word : pb_variable_array;
  ad_result : pb_variable; ad_result_flag : pb_variable }.
Definition alu_add_new pb (w : nat) (result result_flag : pb_variable) : alu_add * protoboard F :=
  let: (sum, pb) := allocate_var pb in
  let: (res_word, pb) := allocate_array pb w in
  (AluAdd sum res_word result result_flag, pb).
Definition alu_add_constraints arg1 arg2 (g : alu_add) : seq (r1cs_constraint F) :=
  rc [:: vr ONE] [:: vr (dv_packed arg1); vr (dv_packed arg2)] [:: vr (ad_sum g)] ::
  packing_constraints (pack_vars (rcons (ad_res_word g) (ad_result_flag g)) (ad_sum g)) true ++
  packing_constraints (pack_vars (ad_res_word g) (ad_result g)) false.
Definition alu_add_witness arg1 arg2 (g : alu_add) pb : outcome (protoboard F) :=
  let! a := pb_val pb (dv_packed arg1) in
  let! b := pb_val pb (dv_packed arg2) in
  let! pb := pb_set pb (ad_sum g) (a + b) in
  let! pb := packing_witness_from_packed R (pack_vars (rcons (ad_res_word g) (ad_result_flag g)) (ad_sum g)) pb in
  packing_witness_from_bits (pack_vars (ad_res_word g) (ad_result g)) pb.

(** * sub: alu_arithmetic.hpp:242-284, alu_arithmetic.tcc:435-482; [twoi] is 2^w *)
Record alu_sub := AluSub { sb_inter : pb_variable; sb_negated_flag : pb_variable; sb_res_word : pb_variable_array;
  sb_result : pb_variable; sb_result_flag : pb_variable }.
Definition alu_sub_new pb (w : nat) (result result_flag : pb_variable) : alu_sub * protoboard F :=
  let: (inter, pb) := allocate_var pb in
  let: (neg, pb) := allocate_var pb in
  let: (res_word, pb) := allocate_array pb w in
  (AluSub inter neg res_word result result_flag, pb).
Definition alu_sub_constraints (w : nat) arg1 arg2 (g : alu_sub) : seq (r1cs_constraint F) :=
  R1csConstraint (add_term (@lc_zero F) (lt_mk ONE 1))
    (add_term (add_term (add_term (@lc_zero F) (lt_mk ONE (2%:R ^+ w))) (lt_mk (dv_packed arg1) 1))
       (lt_mk (dv_packed arg2) (- 1)))
    (add_term (@lc_zero F) (lt_mk (sb_inter g) 1)) ::
  packing_constraints (pack_vars (rcons (sb_res_word g) (sb_negated_flag g)) (sb_inter g)) true ++
  packing_constraints (pack_vars (sb_res_word g) (sb_result g)) false ++
  [:: rc [:: vr ONE] [:: vr ONE; tm (sb_negated_flag g) (- 1)] [:: vr (sb_result_flag g)]].
Definition alu_sub_witness (w : nat) arg1 arg2 (g : alu_sub) pb : outcome (protoboard F) :=
  let! a := pb_val pb (dv_packed arg1) in
  let! b := pb_val pb (dv_packed arg2) in
  let! pb := pb_set pb (sb_inter g) (2%:R ^+ w + a - b) in
  let! pb := packing_witness_from_packed R (pack_vars (rcons (sb_res_word g) (sb_negated_flag g)) (sb_inter g)) pb in
  let! pb := packing_witness_from_bits (pack_vars (sb_res_word g) (sb_result g)) pb in
  let! n := pb_val pb (sb_negated_flag g) in
  pb_set pb (sb_result_flag g) (1 - n).

(** * mov, cmov: alu_arithmetic.tcc:512-590 *)
Definition alu_mov_constraints arg2 (flag result result_flag : pb_variable) : seq (r1cs_constraint F) :=
  [:: rc [:: vr ONE] [:: vr (dv_packed arg2)] [:: vr result]; rc [:: vr ONE] [:: vr flag] [:: vr result_flag]].
Definition alu_mov_witness arg2 (flag result result_flag : pb_variable) pb : outcome (protoboard F) :=
  let! a := pb_val pb (dv_packed arg2) in
  let! pb := pb_set pb result a in
  let! f := pb_val pb flag in
  pb_set pb result_flag f.
Definition alu_cmov_constraints des arg2 (flag result result_flag : pb_variable) : seq (r1cs_constraint F) :=
  [:: rc [:: vr flag] [:: vr (dv_packed arg2); tm (dv_packed des) (- 1)] [:: vr result; tm (dv_packed des) (- 1)];
      rc [:: vr ONE] [:: vr flag] [:: vr result_flag]].
Definition alu_cmov_witness des arg2 (flag result result_flag : pb_variable) pb : outcome (protoboard F) :=
  let! f := pb_val pb flag in
  let! a := pb_val pb (dv_packed (if f == 1 then arg2 else des)) in
  let! pb := pb_set pb result a in
  let! f := pb_val pb flag in
  pb_set pb result_flag f.

(** * cmpe, cmpa, cmpae: alu_arithmetic.hpp:331-365, alu_arithmetic.tcc:614-665 *)
Record cmp_outs := CmpOuts { co_e : pb_variable; co_e_flag : pb_variable; co_a : pb_variable; co_a_flag : pb_variable;
  co_ae : pb_variable; co_ae_flag : pb_variable }.
Definition alu_cmp_new pb (w : nat) arg1 arg2 (o : cmp_outs) : outcome (comparison F * protoboard F) :=
  comparison_new pb w (plc_of_var F (dv_packed arg2)) (plc_of_var F (dv_packed arg1)) (co_a_flag o) (co_ae_flag o).
Definition alu_cmp_constraints des (o : cmp_outs) (g : comparison F) : seq (r1cs_constraint F) :=
  comparison_constraints g ++
  [:: rc [:: vr (co_ae_flag o)] [:: vr ONE; tm (co_a_flag o) (- 1)] [:: vr (co_e_flag o)];
      rc [:: vr ONE] [:: vr (dv_packed des)] [:: vr (co_e o)];
      rc [:: vr ONE] [:: vr (dv_packed des)] [:: vr (co_a o)];
      rc [:: vr ONE] [:: vr (dv_packed des)] [:: vr (co_ae o)]].
Definition alu_cmp_witness des (o : cmp_outs) (g : comparison F) pb : outcome (protoboard F) :=
  let! pb := comparison_witness R g pb in
  let! d := pb_val pb (dv_packed des) in
  let! pb := pb_set pb (co_e o) d in
  let! pb := pb_set pb (co_a o) d in
  let! pb := pb_set pb (co_ae o) d in
  let! ae := pb_val pb (co_ae_flag o) in
  let! a := pb_val pb (co_a_flag o) in
  pb_set pb (co_e_flag o) (bit_val F ((ae == 1) && (a == 0))).

(** * cmpg, cmpge: alu_arithmetic.hpp:374-431, alu_arithmetic.tcc:754-811.  The modified
    operands have the sign bit, the last one, negated. *)
Record cmps_outs := CmpsOuts { cs_g : pb_variable; cs_g_flag : pb_variable; cs_ge : pb_variable; cs_ge_flag : pb_variable }.
Record alu_cmps := AluCmps { cs_neg1 : pb_variable; cs_neg2 : pb_variable;
  cs_packed1 : pb_variable; cs_packed2 : pb_variable; cs_comparator : comparison F }.
Definition but_last (bits : pb_variable_array) : pb_variable_array := take (size bits).-1 bits.
Definition alu_cmps_new pb (w : nat) (o : cmps_outs) : outcome (alu_cmps * protoboard F) :=
  let: (neg1, pb) := allocate_var pb in
  let: (neg2, pb) := allocate_var pb in
  let: (packed1, pb) := allocate_var pb in
  let: (packed2, pb) := allocate_var pb in
  let! c := comparison_new pb w (plc_of_var F packed2) (plc_of_var F packed1) (cs_g_flag o) (cs_ge_flag o) in
  Ok (AluCmps neg1 neg2 packed1 packed2 c.1, c.2).
Definition alu_cmps_constraints des arg1 arg2 (o : cmps_outs) (g : alu_cmps) : seq (r1cs_constraint F) :=
  [:: rc [:: vr ONE] [:: vr ONE; tm (top_bit arg1) (- 1)] [:: vr (cs_neg1 g)];
      rc [:: vr ONE] [:: vr ONE; tm (top_bit arg2) (- 1)] [:: vr (cs_neg2 g)]] ++
  packing_constraints (pack_vars (rcons (but_last (dv_bits arg1)) (cs_neg1 g)) (cs_packed1 g)) false ++
  packing_constraints (pack_vars (rcons (but_last (dv_bits arg2)) (cs_neg2 g)) (cs_packed2 g)) false ++
  comparison_constraints (cs_comparator g) ++
  [:: rc [:: vr ONE] [:: vr (dv_packed des)] [:: vr (cs_g o)];
      rc [:: vr ONE] [:: vr (dv_packed des)] [:: vr (cs_ge o)]].
Definition alu_cmps_witness des arg1 arg2 (o : cmps_outs) (g : alu_cmps) pb : outcome (protoboard F) :=
  let! s1 := pb_val pb (top_bit arg1) in
  let! pb := pb_set pb (cs_neg1 g) (1 - s1) in
  let! s2 := pb_val pb (top_bit arg2) in
  let! pb := pb_set pb (cs_neg2 g) (1 - s2) in
  let! pb := packing_witness_from_bits (pack_vars (rcons (but_last (dv_bits arg1)) (cs_neg1 g)) (cs_packed1 g)) pb in
  let! pb := packing_witness_from_bits (pack_vars (rcons (but_last (dv_bits arg2)) (cs_neg2 g)) (cs_packed2 g)) pb in
  let! pb := comparison_witness R (cs_comparator g) pb in
  let! d := pb_val pb (dv_packed des) in
  let! pb := pb_set pb (cs_g o) d in
  pb_set pb (cs_ge o) d.

(** * mull, umulh: alu_arithmetic.hpp:440-481, alu_arithmetic.tcc:871-921 *)
Record umul_outs := UmulOuts { um_mull : pb_variable; um_mull_flag : pb_variable;
  um_umulh : pb_variable; um_umulh_flag : pb_variable }.
Record alu_umul := AluUmul { um_mul : dual_variable; um_result_flag : pb_variable; um_compute_flag : disjunction }.
Definition alu_umul_new pb (w : nat) : outcome (alu_umul * protoboard F) :=
  let: (mul, pb) := dual_variable_new pb (2 * w) in
  let: (flag, pb) := allocate_var pb in
  let! d := disjunction_new pb (drop w (dv_bits mul)) flag in
  Ok (AluUmul mul flag d.1, d.2).
Definition alu_umul_constraints (w : nat) arg1 arg2 (o : umul_outs) (g : alu_umul) : seq (r1cs_constraint F) :=
  rc [:: vr (dv_packed arg1)] [:: vr (dv_packed arg2)] [:: vr (dv_packed (um_mul g))] ::
  dual_variable_constraints F (um_mul g) true ++
  packing_constraints (pack_vars (take w (dv_bits (um_mul g))) (um_mull o)) false ++
  packing_constraints (pack_vars (drop w (dv_bits (um_mul g))) (um_umulh o)) false ++
  disjunction_constraints F (um_compute_flag g) ++
  [:: rc [:: vr ONE] [:: vr (um_result_flag g)] [:: vr (um_mull_flag o)];
      rc [:: vr ONE] [:: vr (um_result_flag g)] [:: vr (um_umulh_flag o)]].
Definition alu_umul_witness (w : nat) arg1 arg2 (o : umul_outs) (g : alu_umul) pb : outcome (protoboard F) :=
  let! a := pb_val pb (dv_packed arg1) in
  let! b := pb_val pb (dv_packed arg2) in
  let! pb := pb_set pb (dv_packed (um_mul g)) (a * b) in
  let! pb := dual_variable_witness_from_packed R (um_mul g) pb in
  let! pb := packing_witness_from_bits (pack_vars (take w (dv_bits (um_mul g))) (um_mull o)) pb in
  let! pb := packing_witness_from_bits (pack_vars (drop w (dv_bits (um_mul g))) (um_umulh o)) pb in
  let! pb := disjunction_witness (um_compute_flag g) pb in
  let! f := pb_val pb (um_result_flag g) in
  let! pb := pb_set pb (um_mull_flag o) f in
  pb_set pb (um_umulh_flag o) f.

(** * smulh: alu_arithmetic.hpp:490-538, alu_arithmetic.tcc:981-1096.  [1ul << (w+1)] is
    undefined when [w+1] is 64 or more; below that [1l - (1ul << (w+1))], converted to
    [long], is 1 - 2^(w+1).  The variable [result_flag] is allocated and not used. *)
Record alu_smul := AluSmul { sm_mul : dual_variable; sm_top : pb_variable;
  sm_empty : pb_variable; sm_empty_aux : pb_variable; sm_full : pb_variable; sm_full_aux : pb_variable }.
Definition alu_smul_new pb (w : nat) : alu_smul * protoboard F :=
  let: (mul, pb) := dual_variable_new pb (2 * w).+1 in
  let: (top, pb) := allocate_var pb in
  let: (empty, pb) := allocate_var pb in
  let: (empty_aux, pb) := allocate_var pb in
  let: (full, pb) := allocate_var pb in
  let: (full_aux, pb) := allocate_var pb in
  let: (_, pb) := allocate_var pb in
  (AluSmul mul top empty empty_aux full full_aux, pb).
Definition sm_high_bits (w : nat) (g : alu_smul) : pb_variable_array := take w (drop w (dv_bits (sm_mul g))).
Definition sm_top_bits (w : nat) (g : alu_smul) : pb_variable_array := take w.+1 (drop w.-1 (dv_bits (sm_mul g))).
Definition alu_smul_constraints (w : nat) arg1 arg2 (result flag : pb_variable) (g : alu_smul) :
    outcome (seq (r1cs_constraint F)) :=
  if (64 <= w.+1)%N then UB else
  let full := tm ONE (1 - 2%:R ^+ w.+1) in
  Ok (R1csConstraint
    (add_term (add_term (@lc_zero F) (lt_mk (dv_packed arg1) 1)) (lt_mk (top_bit arg1) (- (2%:R ^+ w))))
    (add_term (add_term (@lc_zero F) (lt_mk (dv_packed arg2) 1)) (lt_mk (top_bit arg2) (- (2%:R ^+ w))))
    (add_term (add_term (@lc_zero F) (lt_mk (dv_packed (sm_mul g)) 1)) (lt_mk ONE (- (2%:R ^+ (2 * w))))) ::
  dual_variable_constraints F (sm_mul g) true ++
  packing_constraints (pack_vars (sm_high_bits w g) result) false ++
  packing_constraints (pack_vars (sm_top_bits w g) (sm_top g)) false ++
  [:: rc [:: vr (sm_empty_aux g)] [:: vr (sm_top g)] [:: vr ONE; tm (sm_empty g) (- 1)];
      rc [:: vr (sm_empty g)] [:: vr (sm_top g)] [:: tm ONE 0];
      rc [:: vr (sm_full_aux g)] [:: vr (sm_top g); full] [:: vr ONE; tm (sm_full g) (- 1)];
      rc [:: vr (sm_full g)] [:: vr (sm_top g); full] [:: tm ONE 0];
      rc [:: vr ONE] [:: vr ONE; tm (sm_full g) (- 1); tm (sm_empty g) (- 1)] [:: vr flag]]).
(** [as_ulong] of [top] is exact: it has at most [w+1] bits, fewer than 64. *)
Definition alu_smul_witness (w : nat) arg1 arg2 (result flag : pb_variable) (g : alu_smul) pb : outcome (protoboard F) :=
  let! a := pb_val pb (dv_packed arg1) in
  let! sa := pb_val pb (top_bit arg1) in
  let! b := pb_val pb (dv_packed arg2) in
  let! sb := pb_val pb (top_bit arg2) in
  let! pb := pb_set pb (dv_packed (sm_mul g))
    ((a - sa * 2%:R ^+ w) * (b - sb * 2%:R ^+ w) + 2%:R ^+ (2 * w)) in
  let! pb := dual_variable_witness_from_packed R (sm_mul g) pb in
  let! pb := packing_witness_from_bits (pack_vars (sm_high_bits w g) result) pb in
  let! pb := packing_witness_from_bits (pack_vars (sm_top_bits w g) (sm_top g)) pb in
  let! top := pb_val pb (sm_top g) in
  if (64 <= w.+1)%N then UB else
  let! pb := pb_set pb (sm_empty g) (bit_val F (top == 0)) in
  let! pb := pb_set pb (sm_empty_aux g) (if top == 0 then 0 else top^-1) in
  let full := 2%:R ^+ w.+1 - 1 in
  let! pb := pb_set pb (sm_full g) (bit_val F (top == full)) in
  let! pb := pb_set pb (sm_full_aux g) (if top == full then 0 else (top - full)^-1) in
  let! e := pb_val pb (sm_empty g) in
  let! f := pb_val pb (sm_full g) in
  pb_set pb flag (1 - (f + e)).

(** * udiv, umod: alu_arithmetic.hpp:554-589, alu_arithmetic.tcc:1129-1212 *)
Record div_outs := DivOuts { dm_q : pb_variable; dm_q_flag : pb_variable; dm_r : pb_variable; dm_r_flag : pb_variable }.
Record alu_divmod := AluDivmod { dm_inv : pb_variable; dm_nonzero : pb_variable; dm_A_aux : pb_variable;
  dm_r_less_B : comparison F }.
Definition alu_divmod_new pb (w : nat) arg2 (o : div_outs) : outcome (alu_divmod * protoboard F) :=
  let: (inv, pb) := allocate_var pb in
  let: (nonzero, pb) := allocate_var pb in
  let: (A_aux, pb) := allocate_var pb in
  let! c := comparison_new pb w (plc_of_var F (dm_r o)) (plc_of_var F (dv_packed arg2)) nonzero ONE in
  Ok (AluDivmod inv nonzero A_aux c.1, c.2).
Definition alu_divmod_constraints arg1 arg2 (o : div_outs) (g : alu_divmod) : seq (r1cs_constraint F) :=
  let one v := add_term (@lc_zero F) (lt_mk v 1) in
  let two v c v' c' := add_term (add_term (@lc_zero F) (lt_mk v c)) (lt_mk v' c') in
  let zero := add_term (@lc_zero F) (lt_mk ONE 0) in
  [:: R1csConstraint (one (dm_inv g)) (one (dv_packed arg2)) (one (dm_nonzero g));
      R1csConstraint (two ONE 1 (dm_nonzero g) (- 1)) (one (dv_packed arg2)) zero;
      R1csConstraint (one (dv_packed arg2)) (one (dm_q o)) (two (dm_A_aux g) 1 (dm_r o) (- 1));
      R1csConstraint (one (dv_packed arg1)) (one (dm_nonzero g)) (one (dm_A_aux g));
      R1csConstraint (one (dm_q o)) (two ONE 1 (dm_nonzero g) (- 1)) zero] ++
  comparison_constraints (dm_r_less_B g).
(** [as_ulong] of the two words is exact. *)
Definition alu_divmod_witness arg1 arg2 (o : div_outs) (g : alu_divmod) pb : outcome (protoboard F) :=
  let! a := pb_val pb (dv_packed arg1) in
  let! b := pb_val pb (dv_packed arg2) in
  let z := b == 0 in
  let A := as_bigint R a in let B := as_bigint R b in
  let! pb := pb_set pb (dm_inv g) (if z then 0 else b^-1) in
  let! pb := pb_set pb (dm_nonzero g) (bit_val F (~~ z)) in
  let! pb := pb_set pb (dm_A_aux g) (if z then 0 else a) in
  let! pb := pb_set pb (dm_q o) (if z then 0 else (A %/ B)%:R) in
  let! pb := pb_set pb (dm_r o) (if z then 0 else (A %% B)%:R) in
  let! pb := pb_set pb (dm_q_flag o) (bit_val F z) in
  let! pb := pb_set pb (dm_r_flag o) (bit_val F z) in
  comparison_witness R (dm_r_less_B g) pb.

(** * shr, shl: alu_arithmetic.hpp:596-672, alu_arithmetic.tcc:1276-1436 *)
Record shift_outs := ShiftOuts { so_shr : pb_variable; so_shr_flag : pb_variable; so_shl : pb_variable; so_shl_flag : pb_variable }.
Record alu_shift := AluShift { sh_reversed_input : pb_variable; sh_barrel : pb_variable_array;
  sh_out_bits : seq pb_variable_array; sh_oversize : pb_variable; sh_check : disjunction;
  sh_result : pb_variable; sh_result_bits : pb_variable_array; sh_reversed_result : pb_variable }.
(** One array of 2^i variables for each [i]. *)
Fixpoint allocate_outs pb (i n : nat) : seq pb_variable_array * protoboard F :=
  if n is n'.+1 then
    let: (a, pb) := allocate_array pb (2 ^ i) in
    let: (r, pb) := allocate_outs pb i.+1 n' in (a :: r, pb)
  else ([::], pb).
Definition alu_shift_new pb (w : nat) arg2 : outcome (alu_shift * protoboard F) :=
  let logw := ceil_log2 w in
  let: (rev_in, pb) := allocate_var pb in
  let: (barrel, pb) := allocate_array pb logw.+1 in
  let: (outs, pb) := allocate_outs pb 0 logw in
  let: (oversize, pb) := allocate_var pb in
  let! d := disjunction_new pb (drop logw (dv_bits arg2)) oversize in
  let pb := d.2 in
  let: (result, pb) := allocate_var pb in
  let: (result_bits, pb) := allocate_array pb w in
  let: (rev_res, pb) := allocate_var pb in
  Ok (AluShift rev_in barrel outs oversize d.1 result result_bits rev_res, pb).
Definition barrel_at (g : alu_shift) (i : nat) : pb_variable := nth ONE (sh_barrel g) i.
Definition alu_shift_step arg2 (g : alu_shift) (i : nat) : seq (r1cs_constraint F) :=
  let out := nth [::] (sh_out_bits g) i in
  [seq boolean_constraint (lc_terms (plc_of_var F b)) | b <- out] ++
  [:: R1csConstraint
    (foldl (fun l j => add_term l (lt_mk (nth ONE out j) (2%:R ^+ j)))
       (add_term (@lc_zero F) (lt_mk (barrel_at g i.+1) (2%:R ^+ i.+1 - 1))) (iota 0 (2 ^ i)))
    (add_term (@lc_zero F) (lt_mk (nth ONE (dv_bits arg2) i) 1))
    (add_term (add_term (@lc_zero F) (lt_mk (barrel_at g i) 1)) (lt_mk (barrel_at g i.+1) (- 1)))].
(** [shr] is [opcode_indicators[tinyram_opcode_SHR]].  The constraint for [shr_result] is
    added twice (tcc:1355-1367); there is none for [shl_result]. *)
Definition alu_shift_constraints (w : nat) (shr : pb_variable) arg1 arg2 (o : shift_outs) (g : alu_shift) :
    seq (r1cs_constraint F) :=
  let logw := ceil_log2 w in
  let select := rc [:: vr (sh_result g); tm (sh_reversed_result g) (- 1)] [:: vr shr]
    [:: vr (so_shr o); tm (sh_reversed_result g) (- 1)] in
  packing_constraints (pack_vars (rev (dv_bits arg1)) (sh_reversed_input g)) false ++
  [:: rc [:: vr (dv_packed arg1); tm (sh_reversed_input g) (- 1)] [:: vr shr]
        [:: vr (barrel_at g 0); tm (sh_reversed_input g) (- 1)]] ++
  flatten [seq alu_shift_step arg2 g i | i <- iota 0 logw] ++
  disjunction_constraints F (sh_check g) ++
  [:: rc [:: vr ONE; tm (sh_oversize g) (- 1)] [:: vr (barrel_at g logw)] [:: vr (sh_result g)]] ++
  packing_constraints (pack_vars (sh_result_bits g) (sh_result g)) true ++
  packing_constraints (pack_vars (rev (sh_result_bits g)) (sh_reversed_result g)) false ++
  [:: select; select;
      rc [:: vr ONE] [:: vr (head ONE (dv_bits arg1))] [:: vr (so_shr_flag o)];
      rc [:: vr ONE] [:: vr (top_bit arg1)] [:: vr (so_shl_flag o)]].
(** [2u << i] is 2^(i+1) for the [i] that occur, which are below 6. *)
Definition alu_shift_witness (w : nat) (shr : pb_variable) arg1 arg2 (o : shift_outs) (g : alu_shift) pb :
    outcome (protoboard F) :=
  let logw := ceil_log2 w in
  let! pb := packing_witness_from_bits (pack_vars (rev (dv_bits arg1)) (sh_reversed_input g)) pb in
  let! s := pb_val pb shr in
  let! v := pb_val pb (if s == 1 then dv_packed arg1 else sh_reversed_input g) in
  let! pb := pb_set pb (barrel_at g 0) v in
  let! pb := ofold (fun pb i =>
    let! b := pb_val pb (nth ONE (dv_bits arg2) i) in
    let! v := pb_val pb (barrel_at g i) in
    let! pb := pb_set pb (barrel_at g i.+1) (if b == 0 then v else (as_bigint R v %/ 2 ^ i.+1)%:R) in
    fill_with_bits_of pb (nth [::] (sh_out_bits g) i) (as_bigint R v %% 2 ^ i.+1)) pb (iota 0 logw) in
  let! pb := disjunction_witness (sh_check g) pb in
  let! over := pb_val pb (sh_oversize g) in
  let! v := pb_val pb (barrel_at g logw) in
  let! pb := pb_set pb (sh_result g) ((1 - over) * v) in
  let! pb := packing_witness_from_packed R (pack_vars (sh_result_bits g) (sh_result g)) pb in
  let! pb := packing_witness_from_bits (pack_vars (rev (sh_result_bits g)) (sh_reversed_result g)) pb in
  let! v := pb_val pb (if s == 1 then sh_result g else sh_reversed_result g) in
  let! pb := pb_set pb (so_shr o) v in
  let! pb := pb_set pb (so_shl o) v in
  let! b0 := pb_val pb (head ONE (dv_bits arg1)) in
  let! pb := pb_set pb (so_shr_flag o) b0 in
  let! bt := pb_val pb (top_bit arg1) in
  pb_set pb (so_shl_flag o) bt.

(** * jmp, cjmp, cnjmp: alu_control_flow.tcc:21-41, 80-110, 156-186; [s] is
    [subaddr_len()], the number of low bits dropped from the byte address *)
Definition target_sum (s : nat) arg2 : linear_combination F := pb_packing_sum (plcs_of_vars F (drop s (dv_bits arg2))).
Definition alu_jmp_constraints (s : nat) arg2 (result : pb_variable) : seq (r1cs_constraint F) :=
  [:: rc [:: vr ONE] [:: target_sum s arg2] [:: vr result]].
Definition alu_cjmp_constraints (s : nat) (pc : dual_variable) arg2 (flag result : pb_variable) : seq (r1cs_constraint F) :=
  [:: R1csConstraint (vr flag)
        (lc_sub (lc_sub (target_sum s arg2) (vr (dv_packed pc))) (lc_of_int F 1))
        (lc_sub (lc_sub (vr result) (vr (dv_packed pc))) (lc_of_int F 1))].
Definition alu_cnjmp_constraints (s : nat) (pc : dual_variable) arg2 (flag result : pb_variable) : seq (r1cs_constraint F) :=
  [:: R1csConstraint (vr flag)
        (lc_sub (lc_add (vr (dv_packed pc)) (lc_of_int F 1)) (target_sum s arg2))
        (lc_sub (vr result) (target_sum s arg2))].
(** [as_ulong] of a word is exact. *)
Definition shifted_target (s : nat) arg2 pb : outcome F :=
  let! a := pb_val pb (dv_packed arg2) in Ok (as_bigint R a %/ 2 ^ s)%:R.
Definition alu_jmp_witness (s : nat) arg2 (result : pb_variable) pb : outcome (protoboard F) :=
  let! t := shifted_target s arg2 pb in pb_set pb result t.
Definition next_pc (pc : dual_variable) pb : outcome F := let! v := pb_val pb (dv_packed pc) in Ok (v + 1).
Definition alu_cjmp_witness (s : nat) (pc : dual_variable) arg2 (flag result : pb_variable) pb : outcome (protoboard F) :=
  let! f := pb_val pb flag in
  let! t := (if f == 1 then shifted_target s arg2 pb else next_pc pc pb) in pb_set pb result t.
Definition alu_cnjmp_witness (s : nat) (pc : dual_variable) arg2 (flag result : pb_variable) pb : outcome (protoboard F) :=
  let! f := pb_val pb flag in
  let! t := (if f == 1 then next_pc pc pb else shifted_target s arg2 pb) in pb_set pb result t.
End Alu.
