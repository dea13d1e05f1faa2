(** C39, second half: the values that witness generation of the ALU gadgets writes satisfy
    the gadgets' constraints.

    Each gadget is built on a protoboard [pb0]; witness generation runs later, on [pb], when
    the operands hold words.  The outputs are variables of [pb0], and no operand overlaps
    them ([operand]).  Witness generation succeeds, writes the outputs and the gadget's own
    variables and nothing else ([assigns]), and the constraints hold; what the outputs then
    are is said in Prop_Alu.v. *)
From mathcomp Require Import all_ssreflect all_algebra zify.
From Verif Require Import Outcome Lincomb LincombSpec LincombFacts R1CS R1CSSpec R1CSFacts Fieldtac.
From Verif Require Import Protoboard GadgetSpec GadgetLogic BasicGadgets BasicGadgetsFacts BasicGadgetsMore.
From Verif Require Import BasicGadgetsCopy GadgetNew GadgetSeq Benes Alu AluSpec AluFacts AluSound AluSound2 AluShift.
From Verif Require Import AluWitness AluWitness2 AluWitness3 AluWitness4 AluWitness5 AluWitness6 AluWitness7.
From Verif Require Import AluWitness8 AluWitness9 Prop_Alu.
Set Implicit Arguments.
Unset Strict Implicit.
Unset Printing Implicit Defensive.
Local Open Scope ring_scope.
Import GRing.Theory.

Section Props.
Variable F : fieldType.
Variable R : bigint_repr F.
Implicit Types (x : seq F) (pb : protoboard F).
Let bit (b : bool) : F := (nat_of_bool b)%:R.

Theorem C39_and_complete pb0 pb1 pb w (r rf : nat) g arg1 arg2 bs cs :
  pb_wf pb0 -> alu_bitwise_new pb0 w r rf = Ok (g, pb1) -> later pb1 pb ->
  all (is_var pb0) [:: r; rf] -> r != rf -> operand pb0 [:: r; rf] arg1 -> operand pb0 [:: r; rf] arg2 ->
  size bs = w -> size cs = w -> is_word (pb_values pb) arg1 bs -> is_word (pb_values pb) arg2 cs ->
  exists pb', [/\ alu_bitwise_witness andb arg1 arg2 g pb = Ok pb', assigns ([:: r; rf] ++ fresh_vars pb0 pb1) pb pb' &
    holds (alu_and_constraints F arg1 arg2 g) (pb_values pb')].
Proof. by apply: bitwise_complete => x t p q h1 h2 h3; exact: (proj2 (and_step t.2 h1 h2) h3). Qed.
Theorem C39_or_complete pb0 pb1 pb w (r rf : nat) g arg1 arg2 bs cs :
  pb_wf pb0 -> alu_bitwise_new pb0 w r rf = Ok (g, pb1) -> later pb1 pb ->
  all (is_var pb0) [:: r; rf] -> r != rf -> operand pb0 [:: r; rf] arg1 -> operand pb0 [:: r; rf] arg2 ->
  size bs = w -> size cs = w -> is_word (pb_values pb) arg1 bs -> is_word (pb_values pb) arg2 cs ->
  exists pb', [/\ alu_bitwise_witness orb arg1 arg2 g pb = Ok pb', assigns ([:: r; rf] ++ fresh_vars pb0 pb1) pb pb' &
    holds (alu_or_constraints F arg1 arg2 g) (pb_values pb')].
Proof. by apply: bitwise_complete => x t p q h1 h2 h3; exact: (proj2 (or_step t.2 h1 h2) h3). Qed.
Theorem C39_xor_complete pb0 pb1 pb w (r rf : nat) g arg1 arg2 bs cs :
  pb_wf pb0 -> alu_bitwise_new pb0 w r rf = Ok (g, pb1) -> later pb1 pb ->
  all (is_var pb0) [:: r; rf] -> r != rf -> operand pb0 [:: r; rf] arg1 -> operand pb0 [:: r; rf] arg2 ->
  size bs = w -> size cs = w -> is_word (pb_values pb) arg1 bs -> is_word (pb_values pb) arg2 cs ->
  exists pb', [/\ alu_bitwise_witness addb arg1 arg2 g pb = Ok pb', assigns ([:: r; rf] ++ fresh_vars pb0 pb1) pb pb' &
    holds (alu_xor_constraints F arg1 arg2 g) (pb_values pb')].
Proof. by apply: bitwise_complete => x t p q h1 h2 h3; exact: (proj2 (xor_step t.2 h1 h2) h3). Qed.
Theorem C39_not_complete pb0 pb1 pb w (r rf : nat) g arg2 cs :
  pb_wf pb0 -> alu_bitwise_new pb0 w r rf = Ok (g, pb1) -> later pb1 pb ->
  all (is_var pb0) [:: r; rf] -> r != rf -> operand pb0 [:: r; rf] arg2 ->
  size cs = w -> is_word (pb_values pb) arg2 cs ->
  exists pb', [/\ alu_bitwise_witness (fun _ b => ~~ b) arg2 arg2 g pb = Ok pb',
    assigns ([:: r; rf] ++ fresh_vars pb0 pb1) pb pb' & holds (alu_not_constraints F arg2 g) (pb_values pb')].
Proof. exact: not_complete. Qed.

Theorem C39_add_complete pb0 pb1 pb w (r rf : nat) g arg1 arg2 bs cs :
  pb_wf pb0 -> alu_add_new pb0 w r rf = (g, pb1) -> later pb1 pb -> (2 ^ w.+1 <= fp_order R)%N ->
  all (is_var pb0) [:: r; rf] -> r != rf -> operand pb0 [:: r; rf] arg1 -> operand pb0 [:: r; rf] arg2 ->
  size bs = w -> size cs = w -> is_word (pb_values pb) arg1 bs -> is_word (pb_values pb) arg2 cs ->
  exists pb', [/\ alu_add_witness R arg1 arg2 g pb = Ok pb', assigns ([:: r; rf] ++ fresh_vars pb0 pb1) pb pb' &
    holds (alu_add_constraints F arg1 arg2 g) (pb_values pb')].
Proof. exact: add_ok. Qed.
Theorem C39_sub_complete pb0 pb1 pb w (r rf : nat) g arg1 arg2 bs cs :
  pb_wf pb0 -> alu_sub_new pb0 w r rf = (g, pb1) -> later pb1 pb -> (2 ^ w.+1 <= fp_order R)%N ->
  all (is_var pb0) [:: r; rf] -> r != rf -> operand pb0 [:: r; rf] arg1 -> operand pb0 [:: r; rf] arg2 ->
  size bs = w -> size cs = w -> is_word (pb_values pb) arg1 bs -> is_word (pb_values pb) arg2 cs ->
  exists pb', [/\ alu_sub_witness R w arg1 arg2 g pb = Ok pb', assigns ([:: r; rf] ++ fresh_vars pb0 pb1) pb pb' &
    holds (alu_sub_constraints F w arg1 arg2 g) (pb_values pb')].
Proof. exact: sub_ok. Qed.

(** [mov], [cmov] and the jumps allocate nothing. *)
Theorem C39_mov_complete arg2 (f r rf : nat) pb : pb_wf pb ->
  all (fun v => v <= size (pb_values pb))%N [:: dv_packed arg2; f] ->
  all (is_var pb) [:: r; rf] -> r != rf -> all (fun v => v \notin [:: r; rf]) [:: dv_packed arg2; f] ->
  exists pb', [/\ alu_mov_witness arg2 f r rf pb = Ok pb', assigns [:: r; rf] pb pb' &
    holds (alu_mov_constraints F arg2 f r rf) (pb_values pb')].
Proof. by move=> hw /= /and3P [h1 h2 _]; exact: mov_ok hw h1 h2. Qed.
Theorem C39_cmov_complete des arg2 (f r rf : nat) (b : bool) pb : pb_wf pb -> xval (pb_values pb) f = bit b ->
  all (fun v => v <= size (pb_values pb))%N [:: dv_packed des; dv_packed arg2; f] ->
  all (is_var pb) [:: r; rf] -> r != rf -> all (fun v => v \notin [:: r; rf]) [:: dv_packed des; dv_packed arg2; f] ->
  exists pb', [/\ alu_cmov_witness des arg2 f r rf pb = Ok pb', assigns [:: r; rf] pb pb' &
    holds (alu_cmov_constraints F des arg2 f r rf) (pb_values pb')].
Proof. exact: cmov_ok. Qed.
Theorem C39_jmp_complete s arg2 (r : nat) pb bs : pb_wf pb -> is_var pb r -> (dv_packed arg2 <= size (pb_values pb))%N ->
  is_word (pb_values pb) arg2 bs -> (s <= size bs)%N -> (2 ^ size bs <= fp_order R)%N ->
  all (fun v => v \notin [:: r]) (dv_packed arg2 :: dv_bits arg2) ->
  exists pb', [/\ alu_jmp_witness R s arg2 r pb = Ok pb', assigns [:: r] pb pb' &
    holds (alu_jmp_constraints F s arg2 r) (pb_values pb')].
Proof. exact: jmp_ok. Qed.
Theorem C39_cjmp_cnjmp_complete s pc arg2 (f r : nat) pb bs (b : bool) : pb_wf pb -> is_var pb r ->
  all (fun v => v <= size (pb_values pb))%N [:: dv_packed pc; dv_packed arg2; f] -> xval (pb_values pb) f = bit b ->
  is_word (pb_values pb) arg2 bs -> (s <= size bs)%N -> (2 ^ size bs <= fp_order R)%N ->
  all (fun v => v \notin [:: r]) (dv_packed pc :: f :: dv_packed arg2 :: dv_bits arg2) ->
  (exists pb', [/\ alu_cjmp_witness R s pc arg2 f r pb = Ok pb', assigns [:: r] pb pb' &
    holds (alu_cjmp_constraints F s pc arg2 f r) (pb_values pb')]) /\
  (exists pb', [/\ alu_cnjmp_witness R s pc arg2 f r pb = Ok pb', assigns [:: r] pb pb' &
    holds (alu_cnjmp_constraints F s pc arg2 f r) (pb_values pb')]).
Proof. exact: cjmp_ok. Qed.

Theorem C39_cmp_complete pb0 pb1 pb w des arg1 arg2 o g bs cs :
  let outs := [:: co_e o; co_e_flag o; co_a o; co_a_flag o; co_ae o; co_ae_flag o] in
  pb_wf pb0 -> alu_cmp_new pb0 w arg1 arg2 o = Ok (g, pb1) -> later pb1 pb -> (2 ^ w.+1 <= fp_order R)%N ->
  all (is_var pb0) outs -> uniq outs -> all (operand pb0 outs) [:: des; arg1; arg2] ->
  size bs = w -> size cs = w -> is_word (pb_values pb) arg1 bs -> is_word (pb_values pb) arg2 cs ->
  exists pb', [/\ alu_cmp_witness R des o g pb = Ok pb', assigns (outs ++ fresh_vars pb0 pb1) pb pb' &
    holds (alu_cmp_constraints des o g) (pb_values pb')].
Proof. exact: cmp_ok. Qed.

Theorem C39_cmps_complete pb0 pb1 pb w des arg1 arg2 o g bs cs :
  let outs := [:: cs_g o; cs_g_flag o; cs_ge o; cs_ge_flag o] in
  pb_wf pb0 -> alu_cmps_new pb0 w o = Ok (g, pb1) -> later pb1 pb -> (0 < w)%N -> (2 ^ w.+1 <= fp_order R)%N ->
  all (is_var pb0) outs -> uniq outs -> all (operand pb0 outs) [:: des; arg1; arg2] ->
  size bs = w -> size cs = w -> is_word (pb_values pb) arg1 bs -> is_word (pb_values pb) arg2 cs ->
  exists pb', [/\ alu_cmps_witness R des arg1 arg2 o g pb = Ok pb', assigns (outs ++ fresh_vars pb0 pb1) pb pb' &
    holds (alu_cmps_constraints des arg1 arg2 o g) (pb_values pb')].
Proof. exact: cmps_ok. Qed.

Theorem C39_umul_complete pb0 pb1 pb w arg1 arg2 o g bs cs :
  let outs := [:: um_mull o; um_mull_flag o; um_umulh o; um_umulh_flag o] in
  pb_wf pb0 -> alu_umul_new pb0 w = Ok (g, pb1) -> later pb1 pb -> (2 ^ (2 * w) <= fp_order R)%N ->
  all (is_var pb0) outs -> uniq outs -> all (operand pb0 outs) [:: arg1; arg2] ->
  size bs = w -> size cs = w -> is_word (pb_values pb) arg1 bs -> is_word (pb_values pb) arg2 cs ->
  exists pb', [/\ alu_umul_witness R w arg1 arg2 o g pb = Ok pb', assigns (outs ++ fresh_vars pb0 pb1) pb pb' &
    holds (alu_umul_constraints F w arg1 arg2 o g) (pb_values pb')].
Proof. exact: umul_ok. Qed.

(** The constraints leave the flags of the division free and do not by themselves pin the
    quotient (Prop_Alu.v), so what witness generation writes is said here: quotient and
    remainder, 0 and 0 when dividing by 0, and flags set exactly then. *)
Theorem C39_divmod_complete pb0 pb1 pb w arg1 arg2 o g bs cs :
  let outs := [:: dm_q o; dm_q_flag o; dm_r o; dm_r_flag o] in
  pb_wf pb0 -> alu_divmod_new pb0 w arg2 o = Ok (g, pb1) -> later pb1 pb -> (2 ^ w.+1 <= fp_order R)%N ->
  all (is_var pb0) outs -> uniq outs -> all (operand pb0 outs) [:: arg1; arg2] ->
  size bs = w -> size cs = w -> is_word (pb_values pb) arg1 bs -> is_word (pb_values pb) arg2 cs ->
  exists pb', [/\ alu_divmod_witness R arg1 arg2 o g pb = Ok pb', assigns (outs ++ fresh_vars pb0 pb1) pb pb',
    holds (alu_divmod_constraints arg1 arg2 o g) (pb_values pb') &
    [/\ xval (pb_values pb') (dm_q o) = (bits_nat bs %/ bits_nat cs)%N%:R,
        xval (pb_values pb') (dm_r o) = (if (bits_nat cs == 0)%N then 0 else (bits_nat bs %% bits_nat cs)%N%:R) &
        all (fun v => xval (pb_values pb') v == bit (bits_nat cs == 0)%N) [:: dm_q_flag o; dm_r_flag o]]].
Proof. exact: divmod_ok. Qed.

(** [smulh]; that the constraints exist at all needs w < 63 (C39_smulh_defined). *)
Theorem C39_smulh_complete pb0 pb1 pb w arg1 arg2 (r rf : nat) g bs cs :
  pb_wf pb0 -> alu_smul_new pb0 w = (g, pb1) -> later pb1 pb -> (0 < w < 63)%N -> (2 ^ (2 * w).+1 <= fp_order R)%N ->
  all (is_var pb0) [:: r; rf] -> r != rf -> all (operand pb0 [:: r; rf]) [:: arg1; arg2] ->
  size bs = w -> size cs = w -> is_word (pb_values pb) arg1 bs -> is_word (pb_values pb) arg2 cs ->
  exists pb' c, [/\ alu_smul_witness R w arg1 arg2 r rf g pb = Ok pb', assigns ([:: r; rf] ++ fresh_vars pb0 pb1) pb pb',
    alu_smul_constraints F w arg1 arg2 r rf g = Ok c & holds c (pb_values pb')].
Proof. exact: smul_ok. Qed.

(** [shr] and [shl]: [s] says which of the two is asked for.  Witness generation also puts
    the same word in both results. *)
Theorem C39_shift_complete pb0 pb1 pb w (shr : nat) (s : bool) arg1 arg2 o g bs cs :
  let outs := [:: so_shr o; so_shr_flag o; so_shl o; so_shl_flag o] in
  pb_wf pb0 -> alu_shift_new pb0 w arg2 = Ok (g, pb1) -> later pb1 pb -> (0 < w)%N -> (2 ^ w <= fp_order R)%N ->
  all (is_var pb0) outs -> uniq outs -> all (operand pb0 outs) [:: arg1; arg2] ->
  (shr <= size (pb_values pb0))%N -> shr \notin outs -> xval (pb_values pb) shr = bit s ->
  size bs = w -> size cs = w -> is_word (pb_values pb) arg1 bs -> is_word (pb_values pb) arg2 cs ->
  exists pb', [/\ alu_shift_witness R w shr arg1 arg2 o g pb = Ok pb', assigns (outs ++ fresh_vars pb0 pb1) pb pb',
    holds (alu_shift_constraints F w shr arg1 arg2 o g) (pb_values pb') &
    xval (pb_values pb') (so_shl o) = xval (pb_values pb') (so_shr o)].
Proof. exact: shift_ok. Qed.
End Props.

(** The hypotheses are met by the protoboards of Prop_Alu.v, over the field of order 17. *)
Example C39_ex_operands : let pb := pb17 2 3 1 true in
  [&& all (operand pb [:: 11; 12; 13; 14; 15; 16]%N) [:: arg1_17; arg2_17; des_17],
      all (is_var pb) [:: 11; 12; 13; 14; 15; 16]%N,
      [seq xval (pb_values pb) v | v <- dv_bits arg1_17] == [:: 0; 1],
      xval (pb_values pb) (dv_packed arg1_17) == (bits_nat (two_bits 2))%:R &
      [&& xval (pb_values pb) (dv_packed arg2_17) == (bits_nat (two_bits 3))%:R,
       (16 == size (pb_values pb))%N & if alu_cmp_new pb 2 arg1_17 arg2_17 cmp_17 is Ok _ then true else false]].
Proof. by vm_compute. Qed.

Print Assumptions C39_and_complete.
Print Assumptions C39_or_complete.
Print Assumptions C39_xor_complete.
Print Assumptions C39_not_complete.
Print Assumptions C39_add_complete.
Print Assumptions C39_sub_complete.
Print Assumptions C39_mov_complete.
Print Assumptions C39_cmov_complete.
Print Assumptions C39_jmp_complete.
Print Assumptions C39_cjmp_cnjmp_complete.
Print Assumptions C39_cmp_complete.
Print Assumptions C39_cmps_complete.
Print Assumptions C39_umul_complete.
Print Assumptions C39_divmod_complete.
Print Assumptions C39_smulh_complete.
Print Assumptions C39_shift_complete.
