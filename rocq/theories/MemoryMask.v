(** The memory masking gadget of the TinyRAM CPU checker
    (gadgets/cpu_checkers/tinyram/components/memory_masking_gadget.{hpp,tcc}) and the
    constraints on memory of the CPU checker itself
    (gadgets/cpu_checkers/tinyram/tinyram_cpu_checker.tcc:134-195).

    The word size is [w], the number of bytes in a word [n = w/8], and [sl] is
    [subaddr_len()].  A double word is a dual variable of [2 w] bits.  Slices and elements
    beyond the end of an array, undefined behaviour in the code, are cut off here; the
    theorems give the arrays their sizes. *)
From mathcomp Require Import all_ssreflect all_algebra zify.
From Verif Require Import Outcome Lincomb R1CS Protoboard BasicGadgets.
Set Implicit Arguments.
Unset Strict Implicit.
Unset Printing Implicit Defensive.
Local Open Scope ring_scope.

Section Mask.
Variable F : fieldType.
Variable R : bigint_repr F.
Implicit Types (pb : protoboard F) (prev next : dual_variable).

Let vr (v : pb_variable) : linear_combination F := lc_of_var F v.
(** [pb_variable_array(bits.begin() + i, bits.begin() + j)] and its packing sum *)
Definition slice (i j : nat) (vs : pb_variable_array) : pb_variable_array := drop i (take j vs).
Definition slice_sum (i j : nat) (vs : pb_variable_array) : linear_combination F :=
  pb_packing_sum (plcs_of_vars F (slice i j vs)).

(** memory_masking_gadget.hpp:52-88 *)
Record mask := Mask {
  mm_prev : dual_variable; mm_sub : dual_variable; mm_subcontents : pb_linear_combination F;
  mm_word : pb_linear_combination F; mm_byte : pb_linear_combination F; mm_next : dual_variable;
  mm_is_word0 : pb_variable; mm_is_word1 : pb_variable; mm_is_sub : pb_variable_array; mm_is_byte : pb_variable_array;
  mm_out_word0 : pb_linear_combination F; mm_out_word1 : pb_linear_combination F;
  mm_out_bytes : pb_linear_combination_array F; mm_masked : pb_variable; mm_ip : inner_product F;
  mm_shift : pb_linear_combination F }.
(** memory_masking_gadget.tcc:54-59: what is left when a word is masked out *)
Definition out_word0 (w : nat) prev : linear_combination F := lc_scale (slice_sum w (2 * w) (dv_bits prev)) (2%:R ^+ w).
Definition out_word1 (w : nat) prev : linear_combination F := slice_sum 0 w (dv_bits prev).
(** memory_masking_gadget.tcc:62-69: ... or byte [i] *)
Definition out_byte prev (i : nat) : linear_combination F :=
  var_sub_lc (dv_packed prev) (lc_scale (slice_sum (8 * i) (8 * i.+1) (dv_bits prev)) (2%:R ^+ (8 * i))).
(** memory_masking_gadget.tcc:93-98 *)
Definition shift_lc (w : nat) (w0 w1 : pb_variable) (bytes : pb_variable_array) (m : nat) : linear_combination F :=
  foldl (fun l i => lc_add l (lc_of_term (var_scale (nth 0%N bytes i) (2%:R ^+ (8 * i) : F))))
    (lt_add_lc (lt_of_int F w0 1) (lc_of_term (var_scale w1 (2%:R ^+ w : F)))) (iota 0 m).
(** memory_masking_gadget.tcc:60-69: one [assign] for each element of [masked_out_bytes] *)
Fixpoint assign_all pb (ls : seq (linear_combination F)) : pb_linear_combination_array F * protoboard F :=
  if ls is l :: ls then
    let: (o, pb) := lc_assign pb l in let: (os, pb) := assign_all pb ls in (o :: os, pb)
  else ([::], pb).
(** memory_masking_gadget.tcc:19-99 *)
Definition mask_new pb (w n : nat) prev (sub : dual_variable) (subcontents access_is_word access_is_byte : pb_linear_combination F)
    next : outcome (mask * protoboard F) :=
  let: (w0, pb) := allocate_var pb in
  let: (w1, pb) := allocate_var pb in
  let: (is_sub, pb) := allocate_array pb (2 * n) in
  let: (is_byte, pb) := allocate_array pb (2 * n) in
  let: (m0, pb) := lc_assign pb (out_word0 w prev) in
  let: (m1, pb) := lc_assign pb (out_word1 w prev) in
  let: (mb, pb) := assign_all pb [seq out_byte prev i | i <- iota 0 (2 * n)] in
  let: (masked, pb) := allocate_var pb in
  let! ip := inner_product_new pb (plcs_of_vars F (w0 :: w1 :: is_byte)) (m0 :: m1 :: mb) masked in
  let: (sh, pb) := lc_assign ip.2 (shift_lc w w0 w1 is_byte (2 * n)) in
  Ok (Mask prev sub subcontents access_is_word access_is_byte next w0 w1 is_sub is_byte m0 m1 mb masked ip.1 sh, pb).
(** [subaddress.bits[subaddr_len()-1]] *)
Definition sub_top (sl : nat) (g : mask) : pb_variable := nth 0%N (dv_bits (mm_sub g)) (sl - 1).
(** memory_masking_gadget.tcc:104-124: the indicators *)
Definition mask_indicators (n sl : nat) (g : mask) : seq (r1cs_constraint F) :=
  [seq R1csConstraint (vr (nth 0%N (mm_is_sub g) i)) (var_sub_lc (dv_packed (mm_sub g)) (lc_of_int F (Posz i))) (lc_of_int F 0)
  | i <- iota 0 (2 * n)] ++
  [:: R1csConstraint (lc_of_int F 1) (pb_sum (plcs_of_vars F (mm_is_sub g))) (lc_of_int F 1)] ++
  [seq R1csConstraint (lc_terms (mm_byte g)) (vr (nth 0%N (mm_is_sub g) i)) (vr (nth 0%N (mm_is_byte g) i))
  | i <- iota 0 (2 * n)] ++
  [:: R1csConstraint (lc_terms (mm_word g)) (lc_sub (lc_of_int F 1) (vr (sub_top sl g))) (vr (mm_is_word0 g));
      R1csConstraint (lc_terms (mm_word g)) (vr (sub_top sl g)) (vr (mm_is_word1 g))].
(** memory_masking_gadget.tcc:129-133: [mask_difference] *)
Definition mask_difference (g : mask) : r1cs_constraint F :=
  R1csConstraint (lc_terms (mm_shift g)) (lc_terms (mm_subcontents g)) (var_sub_lc (dv_packed (mm_next g)) (vr (mm_masked g))).
(** memory_masking_gadget.tcc:101-134 *)
Definition mask_constraints (n sl : nat) (g : mask) : seq (r1cs_constraint F) :=
  mask_indicators n sl g ++ inner_product_constraints (mm_ip g) ++ [:: mask_difference g].
(** memory_masking_gadget.tcc:136-167 *)
Definition mask_witness (n sl : nat) (g : mask) pb : outcome (protoboard F) :=
  let! s := pb_val pb (dv_packed (mm_sub g)) in
  let! pb := set_all pb [seq (nth 0%N (mm_is_sub g) i, bit_val F (s == i%:R)) | i <- iota 0 (2 * n)] in
  let! b := pb_lc_val pb (mm_byte g) in
  let! pb := ofold (fun pb i => let! v := pb_val pb (nth 0%N (mm_is_sub g) i) in
                                pb_set pb (nth 0%N (mm_is_byte g) i) (v * b)) pb (iota 0 (2 * n)) in
  let! t := pb_val pb (sub_top sl g) in
  let! wd := pb_lc_val pb (mm_word g) in
  let! pb := pb_set pb (mm_is_word0 g) ((1 - t) * wd) in
  let! pb := pb_set pb (mm_is_word1 g) (t * wd) in
  let! pb := lc_evaluate pb (mm_shift g) in
  let! pb := lc_evaluate pb (mm_out_word0 g) in
  let! pb := lc_evaluate pb (mm_out_word1 g) in
  let! pb := lcs_evaluate pb (mm_out_bytes g) in
  let! pb := inner_product_witness (mm_ip g) pb in
  let! m := pb_val pb (mm_masked g) in
  let! sh := pb_lc_val pb (mm_shift g) in
  let! c := pb_lc_val pb (mm_subcontents g) in
  let! pb := pb_set pb (dv_packed (mm_next g)) (m + sh * c) in
  dual_variable_witness_from_packed R (mm_next g) pb.

(** * The CPU checker's own constraints on memory contents.
    [ind] are the opcode indicators, [results] the instructions' results, [desval] the word
    read from the destination register. *)
(** [a * (b - c) = 0] for a linear combination [c] *)
Let eq_if (a b : pb_variable) (c : linear_combination F) : r1cs_constraint F :=
  R1csConstraint (vr a) (var_sub_lc b c) (lc_of_int F 0).
(** tinyram_cpu_checker.tcc:174-191: load.b, load.w, store.b and store.w *)
Definition handle_memory (ind results : pb_variable_array) (desval : dual_variable) (subcontents : pb_variable) :
    seq (r1cs_constraint F) :=
  [:: eq_if (nth 0%N ind 27) subcontents (vr (nth 0%N results 27));
      eq_if (nth 0%N ind 29) subcontents (vr (nth 0%N results 29));
      eq_if (nth 0%N ind 26) subcontents (slice_sum 0 8 (dv_bits desval));
      eq_if (nth 0%N ind 28) subcontents (vr (dv_packed desval))].
(** tinyram_cpu_checker.tcc:192-195: other instructions do not change memory *)
Definition keep_memory (ind : pb_variable_array) prev next : r1cs_constraint F :=
  R1csConstraint (lc_sub (lc_of_int F 1) (var_add_lc (nth 0%N ind 26) (vr (nth 0%N ind 28))))
    (var_sub_lc (dv_packed prev) (vr (dv_packed next))) (lc_of_int F 0).
(** tinyram_cpu_checker.tcc:146, 155, 157, 174-195: of the constraints of the CPU checker, those in
    which the double word after the access, the subcontents or the bits of the destination's
    value occur *)
Definition cpu_store_constraints (ind results : pb_variable_array) (desval : dual_variable) (subcontents : pb_variable) (g : mask) :
    seq (r1cs_constraint F) :=
  dual_variable_constraints F (mm_next g) true ++ dual_variable_constraints F (mm_next g) false ++
  [:: mask_difference g] ++ handle_memory ind results desval subcontents ++ [:: keep_memory ind (mm_prev g) (mm_next g)].
End Mask.
