(** Model of libsnark/relations/ram_computations/rams/tinyram/tinyram_aux.{hpp,cpp}.

    [size_t] values are [N]s below 2^64; the arithmetic on them wraps as in C++, and shifting
    by the width of the type or more is undefined.  Widths and counts are [nat]s. *)
From Coq Require Import NArith.
From mathcomp Require Import all_ssreflect.
From Verif Require Import Outcome StdMap MerkleTree Memory.
Set Implicit Arguments.
Unset Strict Implicit.
Unset Printing Implicit Defensive.
Delimit Scope N_scope with num.

(** 64-bit arithmetic *)
Definition word_mod : N := (2 ^ 64)%num.
Definition add64 (x y : N) : N := ((x + y) mod word_mod)%num.
Definition sub64 (x y : N) : N := ((x + word_mod - y mod word_mod) mod word_mod)%num.
Definition mul64 (x y : N) : N := ((x * y) mod word_mod)%num.
Definition shl64 (x : N) (s : nat) : outcome N :=
  if s < 64 then Ok (N.shiftl x (N.of_nat s) mod word_mod)%num else UB.
Definition shr64 (x : N) (s : nat) : outcome N :=
  if s < 64 then Ok (N.shiftr x (N.of_nat s)) else UB.
Definition div64 (x y : N) : outcome N := if (y =? 0)%num then UB else Ok (x / y)%num.

(** tinyram_aux.hpp:146-182 *)
Record tinyram_params := TinyramParams { ap_w : nat; ap_k : nat }.
(** tinyram_aux.hpp:152 *)
Definition new_params (w k : nat) : outcome tinyram_params :=
  assert! (w == 2 ^ log2 w) in Ok (TinyramParams w k).

(** tinyram_aux.cpp:134-147, 242-283; [log2(tinyram_opcode_ANSWER) = log2(31)].  The differences of
    [dwaddr_len] are never negative as a whole; [instruction_padding_width] is given for
    parameters for which the instruction fits a double word only. *)
Definition opcode_width : nat := log2 31.
Definition reg_arg_width (ap : tinyram_params) : nat := log2 (ap_k ap).
Definition reg_arg_or_imm_width (ap : tinyram_params) : nat := maxn (ap_w ap) (reg_arg_width ap).
Definition instruction_padding_width (ap : tinyram_params) : nat :=
  2 * ap_w ap - (opcode_width + 1 + 2 * reg_arg_width ap + reg_arg_or_imm_width ap).
Definition dwaddr_len (ap : tinyram_params) : nat := ap_w ap + 2 - log2 (ap_w ap).
Definition cpu_state_size (ap : tinyram_params) : nat := ap_k ap * ap_w ap + 2.

(** tinyram_aux.hpp:187-202; an opcode is its number (tinyram_aux.hpp:27-65). *)
Record tinyram_instruction := TinyramInstruction {
  ti_opcode : N; ti_arg2_is_imm : bool; ti_desidx : N; ti_arg1idx : N; ti_arg2idx_or_imm : N }.

(** tinyram_aux.cpp:320-329.  A negative final shift wraps to an enormous one. *)
Definition as_dword (ap : tinyram_params) (ti : tinyram_instruction) : outcome N :=
  let r0 := ti_opcode ti in
  let! r1 := shl64 r0 1 in
  let r2 := N.lor r1 (if ti_arg2_is_imm ti then 1 else 0)%num in
  let! r3 := shl64 r2 (log2 (ap_k ap)) in
  let r4 := N.lor r3 (ti_desidx ti) in
  let! r5 := shl64 r4 (log2 (ap_k ap)) in
  let r6 := N.lor r5 (ti_arg1idx ti) in
  if 2 * ap_w ap < opcode_width + 1 + 2 * log2 (ap_k ap) then UB else
  let! r7 := shl64 r6 (2 * ap_w ap - opcode_width - 1 - 2 * log2 (ap_k ap)) in
  Ok (N.lor r7 (ti_arg2idx_or_imm ti)).

(** The two input loops, tinyram_aux.cpp:219-237 and 394-412, with the way to store a double
    word as a parameter; [base] is the first address. *)
Definition store_input (S : Type) (store : S -> nat -> N -> S) (ap : tinyram_params) (base : N)
    (primary_input : seq N) (s0 : S) : outcome S :=
  let increment := N.of_nat (ap_w ap %/ 8) in
  let! top := shl64 1 (ap_w ap - 1) in
  let latest := add64 top (mul64 (N.of_nat (size primary_input)) increment) in
  let! st := ofold (fun st i =>
      let! latest := (if 2 * i < size primary_input
                      then let! x := oget primary_input (2 * i) in
                           let! y := shl64 x (ap_w ap) in Ok (add64 st.2 y)
                      else Ok st.2) in
      let s := store st.1 (N.to_nat base + i) latest in
      let! latest := (if 2 * i + 1 < size primary_input then oget primary_input (2 * i + 1) else Ok latest) in
      Ok (s, latest))
    (s0, latest) (iota 0 ((size primary_input) %/ 2 + 1)) in
  Ok st.1.

(** tinyram_aux.cpp:208-240 *)
Definition initial_memory_contents (ap : tinyram_params) (program : seq tinyram_instruction)
    (primary_input : seq N) : outcome memory_contents :=
  let! m := ofold (fun m i =>
      let! ti := oget program i in
      let! d := as_dword ap ti in
      Ok (nm_set m i d)) [::] (iota 0 (size program)) in
  let! input_addr := shl64 1 (dwaddr_len ap - 1) in
  store_input (fun m a v => nm_set m a v) ap input_addr primary_input m.

(** tinyram_aux.cpp:379-415; the state is the trace with [boot_pos]. *)
Definition boot_put (st : memory_store_trace * N) (a : nat) (v : N) : memory_store_trace * N :=
  (set_trace_entry st.1 (N.to_nat st.2) (a, v), sub64 st.2 1).
Definition boot_trace_from_program_and_input (ap : tinyram_params) (boot_trace_size_bound : N)
    (program : seq tinyram_instruction) (primary_input : seq N) : outcome memory_store_trace :=
  let! st := ofold (fun st i =>
      let! ti := oget program i in
      let! d := as_dword ap ti in
      Ok (boot_put st i d)) ([::], sub64 boot_trace_size_bound 1) (iota 0 (size program)) in
  let! base := shl64 1 (dwaddr_len ap - 1) in
  let! st := store_input boot_put ap base primary_input st in
  Ok st.1.

(** tinyram_aux.cpp:169-206 *)
Definition primary_input_from_boot_trace (ap : tinyram_params) (boot_trace : memory_store_trace) : outcome (seq N) :=
  let memory := as_memory_contents boot_trace in
  let! base := shl64 1 (dwaddr_len ap - 1) in
  let find (a : nat) := if nm_find memory a is Some v then Ok v else AssertFail in
  let! latest := find (N.to_nat base) in
  let! top := shl64 1 (ap_w ap - 1) in
  let increment := N.of_nat (ap_w ap %/ 8) in
  let! full := shl64 1 (ap_w ap) in
  let mask := sub64 full 1 in
  let! n := div64 (sub64 (N.land latest mask) top) increment in
  let input_size := N.to_nat n in
  let! latest := shr64 latest (ap_w ap) in
  let! st := ofold (fun st i =>
      let input := rcons st.1 st.2 in
      if i < input_size %/ 2 then
        let! latest := find (N.to_nat base + i + 1) in
        let input := rcons input (N.land latest mask) in
        let! latest := shr64 latest (ap_w ap) in
        Ok (input, latest)
      else Ok (input, st.2))
    ([::], latest) (iota 0 ((input_size + 1) %/ 2)) in
  assert! (size st.1 == input_size) in
  Ok st.1.

(** tinyram_aux.cpp:156-167.  [libff::int_list_to_bits({r0}, w)], which is external, gives the
    [w] low bits of [r0], most significant first. *)
Definition bits_msb_first (w : nat) (x : N) : seq bool := rev [seq N.testbit x (N.of_nat j) | j <- iota 0 w].
Definition initial_cpu_state (ap : tinyram_params) (primary_input : seq N) : outcome (seq bool) :=
  let increment := N.of_nat (ap_w ap %/ 8) in
  let! top := shl64 1 (ap_w ap - 1) in
  let r0 := add64 top (mul64 (N.of_nat (size primary_input)) increment) in
  let result := rev (bits_msb_first (ap_w ap) r0) in
  let result := resize result (cpu_state_size ap) in
  oput result (size result - 2) true.

(** tinyram_aux.cpp:117-132 *)
Definition prelude (ap : tinyram_params) : outcome (seq tinyram_instruction) :=
  let w := ap_w ap in
  let increment := N.of_nat (w %/ 8) in
  let! mem_start := shl64 1 (w - 1) in
  let i := N.of_nat ((2 * w) %/ 8) in
  Ok [:: TinyramInstruction 28 true 0 0 0;
         TinyramInstruction 18 true 0 0 mem_start;
         TinyramInstruction 30 true 1 0 0;
         TinyramInstruction 21 true 0 0 (mul64 7 i);
         TinyramInstruction 4 true 0 0 increment;
         TinyramInstruction 28 false 1 0 0;
         TinyramInstruction 20 true 0 0 (mul64 2 i);
         TinyramInstruction 28 true 0 0 mem_start].
(** tinyram_aux.cpp:149-154 *)
Definition initial_pc_addr (ap : tinyram_params) : outcome nat := let! p := prelude ap in Ok (size p).

(** tinyram_cpu_checker.tcc:40-49: how the CPU checker cuts the double word at the program
    counter, given by its bits with the least significant first, into the fields (arg2idx,
    arg1idx, desidx, arg2_is_imm, opcode). *)
Definition decode_bits (ap : tinyram_params) (pc_val : seq bool) : outcome (seq bool * seq bool * seq bool * bool * seq bool) :=
  let it := pc_val in
  let arg2idx := take (reg_arg_or_imm_width ap) it in
  let it := drop (reg_arg_or_imm_width ap) it in
  let it := drop (instruction_padding_width ap) it in
  let arg1idx := take (reg_arg_width ap) it in
  let it := drop (reg_arg_width ap) it in
  let desidx := take (reg_arg_width ap) it in
  let it := drop (reg_arg_width ap) it in
  let! arg2_is_imm := oget it 0 in
  let it := drop 1 it in
  let opcode := take opcode_width it in
  let it := drop opcode_width it in
  assert! (it == [::]) in
  Ok (arg2idx, arg1idx, desidx, arg2_is_imm, opcode).
