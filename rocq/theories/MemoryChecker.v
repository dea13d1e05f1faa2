(** The memory lines and the memory checker of the reduction from RAM programs to
    R1CS (reductions/ram_to_r1cs/gadgets/{trace_lines,memory_checker_gadget,
    ram_universal_gadget}.tcc).

    [ram_protoboard] is a protoboard with the architecture parameters; the two
    sizes used here, [address_size] and [value_size], are arguments. *)
From mathcomp Require Import all_ssreflect all_algebra zify.
From Verif Require Import Outcome Lincomb R1CS Protoboard BasicGadgets IntegerPermutation.
Set Implicit Arguments.
Unset Strict Implicit.
Unset Printing Implicit Defensive.
Local Open Scope ring_scope.

Section MemoryChecker.
Variable F : fieldType.
Variable R : bigint_repr F.
Implicit Types (pb : protoboard F).

(** trace_lines.hpp:33-61: memory_line_variable_gadget *)
Record memory_line := MemoryLine {
  ml_timestamp : dual_variable; ml_address : dual_variable;
  ml_before : dual_variable; ml_after : dual_variable }.
(** trace_lines.tcc:19-33: constructor *)
Definition memory_line_new pb (timestamp_size address_size value_size : nat) : memory_line * protoboard F :=
  let: (timestamp, pb) := dual_variable_new pb timestamp_size in
  let: (address, pb) := dual_variable_new pb address_size in
  let: (contents_before, pb) := dual_variable_new pb value_size in
  let: (contents_after, pb) := dual_variable_new pb value_size in
  (MemoryLine timestamp address contents_before contents_after, pb).
(** trace_lines.tcc:35-42: generate_r1cs_constraints *)
Definition memory_line_constraints (l : memory_line) (enforce_bitness : bool) : seq (r1cs_constraint F) :=
  dual_variable_constraints F (ml_timestamp l) enforce_bitness ++
  dual_variable_constraints F (ml_address l) enforce_bitness ++
  dual_variable_constraints F (ml_before l) enforce_bitness ++
  dual_variable_constraints F (ml_after l) enforce_bitness.
(** trace_lines.tcc:62-72: all_vars *)
Definition memory_line_all_vars (l : memory_line) : pb_variable_array :=
  dv_bits (ml_timestamp l) ++ dv_bits (ml_address l) ++ dv_bits (ml_before l) ++ dv_bits (ml_after l).

(** memory_checker_gadget.hpp:20-52 *)
Record memory_checker := MemoryChecker {
  mc_timestamps_leq : pb_variable; mc_timestamps_less : pb_variable; mc_compare_timestamps : comparison F;
  mc_addresses_eq : pb_variable; mc_addresses_leq : pb_variable; mc_addresses_less : pb_variable;
  mc_compare_addresses : comparison F;
  mc_loose_eq : pb_variable; mc_loose_zero : pb_variable; mc_loose_ts : pb_variable;
  mc_line1 : memory_line; mc_line2 : memory_line }.
(** memory_checker_gadget.tcc:19-54: constructor *)
Definition memory_checker_new pb (timestamp_size address_size : nat) (line1 line2 : memory_line) :
    outcome (memory_checker * protoboard F) :=
  let: (timestamps_leq, pb) := allocate_var pb in
  let: (timestamps_less, pb) := allocate_var pb in
  let! ct := comparison_new pb timestamp_size (plc_of_var F (dv_packed (ml_timestamp line1)))
               (plc_of_var F (dv_packed (ml_timestamp line2))) timestamps_less timestamps_leq in
  let pb := ct.2 in
  let: (addresses_eq, pb) := allocate_var pb in
  let: (addresses_leq, pb) := allocate_var pb in
  let: (addresses_less, pb) := allocate_var pb in
  let! ca := comparison_new pb address_size (plc_of_var F (dv_packed (ml_address line1)))
               (plc_of_var F (dv_packed (ml_address line2))) addresses_less addresses_leq in
  let pb := ca.2 in
  let: (loose_eq, pb) := allocate_var pb in
  let: (loose_zero, pb) := allocate_var pb in
  let: (loose_ts, pb) := allocate_var pb in
  Ok (MemoryChecker timestamps_leq timestamps_less ct.1 addresses_eq addresses_leq addresses_less ca.1
        loose_eq loose_zero loose_ts line1 line2, pb).

Let vlc (v : pb_variable) := lc_of_var F v.
Let zero_lc := lc_of_int F 0.
(** [1 - v], variable.tcc:93-96 *)
Let not_lc (v : pb_variable) := lc_sub (lc_of_int F 1) (vlc v).

(** memory_checker_gadget.tcc:56-109: generate_r1cs_constraints *)
Definition memory_checker_constraints (g : memory_checker) : seq (r1cs_constraint F) :=
  let before2 := dv_packed (ml_before (mc_line2 g)) in
  comparison_constraints (mc_compare_timestamps g) ++
  comparison_constraints (mc_compare_addresses g) ++
  [:: R1csConstraint (vlc (mc_addresses_leq g)) (not_lc (mc_addresses_less g)) (vlc (mc_addresses_eq g));
      R1csConstraint (vlc (mc_loose_eq g))
        (var_sub_lc (dv_packed (ml_after (mc_line1 g))) (vlc before2)) zero_lc;
      boolean_constraint (lc_terms (plc_of_var F (mc_loose_eq g)));
      R1csConstraint (vlc (mc_loose_zero g)) (vlc before2) zero_lc;
      boolean_constraint (lc_terms (plc_of_var F (mc_loose_zero g)));
      R1csConstraint (vlc (mc_loose_ts g)) (vlc (dv_packed (ml_timestamp (mc_line2 g)))) zero_lc;
      boolean_constraint (lc_terms (plc_of_var F (mc_loose_ts g)));
      R1csConstraint (vlc (mc_addresses_eq g)) (not_lc (mc_loose_eq g)) zero_lc;
      R1csConstraint (vlc (mc_addresses_less g)) (not_lc (mc_loose_zero g)) zero_lc;
      R1csConstraint (not_lc (mc_addresses_leq g)) (not_lc (mc_loose_ts g)) zero_lc].

(** memory_checker_gadget.tcc:111-130: generate_r1cs_witness *)
Definition flag (b : bool) : F := if b then 1 else 0.
Definition memory_checker_witness (g : memory_checker) pb : outcome (protoboard F) :=
  let! pb := comparison_witness R (mc_compare_addresses g) pb in
  let! leq := pb_val pb (mc_addresses_leq g) in
  let! less := pb_val pb (mc_addresses_less g) in
  let! pb := pb_set pb (mc_addresses_eq g) (leq * (1 - less)) in
  let! pb := comparison_witness R (mc_compare_timestamps g) pb in
  let! after1 := pb_val pb (dv_packed (ml_after (mc_line1 g))) in
  let! before2 := pb_val pb (dv_packed (ml_before (mc_line2 g))) in
  let! pb := pb_set pb (mc_loose_eq g) (flag (after1 == before2)) in
  let! before2 := pb_val pb (dv_packed (ml_before (mc_line2 g))) in
  let! pb := pb_set pb (mc_loose_zero g) (flag (before2 == 0)) in
  let! timestamp2 := pb_val pb (dv_packed (ml_timestamp (mc_line2 g))) in
  pb_set pb (mc_loose_ts g) (flag (timestamp2 == 0)).
End MemoryChecker.

(** ** The permutation chosen by the prover *)

(** The order of [std::pair<size_t, size_t>]. *)
Definition pair_lt (p q : nat * nat) : bool := (p.1 < q.1)%N || (p.1 == q.1) && (p.2 < q.2)%N.
Definition pair_le (p q : nat * nat) : bool := (p == q) || pair_lt p q.

(** ram_universal_gadget.tcc:310-330: the pairs (address, timestamp) are sorted;
    line [i] is followed by the first pair greater than its own, and by line 0
    after the last one.  [addrs] are the addresses of the unrouted lines, whose
    timestamps are their positions (lines 229-234).  [std::sort] is modelled by
    a sorting function, [std::upper_bound] by the first greater element. *)
Definition upper_bound (pairs : seq (nat * nat)) (key : nat * nat) : option (nat * nat) :=
  if [seq q <- pairs | pair_lt key q] is q :: _ then Some q else None.
Definition memory_permutation (addrs : seq nat) : outcome int_perm :=
  let n := size addrs in
  let mem_pairs := sort pair_le (zip addrs (iota 0 n)) in
  ofold (fun pi i =>
    let prev := if upper_bound mem_pairs (nth 0%N addrs i, i) is Some q then q.2 else 0%N in
    ip_set pi prev i) (ip_of_size n) (iota 0 n).
