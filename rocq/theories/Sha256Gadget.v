(** Model of libsnark/gadgetlib1/gadgets/hashes/sha256/{sha256_aux,
    sha256_components,sha256_gadget}.{hpp,tcc} and hashes/hash_io.{hpp,tcc}.

    Conventions as in BasicGadgets.v.  [unsigned long] and [long] constants are
    numbers of type [N].  Where the code takes a [pb_linear_combination] for an
    output ([out], [result_bits], [new_a], [new_e]), all callers pass variables,
    and the model takes variables. *)
From Coq Require Import NArith.
From mathcomp Require Import all_ssreflect all_algebra.
From Verif Require Import Outcome Lincomb R1CS Protoboard BasicGadgets Sha256Spec.
Set Implicit Arguments.
Unset Strict Implicit.
Unset Printing Implicit Defensive.
Local Open Scope ring_scope.
Delimit Scope N_scope with num.

(** A loop that constructs gadgets one after the other. *)
Fixpoint new_all (T G St : Type) (mk : T -> St -> outcome (G * St)) (ts : seq T) (st : St) : outcome (seq G * St) :=
  if ts is t :: ts'
  then let! gs := mk t st in
       let! r := new_all mk ts' gs.2 in Ok (gs.1 :: r.1, r.2)
  else Ok ([::], st).

(** sha256_components.tcc:21-34 *)
Definition SHA256_K : seq N := [::
  0x428a2f98; 0x71374491; 0xb5c0fbcf; 0xe9b5dba5; 0x3956c25b; 0x59f111f1; 0x923f82a4; 0xab1c5ed5;
  0xd807aa98; 0x12835b01; 0x243185be; 0x550c7dc3; 0x72be5d74; 0x80deb1fe; 0x9bdc06a7; 0xc19bf174;
  0xe49b69c1; 0xefbe4786; 0x0fc19dc6; 0x240ca1cc; 0x2de92c6f; 0x4a7484aa; 0x5cb0a9dc; 0x76f988da;
  0x983e5152; 0xa831c66d; 0xb00327c8; 0xbf597fc7; 0xc6e00bf3; 0xd5a79147; 0x06ca6351; 0x14292967;
  0x27b70a85; 0x2e1b2138; 0x4d2c6dfc; 0x53380d13; 0x650a7354; 0x766a0abb; 0x81c2c92e; 0x92722c85;
  0xa2bfe8a1; 0xa81a664b; 0xc24b8b70; 0xc76c51a3; 0xd192e819; 0xd6990624; 0xf40e3585; 0x106aa070;
  0x19a4c116; 0x1e376c08; 0x2748774c; 0x34b0bcb5; 0x391c0cb3; 0x4ed8aa4a; 0x5b9cca4f; 0x682e6ff3;
  0x748f82ee; 0x78a5636f; 0x84c87814; 0x8cc70208; 0x90befffa; 0xa4506ceb; 0xbef9a3f7; 0xc67178f2]%num.
Definition SHA256_H : seq N := [::
  0x6a09e667; 0xbb67ae85; 0x3c6ef372; 0xa54ff53a; 0x510e527f; 0x9b05688c; 0x1f83d9ab; 0x5be0cd19]%num.
(** sha256_components.hpp:23-24 *)
Definition SHA256_digest_size : nat := 256.
Definition SHA256_block_size : nat := 512.

(** [A(s.rbegin() + i*32, s.rbegin() + (i+1)*32)] *)
Definition rslice (T : Type) (s : seq T) (i : nat) : outcome (seq T) :=
  if (i.+1 * 32 <= size s)%N then Ok (take 32 (drop (i * 32) (rev s))) else UB.

Section Sha256.
Variable F : fieldType.
Variable R : bigint_repr F.
Implicit Types (pb : protoboard F).

Let one_lc := lc_of_int F 1.
Let zero_lc := lc_of_int F 0.
Let vlc (v : pb_variable) := lc_of_var F v.
Let plc (v : pb_variable) := plc_of_var F v.
Let plcs (v : pb_variable_array) := plcs_of_vars F v.

(** * hash_io.{hpp,tcc} *)

(** hash_io.tcc:15-21; the object is given by its [bits] ([digest_size] is
    their number). *)
Definition digest_variable_new pb (digest_size : nat) : pb_variable_array * protoboard F :=
  allocate_array pb digest_size.
(** hash_io.tcc:23-36.  The assertion looks at [bits] before it is assigned, and
    always holds.  [fuel] bounds the number of iterations of the loop of lines
    32-35; [None] says that it needs more. *)
Fixpoint pad_loop (fuel digest_size : nat) (padding : pb_variable) (bits : pb_variable_array) :
    option pb_variable_array :=
  if size bits != digest_size
  then (if fuel is fuel'.+1 then pad_loop fuel' digest_size padding (rcons bits padding) else None)
  else Some bits.
Definition digest_variable_partial (fuel digest_size : nat) (partial_bits : pb_variable_array) (padding : pb_variable) :
    option pb_variable_array := pad_loop fuel digest_size padding partial_bits.
(** hash_io.tcc:38-45 *)
Definition digest_variable_constraints (bits : pb_variable_array) : seq (r1cs_constraint F) :=
  [seq boolean_constraint (lc_terms (plc b)) | b <- bits].
(** hash_io.tcc:47-57 *)
Definition digest_variable_witness (bits : pb_variable_array) pb (contents : seq bool) : outcome (protoboard F) :=
  fill_with_bits pb bits contents.
Definition get_digest (bits : pb_variable_array) pb : outcome (seq bool) := get_bits pb bits.

(** hash_io.tcc:59-103 [block_variable], given by its [bits]. *)
Definition block_variable_new pb (block_size : nat) : pb_variable_array * protoboard F := allocate_array pb block_size.
Definition block_variable_parts (parts : seq pb_variable_array) : pb_variable_array := flatten parts.
Definition block_variable_pair (left right : pb_variable_array) : outcome pb_variable_array :=
  assert! (size left == size right) in Ok (left ++ right).
Definition block_variable_witness (bits : pb_variable_array) pb (contents : seq bool) : outcome (protoboard F) :=
  fill_with_bits pb bits contents.

(** * sha256_aux.{hpp,tcc} *)

(** [lastbits_gadget], sha256_aux.tcc:19-57 *)
Record lastbits := Lastbits { lb_unpack : packing F; lb_pack : packing F }.
Definition lastbits_new pb (X : pb_variable) (X_bits : nat) (result : pb_variable) (result_bits : pb_variable_array) :
    lastbits * protoboard F :=
  let: (overflow, pb) := allocate_array pb (X_bits - size result_bits) in
  (Lastbits (Packing (plcs (result_bits ++ overflow)) (plc X)) (Packing (plcs result_bits) (plc result)), pb).
Definition lastbits_constraints (g : lastbits) : seq (r1cs_constraint F) :=
  packing_constraints (lb_unpack g) true ++ packing_constraints (lb_pack g) false.
Definition lastbits_witness (g : lastbits) pb : outcome (protoboard F) :=
  let! pb := packing_witness_from_packed R (lb_unpack g) pb in
  packing_witness_from_bits (lb_pack g) pb.

(** [XOR3_gadget], sha256_aux.tcc:59-112; [x3_tmp] is unallocated when
    [x3_zero]. *)
Record xor3 := Xor3 {
  x3_A : pb_linear_combination F; x3_B : pb_linear_combination F; x3_C : pb_linear_combination F;
  x3_zero : bool; x3_tmp : pb_variable; x3_out : pb_variable }.
Definition xor3_new pb (A B C : pb_linear_combination F) (assume_C_is_zero : bool) (out : pb_variable) :
    xor3 * protoboard F :=
  if assume_C_is_zero then (Xor3 A B C true 0%N out, pb)
  else let: (tmp, pb) := allocate_var pb in (Xor3 A B C false tmp out, pb).
Definition xor3_constraints (g : xor3) : seq (r1cs_constraint F) :=
  let A := lc_terms (x3_A g) in let B := lc_terms (x3_B g) in let C := lc_terms (x3_C g) in
  let out := lc_terms (plc (x3_out g)) in
  if x3_zero g
  then [:: R1csConstraint (lc_scale A 2%:R) B (lc_sub (lc_add A B) out)]
  else [:: R1csConstraint (lc_scale A 2%:R) B (lc_sub (lc_add A B) (vlc (x3_tmp g)));
           R1csConstraint (lc_of_term (var_scale (x3_tmp g) 2%:R)) C (lc_sub (var_add_lc (x3_tmp g) C) out)].
Definition xor3_witness (g : xor3) pb : outcome (protoboard F) :=
  let! a := pb_lc_val pb (x3_A g) in
  let! b := pb_lc_val pb (x3_B g) in
  if x3_zero g then pb_set pb (x3_out g) (a + b - 2%:R * a * b)
  else let! pb := pb_set pb (x3_tmp g) (a + b - 2%:R * a * b) in
       let! t := pb_val pb (x3_tmp g) in
       let! c := pb_lc_val pb (x3_C g) in
       pb_set pb (x3_out g) (t + c - 2%:R * t * c).

(** [small_sigma_gadget] and [big_sigma_gadget], sha256_aux.tcc:114-209; they
    differ in their constructors only. *)
Record sigma_gadget := SigmaGadget {
  sg_bits : pb_variable_array; sg_compute : seq xor3; sg_pack : packing F }.
Definition small_sigma_new pb (W : pb_variable_array) (result : pb_variable) (rot1 rot2 shift : nat) :
    outcome (sigma_gadget * protoboard F) :=
  let: (result_bits, pb) := allocate_array pb 32 in
  let! cp := new_all (fun i pb =>
      let! a := oget W ((i + rot1) %% 32) in
      let! b := oget W ((i + rot2) %% 32) in
      let! c := if (i + shift < 32)%N then oget W (i + shift) else Ok ONE in
      let! o := oget result_bits i in
      Ok (xor3_new pb (plc a) (plc b) (plc c) (32 <= i + shift)%N o)) (iota 0 32) pb in
  Ok (SigmaGadget result_bits cp.1 (Packing (plcs result_bits) (plc result)), cp.2).
Definition big_sigma_new pb (W : pb_linear_combination_array F) (result : pb_variable) (rot1 rot2 rot3 : nat) :
    outcome (sigma_gadget * protoboard F) :=
  let: (result_bits, pb) := allocate_array pb 32 in
  let! cp := new_all (fun i pb =>
      let! a := oget W ((i + rot1) %% 32) in
      let! b := oget W ((i + rot2) %% 32) in
      let! c := oget W ((i + rot3) %% 32) in
      let! o := oget result_bits i in
      Ok (xor3_new pb a b c false o)) (iota 0 32) pb in
  Ok (SigmaGadget result_bits cp.1 (Packing (plcs result_bits) (plc result)), cp.2).
Definition sigma_constraints (g : sigma_gadget) : seq (r1cs_constraint F) :=
  flatten [seq xor3_constraints c | c <- sg_compute g] ++ packing_constraints (sg_pack g) false.
Definition sigma_witness (g : sigma_gadget) pb : outcome (protoboard F) :=
  let! pb := ofold (fun pb c => xor3_witness c pb) pb (sg_compute g) in
  packing_witness_from_bits (sg_pack g) pb.

(** [choice_gadget] and [majority_gadget], sha256_aux.tcc:211-303.  The arrays
    have 32 elements (all callers slice them so). *)
Record bitwise3 := Bitwise3 {
  b3_X : pb_linear_combination_array F; b3_Y : pb_linear_combination_array F; b3_Z : pb_linear_combination_array F;
  b3_bits : pb_variable_array; b3_pack : packing F }.
Definition bitwise3_new pb (X Y Z : pb_linear_combination_array F) (result : pb_variable) :
    bitwise3 * protoboard F :=
  let: (result_bits, pb) := allocate_array pb 32 in
  (Bitwise3 X Y Z result_bits (Packing (plcs result_bits) (plc result)), pb).
Definition choice_bit (g : bitwise3) (i : nat) : seq (r1cs_constraint F) :=
  let X := lc_terms (lc_nth (b3_X g) i) in let Y := lc_terms (lc_nth (b3_Y g) i) in
  let Z := lc_terms (lc_nth (b3_Z g) i) in
  [:: R1csConstraint X (lc_sub Y Z) (var_sub_lc (nth 0%N (b3_bits g) i) Z)].
Definition choice_constraints (g : bitwise3) : seq (r1cs_constraint F) :=
  flatten [seq choice_bit g i | i <- iota 0 32] ++ packing_constraints (b3_pack g) false.
Definition choice_bit_witness (g : bitwise3) pb (i : nat) : outcome (protoboard F) :=
  let! x := pb_lc_val pb (lc_nth (b3_X g) i) in
  let! y := pb_lc_val pb (lc_nth (b3_Y g) i) in
  let! z := pb_lc_val pb (lc_nth (b3_Z g) i) in
  pb_set pb (nth 0%N (b3_bits g) i) (x * y + (1 - x) * z).
Definition choice_witness (g : bitwise3) pb : outcome (protoboard F) :=
  let! pb := ofold (choice_bit_witness g) pb (iota 0 32) in
  packing_witness_from_bits (b3_pack g) pb.
Definition majority_bit (g : bitwise3) (i : nat) : seq (r1cs_constraint F) :=
  let X := lc_terms (lc_nth (b3_X g) i) in let Y := lc_terms (lc_nth (b3_Y g) i) in
  let Z := lc_terms (lc_nth (b3_Z g) i) in
  let r := nth 0%N (b3_bits g) i in
  let aux := lc_sub (lc_add (lc_add X Y) Z) (lc_of_term (var_scale r 2%:R)) in
  [:: boolean_constraint (lc_terms (plc r)); R1csConstraint aux (const_sub_lc 1 aux) zero_lc].
Definition majority_constraints (g : bitwise3) : seq (r1cs_constraint F) :=
  flatten [seq majority_bit g i | i <- iota 0 32] ++ packing_constraints (b3_pack g) false.
Definition majority_bit_witness (g : bitwise3) pb (i : nat) : outcome (protoboard F) :=
  let! x := pb_lc_val pb (lc_nth (b3_X g) i) in
  let! y := pb_lc_val pb (lc_nth (b3_Y g) i) in
  let! z := pb_lc_val pb (lc_nth (b3_Z g) i) in
  pb_set pb (nth 0%N (b3_bits g) i) (as_bigint R (x + y + z) %/ 2)%:R.
Definition majority_witness (g : bitwise3) pb : outcome (protoboard F) :=
  let! pb := ofold (majority_bit_witness g) pb (iota 0 32) in
  packing_witness_from_bits (b3_pack g) pb.

(** * sha256_components.{hpp,tcc} *)

(** sha256_components.tcc:36-55 [SHA256_default_IV]. *)
Definition default_IV_bit (i : nat) : bool :=
  N.testbit (nth 0%num SHA256_H (i %/ 32)) (N.of_nat (31 - i %% 32)).
Definition SHA256_default_IV pb : outcome (pb_linear_combination_array F * protoboard F) :=
  new_all (fun i pb =>
      let: (l, pb) := lc_assign pb (lc_of_term (var_scale ONE (bit_val F (default_IV_bit i)))) in
      let! pb := lc_evaluate pb l in Ok (l, pb)) (iota 0 SHA256_digest_size) pb.

(** [sha256_message_schedule_gadget], sha256_components.tcc:57-146; one record
    for each iteration of the loops of lines 71-75 and 85-103. *)
Record schedule_step := ScheduleStep {
  ss_sigma0 : pb_variable; ss_sigma1 : pb_variable;
  ss_compute_sigma0 : sigma_gadget; ss_compute_sigma1 : sigma_gadget;
  ss_unreduced : pb_variable; ss_mod_reduce : lastbits;
  ss_w16 : pb_variable; ss_w7 : pb_variable }.
Record schedule_gadget := ScheduleGadget { sd_pack : seq (packing F); sd_steps : seq schedule_step }.
Definition schedule_step_new (packed_W : pb_variable_array) (i : nat) (st : seq pb_variable_array * protoboard F) :
    outcome (schedule_step * (seq pb_variable_array * protoboard F)) :=
  let: (W_bits, pb) := st in
  let: (sigma0, pb) := allocate_var pb in
  let: (sigma1, pb) := allocate_var pb in
  let! w15 := oget W_bits (i - 15) in
  let! w2 := oget W_bits (i - 2) in
  let! c0 := small_sigma_new pb w15 sigma0 7 18 3 in
  let! c1 := small_sigma_new c0.2 w2 sigma1 17 19 10 in
  let: (unreduced, pb) := allocate_var c1.2 in
  let: (bits, pb) := allocate_array pb 32 in
  let! w := oget packed_W i in
  let! w16 := oget packed_W (i - 16) in
  let! w7 := oget packed_W (i - 7) in
  let: (red, pb) := lastbits_new pb unreduced (32 + 2) w bits in
  Ok (ScheduleStep sigma0 sigma1 c0.1 c1.1 unreduced red w16 w7, (rcons W_bits bits, pb)).
Definition schedule_new pb (M packed_W : pb_variable_array) : outcome (schedule_gadget * protoboard F) :=
  let! W16 := omapm (fun i => rslice M (15 - i)) (iota 0 16) in
  let! P16 := omapm (fun i => oget packed_W i) (iota 0 16) in
  let! r := new_all (schedule_step_new packed_W) (iota 16 48) (W16, pb) in
  Ok (ScheduleGadget [seq Packing (plcs wp.1) (plc wp.2) | wp <- zip W16 P16] r.1, r.2.2).
Definition schedule_step_constraints (g : schedule_step) : seq (r1cs_constraint F) :=
  sigma_constraints (ss_compute_sigma0 g) ++ sigma_constraints (ss_compute_sigma1 g) ++
  [:: R1csConstraint one_lc
        (lc_add (lc_add (var_add_lc (ss_sigma0 g) (vlc (ss_sigma1 g))) (vlc (ss_w16 g))) (vlc (ss_w7 g)))
        (vlc (ss_unreduced g))] ++
  lastbits_constraints (ss_mod_reduce g).
Definition schedule_constraints (g : schedule_gadget) : seq (r1cs_constraint F) :=
  flatten [seq packing_constraints p false | p <- sd_pack g] ++
  flatten [seq schedule_step_constraints s | s <- sd_steps g].
(** [pb.val(v) = pb.val(s0) + pb.val(s1) + ... + c]: the assignments of unreduced
    sums. *)
Definition set_sum pb (v : pb_variable) (s : seq pb_variable) (c : F) : outcome (protoboard F) :=
  let! vals := omapm (pb_val pb) s in pb_set pb v (foldr +%R c vals).
Definition schedule_step_witness (g : schedule_step) pb : outcome (protoboard F) :=
  let! pb := sigma_witness (ss_compute_sigma0 g) pb in
  let! pb := sigma_witness (ss_compute_sigma1 g) pb in
  let! pb := set_sum pb (ss_unreduced g) [:: ss_sigma0 g; ss_sigma1 g; ss_w16 g; ss_w7 g] 0 in
  lastbits_witness (ss_mod_reduce g) pb.
Definition schedule_witness (g : schedule_gadget) pb : outcome (protoboard F) :=
  let! pb := ofold (fun pb p => packing_witness_from_bits p pb) pb (sd_pack g) in
  ofold (fun pb s => schedule_step_witness s pb) pb (sd_steps g).

(** [sha256_round_function_gadget], sha256_components.tcc:148-259 *)
Record round_gadget := RoundGadget {
  rg_sigma0 : pb_variable; rg_sigma1 : pb_variable;
  rg_compute_sigma0 : sigma_gadget; rg_compute_sigma1 : sigma_gadget;
  rg_choice : pb_variable; rg_compute_choice : bitwise3;
  rg_majority : pb_variable; rg_compute_majority : bitwise3;
  rg_packed_d : pb_variable; rg_pack_d : packing F; rg_packed_h : pb_variable; rg_pack_h : packing F;
  rg_unreduced_a : pb_variable; rg_unreduced_e : pb_variable;
  rg_packed_a : pb_variable; rg_packed_e : pb_variable;
  rg_reduce_a : lastbits; rg_reduce_e : lastbits;
  rg_W : pb_variable; rg_K : N }.
Definition round_new pb (a b c d e f g h : pb_linear_combination_array F) (W : pb_variable) (K : N)
    (new_a new_e : pb_variable_array) : outcome (round_gadget * protoboard F) :=
  let: (sigma0, pb) := allocate_var pb in
  let: (sigma1, pb) := allocate_var pb in
  let! c0 := big_sigma_new pb a sigma0 2 13 22 in
  let! c1 := big_sigma_new c0.2 e sigma1 6 11 25 in
  let: (choice, pb) := allocate_var c1.2 in
  let: (cch, pb) := bitwise3_new pb e f g choice in
  let: (majority, pb) := allocate_var pb in
  let: (cmj, pb) := bitwise3_new pb a b c majority in
  let: (packed_d, pb) := allocate_var pb in
  let: (packed_h, pb) := allocate_var pb in
  let: (unreduced_a, pb) := allocate_var pb in
  let: (unreduced_e, pb) := allocate_var pb in
  let: (packed_a, pb) := allocate_var pb in
  let: (packed_e, pb) := allocate_var pb in
  let: (red_a, pb) := lastbits_new pb unreduced_a (32 + 3) packed_a new_a in
  let: (red_e, pb) := lastbits_new pb unreduced_e (32 + 3) packed_e new_e in
  Ok (RoundGadget sigma0 sigma1 c0.1 c1.1 choice cch majority cmj packed_d (Packing d (plc packed_d))
        packed_h (Packing h (plc packed_h)) unreduced_a unreduced_e packed_a packed_e red_a red_e W K, pb).
Definition round_constraints (g : round_gadget) : seq (r1cs_constraint F) :=
  let K := lc_of_int F (Posz (N.to_nat (rg_K g))) in
  sigma_constraints (rg_compute_sigma0 g) ++ sigma_constraints (rg_compute_sigma1 g) ++
  choice_constraints (rg_compute_choice g) ++ majority_constraints (rg_compute_majority g) ++
  packing_constraints (rg_pack_d g) false ++ packing_constraints (rg_pack_h g) false ++
  [:: R1csConstraint one_lc
        (lc_add (lc_add (lc_add (lc_add (lc_add (var_add_lc (rg_packed_h g) (vlc (rg_sigma1 g)))
           (vlc (rg_choice g))) K) (vlc (rg_W g))) (vlc (rg_sigma0 g))) (vlc (rg_majority g)))
        (vlc (rg_unreduced_a g));
      R1csConstraint one_lc
        (lc_add (lc_add (lc_add (lc_add (var_add_lc (rg_packed_d g) (vlc (rg_packed_h g)))
           (vlc (rg_sigma1 g))) (vlc (rg_choice g))) K) (vlc (rg_W g)))
        (vlc (rg_unreduced_e g))] ++
  lastbits_constraints (rg_reduce_a g) ++ lastbits_constraints (rg_reduce_e g).
Definition round_witness (g : round_gadget) pb : outcome (protoboard F) :=
  let! pb := sigma_witness (rg_compute_sigma0 g) pb in
  let! pb := sigma_witness (rg_compute_sigma1 g) pb in
  let! pb := choice_witness (rg_compute_choice g) pb in
  let! pb := majority_witness (rg_compute_majority g) pb in
  let! pb := packing_witness_from_bits (rg_pack_d g) pb in
  let! pb := packing_witness_from_bits (rg_pack_h g) pb in
  let! pb := set_sum pb (rg_unreduced_a g)
     [:: rg_packed_h g; rg_sigma1 g; rg_choice g; rg_W g; rg_sigma0 g; rg_majority g] (N.to_nat (rg_K g))%:R in
  let! pb := set_sum pb (rg_unreduced_e g)
     [:: rg_packed_d g; rg_packed_h g; rg_sigma1 g; rg_choice g; rg_W g] (N.to_nat (rg_K g))%:R in
  let! pb := lastbits_witness (rg_reduce_a g) pb in
  lastbits_witness (rg_reduce_e g) pb.

(** * sha256_gadget.{hpp,tcc} *)

(** [sha256_compression_function_gadget], sha256_gadget.tcc:19-148.  Of the
    vectors [round_a] ... [round_h] the loop only uses the last elements, which
    are the state here. *)
Record round_state := RoundState {
  st_a : pb_linear_combination_array F; st_b : pb_linear_combination_array F;
  st_c : pb_linear_combination_array F; st_d : pb_linear_combination_array F;
  st_e : pb_linear_combination_array F; st_f : pb_linear_combination_array F;
  st_g : pb_linear_combination_array F; st_h : pb_linear_combination_array F; st_pb : protoboard F }.
Record compression := Compression {
  cf_schedule : schedule_gadget; cf_rounds : seq round_gadget;
  cf_unreduced : pb_variable_array; cf_reduced : pb_variable_array; cf_reduce : seq lastbits }.
(** one iteration, sha256_gadget.tcc:47-71 *)
Definition round_step_new (packed_W : pb_variable_array) (i : nat) (s : round_state) :
    outcome (round_gadget * round_state) :=
  let: (new_a, pb) := allocate_array (st_pb s) 32 in
  let: (new_e, pb) := allocate_array pb 32 in
  let! w := oget packed_W i in
  let! k := oget SHA256_K i in
  let! r := round_new pb (st_a s) (st_b s) (st_c s) (st_d s) (st_e s) (st_f s) (st_g s) (st_h s) w k new_a new_e in
  Ok (r.1, RoundState (plcs new_a) (st_a s) (st_b s) (st_c s) (plcs new_e) (st_e s) (st_f s) (st_g s) r.2).
Definition compression_new pb (prev_output : pb_linear_combination_array F) (new_block output : pb_variable_array) :
    outcome (compression * protoboard F) :=
  let: (packed_W, pb) := allocate_array pb 64 in
  let! sd := schedule_new pb new_block packed_W in
  let! a := rslice prev_output 7 in
  let! b := rslice prev_output 6 in
  let! c := rslice prev_output 5 in
  let! d := rslice prev_output 4 in
  let! e := rslice prev_output 3 in
  let! f := rslice prev_output 2 in
  let! g := rslice prev_output 1 in
  let! h := rslice prev_output 0 in
  let! rs := new_all (round_step_new packed_W) (iota 0 64) (RoundState a b c d e f g h sd.2) in
  let: (unreduced, pb) := allocate_array (st_pb rs.2) 8 in
  let: (reduced, pb) := allocate_array pb 8 in
  let! red := new_all (fun i pb =>
      let! bits := rslice output (7 - i) in
      let! u := oget unreduced i in
      let! r := oget reduced i in
      Ok (lastbits_new pb u (32 + 1) r bits)) (iota 0 8) pb in
  Ok (Compression sd.1 rs.1 unreduced reduced red.1, red.2).
Definition nth_round (g : compression) (i : nat) (f : round_gadget -> pb_variable) : pb_variable :=
  nth 0%N (map f (cf_rounds g)) i.
Definition final_sum (g : compression) (i : nat) : seq (r1cs_constraint F) :=
  [:: R1csConstraint one_lc
        (var_add_lc (nth_round g (3 - i) rg_packed_d) (vlc (nth_round g (63 - i) rg_packed_a)))
        (vlc (nth 0%N (cf_unreduced g) i));
      R1csConstraint one_lc
        (var_add_lc (nth_round g (3 - i) rg_packed_h) (vlc (nth_round g (63 - i) rg_packed_e)))
        (vlc (nth 0%N (cf_unreduced g) (4 + i)))].
Definition compression_constraints (g : compression) : seq (r1cs_constraint F) :=
  schedule_constraints (cf_schedule g) ++
  flatten [seq round_constraints r | r <- cf_rounds g] ++
  flatten [seq final_sum g i | i <- iota 0 4] ++
  flatten [seq lastbits_constraints r | r <- cf_reduce g].
Definition final_sum_witness (g : compression) pb (i : nat) : outcome (protoboard F) :=
  let! pb := set_sum pb (nth 0%N (cf_unreduced g) i)
     [:: nth_round g (3 - i) rg_packed_d; nth_round g (63 - i) rg_packed_a] 0 in
  set_sum pb (nth 0%N (cf_unreduced g) (4 + i))
     [:: nth_round g (3 - i) rg_packed_h; nth_round g (63 - i) rg_packed_e] 0.
Definition compression_witness (g : compression) pb : outcome (protoboard F) :=
  let! pb := schedule_witness (cf_schedule g) pb in
  let! pb := ofold (fun pb r => round_witness r pb) pb (cf_rounds g) in
  let! pb := ofold (final_sum_witness g) pb (iota 0 4) in
  ofold (fun pb r => lastbits_witness r pb) pb (cf_reduce g).

(** [sha256_two_to_one_hash_gadget], sha256_gadget.tcc:150-234; the argument of
    [generate_r1cs_constraints] is not used. *)
Definition two_to_one_new pb (left right output : pb_variable_array) : outcome (compression * protoboard F) :=
  let! iv := SHA256_default_IV pb in
  compression_new iv.2 iv.1 (left ++ right) output.
Definition two_to_one_new_block pb (block_length : nat) (block output : pb_variable_array) :
    outcome (compression * protoboard F) :=
  assert! block_length == SHA256_block_size in
  assert! size block == block_length in
  let! iv := SHA256_default_IV pb in
  compression_new iv.2 iv.1 block output.
Definition two_to_one_constraints (g : compression) (ensure_output_bitness : bool) : seq (r1cs_constraint F) :=
  compression_constraints g.
Definition two_to_one_witness (g : compression) pb : outcome (protoboard F) := compression_witness g pb.
Definition sha256_get_hash (input : seq bool) : outcome (seq bool) :=
  let: (block, pb) := block_variable_new (pb_new F) SHA256_block_size in
  let: (output, pb) := digest_variable_new pb SHA256_digest_size in
  let! f := two_to_one_new_block pb SHA256_block_size block output in
  let! pb := block_variable_witness block f.2 input in
  let! pb := two_to_one_witness f.1 pb in
  get_digest output pb.
Definition sha256_expected_constraints : N := 27280%num.

End Sha256.
