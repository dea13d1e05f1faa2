(** Model of the circuit relations and their reductions:
    libsnark/relations/circuit_satisfaction_problems/bacs/bacs.{hpp,tcc},
    libsnark/relations/circuit_satisfaction_problems/tbcs/tbcs.{hpp,cpp},
    libsnark/reductions/bacs_to_r1cs/bacs_to_r1cs.tcc,
    libsnark/reductions/tbcs_to_uscs/tbcs_to_uscs.tcc.
    Definitions only; printing and annotations are not modelled. *)
From mathcomp Require Import all_ssreflect all_algebra.
From Verif Require Import Outcome Lincomb R1CS.
Set Implicit Arguments.
Unset Strict Implicit.
Unset Printing Implicit Defensive.
Local Open Scope ring_scope.

Section BACS.
Variable F : fieldType.

(** bacs.hpp:54-70 [struct bacs_gate]. *)
Record bacs_gate := BacsGate {
  bg_lhs : linear_combination F;
  bg_rhs : linear_combination F;
  bg_output : variable;
  bg_is_circuit_output : bool }.

(** bacs.hpp:109-149 [class bacs_circuit]. *)
Record bacs_circuit := BacsCircuit {
  b_primary_input_size : nat;
  b_auxiliary_input_size : nat;
  b_gates : seq bacs_gate }.

(** bacs.hpp:116 *)
Definition bacs_empty : bacs_circuit := BacsCircuit 0 0 [::].

(** bacs.tcc:29-33 [bacs_gate::evaluate]. *)
Definition bacs_gate_evaluate (g : bacs_gate) (input : seq F) : outcome F :=
  let! l := evaluate (bg_lhs g) input in
  let! r := evaluate (bg_rhs g) input in
  Ok (l * r).

(** bacs.tcc:87-103 *)
Definition b_num_inputs (c : bacs_circuit) : nat :=
  (b_primary_input_size c + b_auxiliary_input_size c)%N.
Definition b_num_gates (c : bacs_circuit) : nat := size (b_gates c).
Definition b_num_wires (c : bacs_circuit) : nat := (b_num_inputs c + b_num_gates c)%N.

(** bacs.tcc:112-123: maximum of the depths of the wires a combination mentions. *)
Definition max_depth_of (depths : seq nat) (acc : nat) (l : linear_combination F) : outcome nat :=
  ofold (fun m t => omap (maxn m) (oget depths (lt_index t))) acc l.

(** bacs.tcc:105-129 [wire_depths]; entry 0 is the constant wire. *)
Definition bacs_wire_depths (c : bacs_circuit) : outcome (seq nat) :=
  ofold (fun depths g =>
           let! m := max_depth_of depths 0 (bg_lhs g) in
           let! m' := max_depth_of depths m (bg_rhs g) in
           Ok (rcons depths m'.+1))
        (0%N :: nseq (b_num_inputs c) 1%N) (b_gates c).

(** bacs.tcc:131-136 [depth]: the maximum of a (never empty) vector. *)
Definition bacs_depth (c : bacs_circuit) : outcome nat :=
  omap (fun d => \max_(k <- d) k) (bacs_wire_depths c).

(** bacs.tcc:141-161 the loop of [is_valid], [i] being the loop counter. *)
Fixpoint bacs_gates_valid (ni i : nat) (gs : seq bacs_gate) : outcome bool :=
  match gs with
  | [::] => Ok true
  | g :: gs' =>
      if (bg_output g != 1 + ni + i)%N then Ok false
      else
        let! l := lc_is_valid (bg_lhs g) (bg_output g) in
        if ~~ l then Ok false
        else
          let! r := lc_is_valid (bg_rhs g) (bg_output g) in
          if ~~ r then Ok false else bacs_gates_valid ni i.+1 gs'
  end.

(** bacs.tcc:138-162 [is_valid]. *)
Definition bacs_is_valid (c : bacs_circuit) : outcome bool :=
  bacs_gates_valid (b_num_inputs c) 0 (b_gates c).

(** bacs.tcc:164-184 [get_all_wires]. *)
Definition bacs_get_all_wires (c : bacs_circuit) (primary auxiliary : seq F) : outcome (seq F) :=
  assert! (size primary == b_primary_input_size c) in
  assert! (size auxiliary == b_auxiliary_input_size c) in
  let result := primary ++ auxiliary in
  assert! (size result == b_num_inputs c) in
  ofold (fun result g => omap (rcons result) (bacs_gate_evaluate g result)) result (b_gates c).

(** bacs.tcc:186-203 [get_all_outputs]; [g.output.index-1] wraps around for index
    0, which is out of range as well, hence [UB]. *)
Definition wire_at (A : Type) (w : seq A) (i : nat) : outcome A :=
  if i is i'.+1 then oget w i' else UB.

Definition bacs_get_all_outputs (c : bacs_circuit) (primary auxiliary : seq F) : outcome (seq F) :=
  let! all_wires := bacs_get_all_wires c primary auxiliary in
  ofold (fun outs g => if bg_is_circuit_output g
                       then omap (rcons outs) (wire_at all_wires (bg_output g))
                       else Ok outs) [::] (b_gates c).

(** bacs.tcc:205-220 [is_satisfied]. *)
Definition bacs_is_satisfied (c : bacs_circuit) (primary auxiliary : seq F) : outcome bool :=
  omap (all (fun o => o == 0)) (bacs_get_all_outputs c primary auxiliary).

(** bacs.tcc:222-237 [add_gate]. *)
Definition bacs_add_gate (c : bacs_circuit) (g : bacs_gate) : outcome bacs_circuit :=
  assert! (bg_output g == b_num_wires c + 1)%N in
  Ok (BacsCircuit (b_primary_input_size c) (b_auxiliary_input_size c) (rcons (b_gates c) g)).

(** bacs_to_r1cs.tcc:22-63 [bacs_to_r1cs_instance_map]. *)
Definition bacs_to_r1cs_instance_map (c : bacs_circuit) : outcome (r1cs F) :=
  let! valid := bacs_is_valid c in
  assert! valid in
  Ok (R1cs (b_primary_input_size c) (b_auxiliary_input_size c + size (b_gates c))%N
        ([seq R1csConstraint (bg_lhs g) (bg_rhs g) (lc_of_var F (bg_output g)) | g <- b_gates c]
         ++ [seq R1csConstraint (lc_of_int F 1) (lc_of_var F (bg_output g)) (lc_of_int F 0)
            | g <- b_gates c & bg_is_circuit_output g])).

(** bacs_to_r1cs.tcc:65-75 [bacs_to_r1cs_witness_map]. *)
Definition bacs_to_r1cs_witness_map (c : bacs_circuit) (primary auxiliary : seq F) :
    outcome (seq F) :=
  bacs_get_all_wires c primary auxiliary.

End BACS.

Section TBCS.

(** tbcs.hpp:87-105 [class tbcs_gate].  The type is kept as the integer it is
    represented by (deserialisation casts an arbitrary integer, tbcs.cpp:150-152). *)
Record tbcs_gate := TbcsGate {
  tg_left : nat;
  tg_right : nat;
  tg_type : nat;
  tg_output : nat;
  tg_is_circuit_output : bool }.

(** tbcs.hpp:133-172 [class tbcs_circuit]. *)
Record tbcs_circuit := TbcsCircuit {
  t_primary_input_size : nat;
  t_auxiliary_input_size : nat;
  t_gates : seq tbcs_gate }.

(** tbcs.cpp:32-33 reading a wire. *)
Definition tbcs_read (input : seq bool) (w : nat) : outcome bool :=
  if w is w'.+1 then oget input w' else Ok true.

(** tbcs.cpp:35-37: [type & (1u << pos)] with pos = 3 - (2X + Y). *)
Definition gate_table (type : nat) (X Y : bool) : bool :=
  odd (type %/ 2 ^ (3 - ((if X then 2 else 0) + (if Y then 1 else 0))))%N.

(** tbcs.cpp:25-38 [tbcs_gate::evaluate]. *)
Definition tbcs_gate_evaluate (g : tbcs_gate) (input : seq bool) : outcome bool :=
  let! X := tbcs_read input (tg_left g) in
  let! Y := tbcs_read input (tg_right g) in
  Ok (gate_table (tg_type g) X Y).

(** tbcs.cpp:172-185 *)
Definition t_num_inputs (c : tbcs_circuit) : nat :=
  (t_primary_input_size c + t_auxiliary_input_size c)%N.
Definition t_num_gates (c : tbcs_circuit) : nat := size (t_gates c).
Definition t_num_wires (c : tbcs_circuit) : nat := (t_num_inputs c + t_num_gates c)%N.

(** tbcs.cpp:160-170 [wire_depths]. *)
Definition tbcs_wire_depths (c : tbcs_circuit) : outcome (seq nat) :=
  ofold (fun depths g =>
           let! l := oget depths (tg_left g) in
           let! r := oget depths (tg_right g) in
           Ok (rcons depths (maxn l r).+1))
        (nseq (t_num_inputs c) 1%N) (t_gates c).

(** tbcs.cpp:193-216 [is_valid]. *)
Fixpoint tbcs_gates_valid (ni i : nat) (gs : seq tbcs_gate) : bool :=
  match gs with
  | [::] => true
  | g :: gs' =>
      if (tg_output g != ni + i + 1)%N then false
      else if ((tg_output g <= tg_left g) || (tg_output g <= tg_right g))%N then false
      else tbcs_gates_valid ni i.+1 gs'
  end.
Definition tbcs_is_valid (c : tbcs_circuit) : bool :=
  tbcs_gates_valid (t_num_inputs c) 0 (t_gates c).

(** tbcs.cpp:218-237 [get_all_wires]. *)
Definition tbcs_get_all_wires (c : tbcs_circuit) (primary auxiliary : seq bool) :
    outcome (seq bool) :=
  assert! (size primary == t_primary_input_size c) in
  assert! (size auxiliary == t_auxiliary_input_size c) in
  let result := primary ++ auxiliary in
  assert! (size result == t_num_inputs c) in
  ofold (fun result g => omap (rcons result) (tbcs_gate_evaluate g result)) result (t_gates c).

(** tbcs.cpp:239-254 [get_all_outputs]. *)
Definition tbcs_get_all_outputs (c : tbcs_circuit) (primary auxiliary : seq bool) :
    outcome (seq bool) :=
  let! all_wires := tbcs_get_all_wires c primary auxiliary in
  ofold (fun outs g => if tg_is_circuit_output g
                       then omap (rcons outs) (wire_at all_wires (tg_output g))
                       else Ok outs) [::] (t_gates c).

(** tbcs.cpp:257-270 [is_satisfied]. *)
Definition tbcs_is_satisfied (c : tbcs_circuit) (primary auxiliary : seq bool) : outcome bool :=
  omap (all negb) (tbcs_get_all_outputs c primary auxiliary).

(** tbcs.cpp:272-287 [add_gate]. *)
Definition tbcs_add_gate (c : tbcs_circuit) (g : tbcs_gate) : outcome tbcs_circuit :=
  assert! (tg_output g == t_num_wires c + 1)%N in
  Ok (TbcsCircuit (t_primary_input_size c) (t_auxiliary_input_size c) (rcons (t_gates c) g)).

Variable F : fieldType.

(** tbcs_to_uscs.tcc:52 etc.: the C++ expression [a * x + b * y + c * z + d]
    with integer literals, resolved to the operators of variable.tcc:
    linear_term + linear_combination(linear_term), then combination + combination. *)
Definition gate_lc (a b c d : int) (x y z : variable) : linear_combination F :=
  lc_add (lc_add (lt_add_lc (lt_of_int F x a) (lc_of_term (lt_of_int F y b)))
                 (lc_of_term (lt_of_int F z c)))
         (lc_of_int F d).

(** tbcs_to_uscs.tcc:34-132: the switch over the gate type. *)
Definition tbcs_gate_constraint (g : tbcs_gate) : outcome (linear_combination F) :=
  let k a b c d := Ok (gate_lc a b c d (tg_left g) (tg_right g) (tg_output g)) in
  match tg_type g with
  | 0 => k 0 0 1 1                        (* CONSTANT_0,   line 52 *)
  | 1 => k (- 2%:Z) (- 2%:Z) 4 1          (* AND,          line 57 *)
  | 2 => k (- 2%:Z) 2 4 (- 1%:Z)          (* X_AND_NOT_Y,  line 62 *)
  | 3 => k (- 1%:Z) 0 1 1                 (* X,            line 67 *)
  | 4 => k 2 (- 2%:Z) 4 (- 1%:Z)          (* NOT_X_AND_Y,  line 72 *)
  | 5 => k 0 1 1 (- 1%:Z)                 (* Y,            line 77 *)
  | 6 => k 1 1 1 (- 1%:Z)                 (* XOR,          line 82 *)
  | 7 => k (- 2%:Z) (- 2%:Z) 4 (- 1%:Z)   (* OR,           line 87 *)
  | 8 => k 2 2 4 (- 3%:Z)                 (* NOR,          line 92 *)
  | 9 => k 1 1 1 (- 2%:Z)                 (* EQUIVALENCE,  line 97 *)
  | 10 => k 0 (- 1%:Z) 1 0                (* NOT_Y,        line 102 *)
  | 11 => k (- 2%:Z) 2 4 (- 3%:Z)         (* IF_Y_THEN_X,  line 107 *)
  | 12 => k (- 1%:Z) 0 1 0                (* NOT_X,        line 112 *)
  | 13 => k 2 (- 2%:Z) 4 (- 3%:Z)         (* IF_X_THEN_Y,  line 117 *)
  | 14 => k 2 2 4 (- 5%:Z)                (* NAND,         line 122 *)
  | 15 => k 0 0 1 0                       (* CONSTANT_1,   line 127 *)
  | _ => AssertFail                       (* line 130 *)
  end.

(** tbcs_to_uscs.tcc:137 [2 * variable(i) - 1]. *)
Definition wire_boolean_constraint (i : nat) : linear_combination F :=
  lt_sub_lc (lt_of_int F i 2) (lc_of_int F 1).

(** tbcs_to_uscs.tcc:145 [variable(g.output) + 1]. *)
Definition output_constraint (g : tbcs_gate) : linear_combination F :=
  var_add_lc (tg_output g) (lc_of_int F 1).

(** tbcs_to_uscs.tcc:21-150 [tbcs_to_uscs_instance_map]. *)
Definition tbcs_to_uscs_instance_map (c : tbcs_circuit) : outcome (uscs F) :=
  assert! tbcs_is_valid c in
  let! gate_constraints := omapm tbcs_gate_constraint (t_gates c) in
  Ok (Uscs (t_primary_input_size c) (t_auxiliary_input_size c + size (t_gates c))%N
        (gate_constraints
         ++ [seq wire_boolean_constraint i
            | i <- iota 0 (t_primary_input_size c + t_auxiliary_input_size c + size (t_gates c))%N]
         ++ [seq output_constraint g | g <- t_gates c & tg_is_circuit_output g])).

(** tbcs_to_uscs.tcc:152-160 [tbcs_to_uscs_witness_map];
    [convert_bit_vector_to_field_element_vector] (libff) maps bits to 0/1. *)
Definition tbcs_to_uscs_witness_map (c : tbcs_circuit) (primary auxiliary : seq bool) :
    outcome (seq F) :=
  let! all_wires := tbcs_get_all_wires c primary auxiliary in
  Ok [seq (nat_of_bool b)%:R | b <- all_wires].

End TBCS.
