(** Independent specification of circuit satisfaction: a wire assignment is
    consistent when it extends the inputs and every gate equation holds; a
    circuit accepts inputs when a consistent wire assignment has all circuit
    outputs zero (bacs.hpp:99-108, tbcs.hpp:123-132).  Gate [i] owns wire
    [num_inputs + i + 1]. *)
From mathcomp Require Import all_ssreflect all_algebra.
From Verif Require Import Lincomb LincombSpec R1CS Circuits.
Set Implicit Arguments.
Unset Strict Implicit.
Unset Printing Implicit Defensive.
Local Open Scope ring_scope.

Section BacsSpec.
Variable F : fieldType.

Definition bacs_consistent (c : bacs_circuit F) (inputs w : seq F) : Prop :=
  size w = b_num_wires c /\ take (b_num_inputs c) w = inputs /\
  forall g, List.In g (b_gates c) ->
    xval w (bg_output g) = formal_sum (bg_lhs g) w * formal_sum (bg_rhs g) w.

Definition bacs_accepts (c : bacs_circuit F) (inputs : seq F) : Prop :=
  exists2 w, bacs_consistent c inputs w &
    forall g, List.In g (b_gates c) -> bg_is_circuit_output g -> xval w (bg_output g) = 0.

End BacsSpec.

(** The 16 gate functions, by name (tbcs.hpp:55-72). *)
Definition gate_function (type : nat) (X Y : bool) : bool :=
  match type with
  | 0 => false
  | 1 => X && Y
  | 2 => X && ~~ Y
  | 3 => X
  | 4 => ~~ X && Y
  | 5 => Y
  | 6 => X (+) Y
  | 7 => X || Y
  | 8 => ~~ (X || Y)
  | 9 => X == Y
  | 10 => ~~ Y
  | 11 => Y ==> X
  | 12 => ~~ X
  | 13 => X ==> Y
  | 14 => ~~ (X && Y)
  | _ => true
  end.

(** Value of a wire of a boolean circuit; wire 0 is the constant true. *)
Definition bval (w : seq bool) (i : nat) : bool := nth false (true :: w) i.

Definition tbcs_consistent (c : tbcs_circuit) (inputs w : seq bool) : Prop :=
  size w = t_num_wires c /\ take (t_num_inputs c) w = inputs /\
  forall g, List.In g (t_gates c) ->
    bval w (tg_output g) = gate_function (tg_type g) (bval w (tg_left g)) (bval w (tg_right g)).

Definition tbcs_accepts (c : tbcs_circuit) (inputs : seq bool) : Prop :=
  exists2 w, tbcs_consistent c inputs w &
    forall g, List.In g (t_gates c) -> tg_is_circuit_output g -> bval w (tg_output g) = false.

(** Every gate has one of the 16 types. *)
Definition tbcs_types_ok (c : tbcs_circuit) : bool := all (fun g => (tg_type g < 16)%N) (t_gates c).
