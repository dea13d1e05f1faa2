(** Properties C06, C07, C50: arithmetic and boolean circuits and their
    reductions to constraint systems. *)
From mathcomp Require Import all_ssreflect all_algebra.
From Verif Require Import Outcome Lincomb LincombSpec LincombFacts R1CS R1CSSpec R1CSFacts
  Circuits CircuitsSpec CircuitsFacts Prop_Relations.
Import GRing.Theory.
Set Implicit Arguments.
Unset Strict Implicit.
Unset Printing Implicit Defensive.
Local Open Scope ring_scope.

(** * C06: bilinear arithmetic circuits *)

(** On a valid circuit and inputs of the declared lengths, circuit satisfaction
    is the existence of a consistent wire assignment with zero outputs, and the
    assignment is unique. *)
Theorem C06_bacs_is_satisfied (F : fieldType) (c : bacs_circuit F) (p a : seq F) :
  bacs_is_valid c = Ok true ->
  size p = b_primary_input_size c -> size a = b_auxiliary_input_size c ->
  (exists2 b, bacs_is_satisfied c p a = Ok b & b <-> bacs_accepts c (p ++ a)) /\
  exists w, [/\ bacs_get_all_wires c p a = Ok w,
                bacs_consistent c (p ++ a) w &
                forall w', bacs_consistent c (p ++ a) w' -> w' = w].
Proof. exact (fun hv hp ha => conj (bacs_is_satisfied_iff hv hp ha) (bacs_wires hv hp ha)). Qed.
Print Assumptions C06_bacs_is_satisfied.

(** Completeness: the reduction maps the circuit and any inputs to a constraint
    system and a witness that extends the primary input, and the system is
    satisfied by that witness exactly when the circuit is satisfied. *)
Theorem C06_bacs_to_r1cs_complete (F : fieldType) (c : bacs_circuit F) (p a : seq F) :
  bacs_is_valid c = Ok true ->
  size p = b_primary_input_size c -> size a = b_auxiliary_input_size c ->
  exists cs w b,
    [/\ bacs_to_r1cs_instance_map c = Ok cs,
        bacs_to_r1cs_witness_map c p a = Ok w,
        take (num_inputs cs) w = p,
        bacs_is_satisfied c p a = Ok b &
        r1cs_is_satisfied cs p (drop (num_inputs cs) w) = Ok b].
Proof. exact (@bacs_to_r1cs_complete F c p a). Qed.
Print Assumptions C06_bacs_to_r1cs_complete.

(** Soundness: from any satisfying assignment of the constraint system one
    reads off auxiliary inputs that satisfy the circuit, and the assignment is
    the one the witness map computes. *)
Theorem C06_bacs_to_r1cs_sound (F : fieldType) (c : bacs_circuit F) (cs : r1cs F) (p aux : seq F) :
  bacs_to_r1cs_instance_map c = Ok cs ->
  r1cs_is_satisfied cs p aux = Ok true ->
  let a := take (b_auxiliary_input_size c) aux in
  bacs_is_satisfied c p a = Ok true /\
  bacs_to_r1cs_witness_map c p a = Ok (p ++ aux).
Proof. exact (@bacs_to_r1cs_sound F c cs p aux). Qed.
Print Assumptions C06_bacs_to_r1cs_sound.

(** (x1 + 1) * x2 =: w3 ; w3 * (x1 - 2 w3) =: w4, output. *)
Definition ex_bacs : bacs_circuit F7 :=
  BacsCircuit 1%N 1%N
    [:: BacsGate [:: (0%N, 1); (1%N, 1)] [:: (2%N, 1)] 3%N false;
        BacsGate [:: (3%N, 1)] [:: (1%N, 1); (3%N, - 2%:R)] 4%N true].
Example C06_nonvacuous :
  bacs_is_valid ex_bacs = Ok true /\
  bacs_is_satisfied ex_bacs [:: 2%:R] [:: 5%:R] = Ok true /\
  bacs_is_satisfied ex_bacs [:: 2%:R] [:: 4%:R] = Ok false /\
  (let! cs := bacs_to_r1cs_instance_map ex_bacs in
   r1cs_is_satisfied cs [:: 2%:R] [:: 5%:R; 1; 0]) = Ok true.
Proof. by repeat split; vm_compute. Qed.

(** * C07: two-input boolean circuits *)

(** Satisfaction, as for C06.  [gate_function] is the truth table of the
    sixteen gate types by name. *)
Theorem C07_tbcs_is_satisfied (c : tbcs_circuit) (p a : seq bool) :
  tbcs_is_valid c -> tbcs_types_ok c ->
  size p = t_primary_input_size c -> size a = t_auxiliary_input_size c ->
  (exists2 b, tbcs_is_satisfied c p a = Ok b & b <-> tbcs_accepts c (p ++ a)) /\
  exists w, [/\ tbcs_get_all_wires c p a = Ok w,
                tbcs_consistent c (p ++ a) w &
                forall w', tbcs_consistent c (p ++ a) w' -> w' = w].
Proof.
exact (fun hv ht hp ha => conj (tbcs_is_satisfied_iff hv ht hp ha) (tbcs_wires hv ht hp ha)).
Qed.
Print Assumptions C07_tbcs_is_satisfied.

(** Completeness over every field; if moreover 3 <> 0, the computed witness is
    accepted only if the circuit is satisfied. *)
Theorem C07_tbcs_to_uscs_complete (F : fieldType) (c : tbcs_circuit) (p a : seq bool) :
  tbcs_is_valid c -> tbcs_types_ok c ->
  size p = t_primary_input_size c -> size a = t_auxiliary_input_size c ->
  exists cs w b,
    [/\ tbcs_to_uscs_instance_map F c = Ok cs,
        tbcs_to_uscs_witness_map F c p a = Ok w,
        take (u_num_inputs cs) w = [seq (x : nat)%:R | x : bool <- p],
        tbcs_is_satisfied c p a = Ok b &
        (b \/ (3%:R : F) != 0) ->
        uscs_is_satisfied cs [seq (x : nat)%:R | x : bool <- p] (drop (u_num_inputs cs) w) = Ok b].
Proof. exact (@tbcs_to_uscs_complete F c p a). Qed.
Print Assumptions C07_tbcs_to_uscs_complete.

(** Soundness, when the characteristic is not 2, 3, 5 or 7: any assignment
    accepted by the constraint system (the auxiliary values being arbitrary
    field elements) yields auxiliary bits that satisfy the circuit. *)
Theorem C07_tbcs_to_uscs_sound (F : fieldType) (c : tbcs_circuit) (cs : uscs F)
    (p : seq bool) (aux : seq F) :
  (2%:R : F) != 0 -> (3%:R : F) != 0 -> (5%:R : F) != 0 -> (7%:R : F) != 0 ->
  tbcs_to_uscs_instance_map F c = Ok cs ->
  size p = t_primary_input_size c ->
  uscs_is_satisfied cs [seq (x : nat)%:R | x : bool <- p] aux = Ok true ->
  let a := [seq x == 1 | x <- take (t_auxiliary_input_size c) aux] in
  tbcs_is_satisfied c p a = Ok true /\
  (t_gates c <> [::] ->
   [seq (x : nat)%:R | x : bool <- a] = take (t_auxiliary_input_size c) aux).
Proof. exact (fun h2 h3 h5 h7 => @tbcs_to_uscs_sound F h2 h3 h5 h7 c cs p aux). Qed.
Print Assumptions C07_tbcs_to_uscs_sound.

(** Finding: the booleanity constraints cover wires 0..n-1 of 1..n, so the last
    wire of a satisfying assignment need not be a bit. *)
Theorem C07_all_wires_boolean_refuted (F : fieldType) :
  (2%:R : F) != 0 -> (3%:R : F) != 0 ->
  exists c cs z,
    [/\ tbcs_is_valid c, tbcs_to_uscs_instance_map F c = Ok cs,
        uscs_is_satisfied cs [:: 1] [:: z] = Ok true & z != 0 /\ z != 1].
Proof. exact (@last_wire_not_boolean F). Qed.
Print Assumptions C07_all_wires_boolean_refuted.

(** Finding: over F_3 the reduction accepts an unsatisfiable circuit. *)
Theorem C07_sound_in_small_characteristic_refuted : exists c cs,
    [/\ tbcs_is_valid c,
        forall p a, tbcs_is_satisfied c p a <> Ok true,
        tbcs_to_uscs_instance_map [fieldType of 'F_3] c = Ok cs &
        uscs_is_satisfied cs [::] [:: 1] = Ok true].
Proof. exact char3_unsound. Qed.
Print Assumptions C07_sound_in_small_characteristic_refuted.

Definition ex_tbcs : tbcs_circuit :=
  (TbcsCircuit 1 1 [:: TbcsGate 1 2 6 3 false; TbcsGate 3 1 14 4 true])%N.
Definition F11 : fieldType := [fieldType of 'F_11].
Example C07_nonvacuous :
  tbcs_is_valid ex_tbcs /\ tbcs_types_ok ex_tbcs /\
  tbcs_is_satisfied ex_tbcs [:: true] [:: false] = Ok true /\
  tbcs_is_satisfied ex_tbcs [:: true] [:: true] = Ok false /\
  (2%:R : F11) != 0 /\ (3%:R : F11) != 0 /\ (5%:R : F11) != 0 /\ (7%:R : F11) != 0 /\
  (let! cs := tbcs_to_uscs_instance_map F11 ex_tbcs in
   uscs_is_satisfied cs [:: 1] [:: 0; 1; 0]) = Ok true.
Proof. by repeat split; vm_compute. Qed.

(** * C50: circuit depth *)

(** The depth of the constant is 0, of an input 1, of a gate one more than the
    deepest wire either of its linear combinations mentions. *)
Theorem C50_bacs_wire_depths (F : fieldType) (c : bacs_circuit F) :
  bacs_is_valid c = Ok true ->
  exists2 d, bacs_wire_depths c = Ok d &
  [/\ size d = (b_num_wires c).+1, nth 0%N d 0 = 0%N,
      forall i, (0 < i <= b_num_inputs c)%N -> nth 0%N d i = 1%N &
      forall g, List.In g (b_gates c) ->
        nth 0%N d (bg_output g) =
        (maxn (\max_(t <- bg_lhs g) nth 0%N d (lt_index t))
              (\max_(t <- bg_rhs g) nth 0%N d (lt_index t))).+1].
Proof. exact (@bacs_depths F c). Qed.
Print Assumptions C50_bacs_wire_depths.

(** Finding: the boolean-circuit version has no entry for the constant wire and
    reads past the end of its vector on a valid circuit. *)
Theorem C50_tbcs_wire_depths_refuted :
  exists c, tbcs_is_valid c /\ tbcs_types_ok c /\ tbcs_wire_depths c = UB.
Proof. exact tbcs_depth_ub. Qed.
Print Assumptions C50_tbcs_wire_depths_refuted.

Example C50_nonvacuous : bacs_wire_depths ex_bacs = Ok [:: 0; 1; 1; 2; 3]%N.
Proof. by vm_compute. Qed.
