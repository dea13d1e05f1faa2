(** Model of libsnark/gadgetlib1/gadgets/routing/{as_waksman,benes}_routing_gadget.{hpp,tcc}.

    [FieldT::capacity()] is [capacity R].  With [num_subpackets = 0] (empty
    packets) the code reads beyond an empty vector of switch bits; the model
    reads variable 0 there, and the theorems assume non-empty packets. *)
From mathcomp Require Import all_ssreflect all_algebra zify.
From Verif Require Import Outcome StdMap Lincomb R1CS Protoboard BasicGadgets Sha256Gadget Knapsack.
From Verif Require Import IntegerPermutation Benes AsWaksman.
Set Implicit Arguments.
Unset Strict Implicit.
Unset Printing Implicit Defensive.
Local Open Scope ring_scope.

(** The rows visited by the loops
      [for (row_idx = 0; row_idx < num_packets; ++row_idx)
         if (first == second) ... else { ...; ++row_idx; }]
    of the AS-Waksman gadget; [skip] says that the previous row was the top of a
    switch. *)
Fixpoint visited (edges : seq (nat * nat)) (skip : bool) (row n : nat) : seq nat :=
  if n is n'.+1 then
    if skip then visited edges false row.+1 n'
    else let e := nth (0, 0)%N edges row in row :: visited edges (e.1 != e.2) row.+1 n'
  else [::].

Section Routing.
Variable F : fieldType.
Variable R : bigint_repr F.
Implicit Types (pb : protoboard F).

(** as_waksman_routing_gadget.hpp:28-70 and benes_routing_gadget.hpp:28-71.  [rg_bits] is
    [asw_switch_bits] or [benes_switch_bits]: the variable of a column and a row. *)
Record routing_gadget := RoutingGadget {
  rg_num_packets : nat;
  rg_num_columns : nat;
  rg_num_subpackets : nat;
  rg_neighbors : seq (seq (nat * nat));
  rg_packets : seq (seq pb_variable_array);
  rg_pack : seq (multipacking F);
  rg_unpack : seq (multipacking F);
  rg_bits : seq (nmap pb_variable) }.

Definition rg_edges (g : routing_gadget) (column row : nat) : nat * nat :=
  nth (0, 0)%N (nth [::] (rg_neighbors g) column) row.
(** [routed_packets[column][row]] *)
Definition rg_packet (g : routing_gadget) (column row : nat) : pb_variable_array :=
  nth [::] (nth [::] (rg_packets g) column) row.
(** [routed_packets[column][row][subpacket]] *)
Definition rg_sub (g : routing_gadget) (column row sub : nat) : pb_variable := nth 0%N (rg_packet g column row) sub.
Definition rg_bit (g : routing_gadget) (column row : nat) : pb_variable :=
  odflt 0%N (nm_find (nth [::] (rg_bits g) column) row).

(** [pack_inputs] and [unpack_outputs] *)
Definition pack_new (bits packed : seq pb_variable_array) (i : nat) : outcome (multipacking F) :=
  let! b := oget bits i in
  let! p := oget packed i in
  multipacking_new (plcs_of_vars F b) (plcs_of_vars F p) (capacity R).
(** [n] arrays of [k] variables *)
Definition packets_new pb (n k : nat) : outcome (seq pb_variable_array * protoboard F) :=
  new_all (fun (_ : nat) pb => Ok (allocate_array pb k)) (iota 0 n) pb.

(** ** AS-Waksman networks *)

(** as_waksman_routing_gadget.tcc:52-73: the packets of the next column. *)
Definition asw_row (num_subpackets : nat) (edges : seq (nat * nat)) (prev : seq pb_variable_array)
    (st : seq pb_variable_array * protoboard F) (row : nat) : outcome (seq pb_variable_array * protoboard F) :=
  let! e := oget edges row in
  if e.1 == e.2 then
    let! p := oget prev row in
    let! next := oput st.1 e.1 p in Ok (next, st.2)
  else
    let: (straight, pb) := allocate_array st.2 num_subpackets in
    let! next := oput st.1 e.1 straight in
    let: (cross, pb) := allocate_array pb num_subpackets in
    let! next := oput next e.2 cross in Ok (next, pb).
Definition asw_column (n num_subpackets : nat) (edges : seq (nat * nat)) (prev : seq pb_variable_array) pb :
    outcome (seq pb_variable_array * protoboard F) :=
  ofold (asw_row num_subpackets edges prev) (nseq n [::], pb) (visited edges false 0 n).
Definition asw_columns (n num_subpackets : nat) (neighbors : seq (seq (nat * nat))) (first : seq pb_variable_array) pb :
    outcome (seq (seq pb_variable_array) * protoboard F) :=
  ofold (fun st edges =>
    let! np := asw_column n num_subpackets edges (last [::] st.1) st.2 in
    Ok (rcons st.1 np.1, np.2)) ([:: first], pb) neighbors.
(** as_waksman_routing_gadget.tcc:91-106: the switch bits of a column. *)
Definition asw_bits_column (n : nat) (edges : seq (nat * nat)) pb : nmap pb_variable * protoboard F :=
  foldl (fun st row => let e := nth (0, 0)%N edges row in
      if e.1 == e.2 then st
      else let: (v, pb) := allocate_var st.2 in (nm_set st.1 row v, pb))
    ([::], pb) (visited edges false 0 n).
Definition asw_bits (n : nat) (neighbors : seq (seq (nat * nat))) pb : outcome (seq (nmap pb_variable) * protoboard F) :=
  new_all (fun edges pb => Ok (asw_bits_column n edges pb)) neighbors pb.
(** as_waksman_routing_gadget.tcc:25-108: constructor.  [unset] is the value of the entries of the
    topology before they are written. *)
Definition asw_routing_new (unset : nat) pb (num_packets : nat) (input_bits output_bits : seq pb_variable_array) :
    outcome (routing_gadget * protoboard F) :=
  let num_columns := aw_num_columns num_packets in
  let! first_input := oget input_bits 0 in
  let num_subpackets := div_ceil (size first_input) (capacity R) in
  let! neighbors := aw_generate unset num_packets in
  let! fp := packets_new pb num_packets num_subpackets in
  let! cp := asw_columns num_packets num_subpackets neighbors fp.1 fp.2 in
  let: (packets, pb) := cp in
  let! pack_inputs := omapm (pack_new input_bits (nth [::] packets 0)) (iota 0 num_packets) in
  let! unpack_outputs := omapm (pack_new output_bits (nth [::] packets num_columns)) (iota 0 num_packets) in
  let! bp := (if (1 < num_subpackets)%N then asw_bits num_packets neighbors pb else Ok ([::], pb)) in
  Ok (RoutingGadget num_packets num_columns num_subpackets neighbors packets pack_inputs unpack_outputs bp.1, bp.2).

Let vlc (v : pb_variable) := lc_of_var F v.
Let zero_lc := lc_of_int F 0.
(** [(cur - straight) * (cur - cross) = 0] *)
Definition easy_route (g : routing_gadget) (column row : nat) : r1cs_constraint F :=
  let e := rg_edges g column row in
  let cur := rg_sub g column row 0 in
  R1csConstraint (var_sub_lc cur (vlc (rg_sub g column.+1 e.1 0))) (var_sub_lc cur (vlc (rg_sub g column.+1 e.2 0))) zero_lc.
(** [switch_bit * (cross - straight) = cur - straight] *)
Definition route_forward (g : routing_gadget) (bit : pb_variable) (column row sub : nat) : r1cs_constraint F :=
  let e := rg_edges g column row in
  let straight := rg_sub g column.+1 e.1 sub in
  R1csConstraint (vlc bit) (var_sub_lc (rg_sub g column.+1 e.2 sub) (vlc straight))
    (var_sub_lc (rg_sub g column row sub) (vlc straight)).

(** as_waksman_routing_gadget.tcc:110-179: generate_r1cs_constraints *)
Definition asw_switch_constraints (g : routing_gadget) (column row : nat) : seq (r1cs_constraint F) :=
  let e := rg_edges g column row in
  if e.1 == e.2 then [::]
  else if rg_num_subpackets g == 1%N then [:: easy_route g column row; easy_route g column row.+1]
  else let bit := rg_bit g column row in
    boolean_constraint (lc_terms (plc_of_var F bit)) ::
    flatten [seq [:: route_forward g bit column row sub; route_forward g bit column row.+1 sub]
            | sub <- iota 0 (rg_num_subpackets g)].
Definition packing_part (g : routing_gadget) (i : nat) : seq (r1cs_constraint F) :=
  multipacking_constraints (nth [::] (rg_pack g) i) false ++ multipacking_constraints (nth [::] (rg_unpack g) i) true.
Definition asw_routing_constraints (g : routing_gadget) : seq (r1cs_constraint F) :=
  flatten [seq packing_part g i | i <- iota 0 (rg_num_packets g)] ++
  flatten [seq flatten [seq asw_switch_constraints g column row
                       | row <- visited (nth [::] (rg_neighbors g) column) false 0 (rg_num_packets g)]
          | column <- iota 0 (rg_num_columns g)].

(** [for (subpacket_idx ...) pb.val(target[subpacket_idx]) = pb.val(source[subpacket_idx])] *)
Definition copy_packet (g : routing_gadget) (target source : nat -> pb_variable) pb : outcome (protoboard F) :=
  ofold (fun pb sub => let! v := pb_val pb (source sub) in pb_set pb (target sub) v) pb (iota 0 (rg_num_subpackets g)).
(** as_waksman_routing_gadget.tcc:192-238: one row; [routing[column][row]] creates an entry [false]
    if there is none. *)
Definition asw_row_witness (g : routing_gadget) (routing : aw_routing) (column : nat) pb (row : nat) : outcome (protoboard F) :=
  let e := rg_edges g column row in
  if e.1 == e.2 then copy_packet g (rg_sub g column.+1 e.1) (rg_sub g column row) pb
  else
    let! settings := oget routing column in
    let switch_val := odflt false (nm_find settings row) in
    let! pb := (if (1 < rg_num_subpackets g)%N
                then pb_set pb (rg_bit g column row) (if switch_val then 1 else 0) else Ok pb) in
    ofold (fun pb switch_input =>
        let e := rg_edges g column switch_input in
        copy_packet g (rg_sub g column.+1 (if switch_val then e.2 else e.1)) (rg_sub g column switch_input) pb)
      pb [:: row; row.+1].
(** as_waksman_routing_gadget.tcc:181-246: generate_r1cs_witness *)
Definition asw_routing_witness (g : routing_gadget) (permutation : int_perm) pb : outcome (protoboard F) :=
  let! pb := ofold (fun pb i => let! m := oget (rg_pack g) i in multipacking_witness_from_bits m pb)
               pb (iota 0 (rg_num_packets g)) in
  let! routing := get_as_waksman_routing permutation in
  let! pb := ofold (fun pb column =>
      ofold (asw_row_witness g routing column) pb (visited (nth [::] (rg_neighbors g) column) false 0 (rg_num_packets g)))
    pb (iota 0 (rg_num_columns g)) in
  ofold (fun pb i => let! m := oget (rg_unpack g) i in multipacking_witness_from_packed R m pb)
    pb (iota 0 (rg_num_packets g)).

(** ** Benes networks *)

(** benes_routing_gadget.tcc:23-82: constructor.  [lines_to_unpack] packets are unpacked. *)
Definition benes_routing_new pb (num_packets : nat) (input_bits output_bits : seq pb_variable_array)
    (lines_to_unpack : nat) : outcome (routing_gadget * protoboard F) :=
  let! num_columns := benes_num_columns num_packets in
  let! first_input := oget input_bits 0 in
  let num_subpackets := div_ceil (size first_input) (capacity R) in
  assert! (lines_to_unpack <= size input_bits)%N in
  assert! num_packets == (2 ^ ceil_log2 num_packets)%N in
  assert! size input_bits == num_packets in
  let! neighbors := benes_topology num_packets in
  let! cp := new_all (fun (_ : nat) pb => packets_new pb num_packets num_subpackets) (iota 0 num_columns.+1) pb in
  let: (packets, pb) := cp in
  let! pack_inputs := omapm (pack_new input_bits (nth [::] packets 0)) (iota 0 num_packets) in
  let! unpack_outputs := omapm (pack_new output_bits (nth [::] packets num_columns)) (iota 0 lines_to_unpack) in
  let: (bits, pb) := (if (1 < num_subpackets)%N
    then foldl (fun st (_ : nat) => let: (vs, pb) := allocate_array st.2 num_packets in
                 (rcons st.1 (zip (iota 0 num_packets) vs), pb)) ([::], pb) (iota 0 num_columns)
    else ([::], pb)) in
  Ok (RoutingGadget num_packets num_columns num_subpackets neighbors packets pack_inputs unpack_outputs bits, pb).
(** benes_routing_gadget.tcc:84-147: generate_r1cs_constraints; the number of unpacked lines is that
    of the unpacking gadgets. *)
Definition benes_packing_part (g : routing_gadget) (i : nat) : seq (r1cs_constraint F) :=
  multipacking_constraints (nth [::] (rg_pack g) i) false ++
  (if (i < size (rg_unpack g))%N then multipacking_constraints (nth [::] (rg_unpack g) i) true
   else [seq R1csConstraint (lc_of_int F 1) (vlc (rg_sub g 0 i sub)) (vlc (rg_sub g (rg_num_columns g) i sub))
        | sub <- iota 0 (rg_num_subpackets g)]).
Definition benes_row_constraints (g : routing_gadget) (column row : nat) : seq (r1cs_constraint F) :=
  if rg_num_subpackets g == 1%N then [:: easy_route g column row]
  else let bit := rg_bit g column row in
    boolean_constraint (lc_terms (plc_of_var F bit)) ::
    [seq route_forward g bit column row sub | sub <- iota 0 (rg_num_subpackets g)].
Definition benes_routing_constraints (g : routing_gadget) : seq (r1cs_constraint F) :=
  flatten [seq benes_packing_part g i | i <- iota 0 (rg_num_packets g)] ++
  flatten [seq flatten [seq benes_row_constraints g column row | row <- iota 0 (rg_num_packets g)]
          | column <- iota 0 (rg_num_columns g)].
(** benes_routing_gadget.tcc:149-190: generate_r1cs_witness *)
Definition benes_row_witness (g : routing_gadget) (routing : benes_routing) (column : nat) pb (row : nat) :
    outcome (protoboard F) :=
  let e := rg_edges g column row in
  let! settings := oget routing column in
  let! setting := oget settings row in
  let! pb := (if (1 < rg_num_subpackets g)%N
              then pb_set pb (rg_bit g column row) (if setting then 1 else 0) else Ok pb) in
  copy_packet g (rg_sub g column.+1 (if setting then e.2 else e.1)) (rg_sub g column row) pb.
Definition benes_routing_witness (g : routing_gadget) (permutation : int_perm) pb : outcome (protoboard F) :=
  let! pb := ofold (fun pb i => let! m := oget (rg_pack g) i in multipacking_witness_from_bits m pb)
               pb (iota 0 (rg_num_packets g)) in
  let! routing := get_benes_routing permutation in
  let! pb := ofold (fun pb column => ofold (benes_row_witness g routing column) pb (iota 0 (rg_num_packets g)))
    pb (iota 0 (rg_num_columns g)) in
  ofold (fun pb i => let! m := oget (rg_unpack g) i in multipacking_witness_from_packed R m pb)
    pb (iota 0 (size (rg_unpack g))).
End Routing.
