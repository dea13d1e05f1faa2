(** Routing on an arbitrary-size Waksman network
    (common/routing_algorithms/as_waksman_routing_algorithm.{hpp,cpp}).

    [size_t] values are unbounded naturals.  Where the code could subtract past
    zero, the model says so at the definition. *)
From mathcomp Require Import all_ssreflect zify.
From Verif Require Import Outcome StdMap IntegerPermutation Benes.
Set Implicit Arguments.
Unset Strict Implicit.
Unset Printing Implicit Defensive.

(** as_waksman_routing_algorithm.cpp:22-25: as_waksman_top_height *)
Definition aw_top_height (num_packets : nat) : nat := num_packets %/ 2.
(** as_waksman_routing_algorithm.cpp:38-43: as_waksman_switch_output, and :51-55:
    as_waksman_switch_input, which is the same.  A row above the offset would
    make [relpos] wrap and fail the assertion. *)
Definition aw_switch_output (num_packets row_offset row_idx : nat) (use_top : bool) : outcome nat :=
  assert! row_offset <= row_idx in
  let relpos := row_idx - row_offset in
  assert! (relpos %% 2 == 0) && (relpos + 1 < num_packets) in
  Ok (row_offset + relpos %/ 2 + (if use_top then 0 else aw_top_height num_packets)).
Definition aw_switch_input := aw_switch_output.
(** as_waksman_routing_algorithm.cpp:57-60: as_waksman_num_columns *)
Definition aw_num_columns (num_packets : nat) : nat :=
  if 1 < num_packets then 2 * ceil_log2 num_packets - 1 else 0.

(** as_waksman_routing_algorithm.hpp:82 *)
Definition aw_topology := seq (seq (nat * nat)).
(** [neighbors[column][row].first = v] and [.second = v] *)
Definition nb_upd (f : nat * nat -> nat * nat) (t : aw_topology) (column row : nat) : outcome aw_topology :=
  let! c := oget t column in
  let! e := oget c row in
  let! c := oput c row (f e) in oput t column c.
Definition nb_first (t : aw_topology) (column row v : nat) := nb_upd (fun e => (v, e.2)) t column row.
Definition nb_second (t : aw_topology) (column row v : nat) := nb_upd (fun e => (e.1, v)) t column row.
(** [neighbors[column][row].first = neighbors[column][row].second = v] *)
Definition nb_both (t : aw_topology) (column row v : nat) : outcome aw_topology :=
  let! t := nb_second t column row v in nb_first t column row v.

(** The value the code writes as [-1] before it fills a vector. *)
Section Topology.
Variable unset : nat.

(** as_waksman_routing_algorithm.cpp:96-104: the edges of a row of a subnetwork
    with more columns than it needs. *)
Definition aw_straight (left right lo : nat) (rhs_dests : seq nat) (t : aw_topology) (packet : nat) : outcome aw_topology :=
  let! t := nb_both t left packet packet in
  let! d := oget rhs_dests (packet - lo) in
  nb_both t right packet d.
(** as_waksman_routing_algorithm.cpp:130-140: one switch on either side. *)
Definition aw_switch_step (left right lo size : nat) (rhs_dests : seq nat) (st : aw_topology * seq nat) (row : nat) :
    outcome (aw_topology * seq nat) :=
  let: (t, nd) := st in
  let! a := aw_switch_output size lo row true in
  let! t := nb_second t left row.+1 a in
  let! t := nb_first t left row a in
  let! b := aw_switch_output size lo row false in
  let! t := nb_first t left row.+1 b in
  let! t := nb_second t left row b in
  let! i := aw_switch_input size lo row true in
  let! nd := oput nd (i - lo) row in
  let! j := aw_switch_input size lo row false in
  let! nd := oput nd (j - lo) row.+1 in
  let! d0 := oget rhs_dests (row - lo) in
  let! t := nb_second t right row.+1 d0 in
  let! t := nb_first t right row d0 in
  let! d1 := oget rhs_dests (row + 1 - lo) in
  let! t := nb_first t right row.+1 d1 in
  let! t := nb_second t right row d1 in
  Ok (t, nd).

(** as_waksman_routing_algorithm.cpp:75-174: construct_as_waksman_inner.  Columns
    [left..right], rows [lo..hi] with [lo <= hi].  [right - 1] for [right = 0] is
    not modelled (undefined behaviour here); it is not reached from
    generate_as_waksman_topology. [fuel] bounds the depth of the recursion. *)
Fixpoint aw_construct (fuel left right lo hi : nat) (rhs_dests : seq nat) (t : aw_topology) : outcome aw_topology :=
  if right < left then Ok t else
  if fuel is f.+1 then
    let size := hi - lo + 1 in
    assert! seq.size rhs_dests == size in
    let width := aw_num_columns size in
    assert! width <= right - left + 1 in
    if width < right - left + 1 then
      let! t := ofold (aw_straight left right lo rhs_dests) t (iota lo size) in
      if right is r.+1 then aw_construct f left.+1 r lo hi (iota lo size) t else
      UB
    else if size == 2 then
      let! d0 := oget rhs_dests 0 in
      let! t := nb_second t left hi d0 in
      let! t := nb_first t left lo d0 in
      let! d1 := oget rhs_dests 1 in
      let! t := nb_first t left hi d1 in
      nb_second t left lo d1
    else
      let! st := ofold (aw_switch_step left right lo size rhs_dests) (t, nseq size unset)
                   [seq lo + 2 * i | i <- iota 0 (size %/ 2)] in
      let: (t, nd) := st in
      let! st :=
        (if size %% 2 == 1 then
          let! t := nb_both t left hi hi in
          let! d := oget rhs_dests (hi - lo) in
          let! t := nb_both t right hi d in
          let! nd := oput nd (hi - lo) hi in Ok (t, nd)
        else
          let! t := nb_upd (fun e => (e.1, e.1)) t left (hi - 1) in
          let! t := nb_upd (fun e => (e.1, e.1)) t left hi in Ok (t, nd)) in
      let: (t, nd) := st in
      let d := aw_top_height size in
      if right is r.+1 then
        let! t := aw_construct f left.+1 r lo (lo + d - 1) (take d nd) t in
        aw_construct f left.+1 r (lo + d) hi (drop d nd) t
      else UB
  else UB.

(** as_waksman_routing_algorithm.cpp:176-192: generate_as_waksman_topology *)
Definition aw_generate (num_packets : nat) : outcome aw_topology :=
  assert! 1 < num_packets in
  let width := aw_num_columns num_packets in
  aw_construct width 0 (width - 1) 0 (num_packets - 1) (iota 0 num_packets)
    (nseq width (nseq num_packets (unset, unset))).
End Topology.

(** as_waksman_routing_algorithm.cpp:201-205: as_waksman_get_canonical_row_idx,
    for [row_offset <= row_idx]: the relative row with its lowest bit cleared. *)
Definition aw_canonical (row_offset row_idx : nat) : nat := (row_idx - row_offset) %/ 2 * 2 + row_offset.
(** as_waksman_routing_algorithm.cpp:217-221:
    as_waksman_get_switch_setting_from_top_bottom_decision *)
Definition aw_setting (row_offset packet_idx : nat) (use_top : bool) : bool :=
  (packet_idx == aw_canonical row_offset packet_idx) (+) use_top.
(** as_waksman_routing_algorithm.cpp:233-237:
    as_waksman_get_top_bottom_decision_from_switch_setting *)
Definition aw_decision (row_offset packet_idx : nat) (switch_setting : bool) : bool :=
  (aw_canonical row_offset packet_idx == packet_idx) (+) switch_setting.
(** as_waksman_routing_algorithm.cpp:243-247: as_waksman_other_output_position,
    and :253-257: as_waksman_other_input_position, which is the same. *)
Definition aw_other (row_offset packet_idx : nat) : nat :=
  let row := aw_canonical row_offset packet_idx in (1 - (packet_idx - row)) + row.

(** as_waksman_routing_algorithm.hpp:101 *)
Definition aw_routing := seq (nmap bool).
(** [routing[column].find(row)] *)
Definition rt_find (r : aw_routing) (column row : nat) : outcome (option bool) :=
  let! c := oget r column in Ok (nm_find c row).
(** [routing[column][row] = b] *)
Definition rt_put (r : aw_routing) (column row : nat) (b : bool) : outcome aw_routing :=
  let! c := oget r column in oput r column (nm_set c row b).
(** [routing[column].erase(row)] *)
Definition rt_erase (r : aw_routing) (column row : nat) : outcome aw_routing :=
  let! c := oget r column in oput r column (nm_erase c row).

(** The variables of the loop of as_waksman_route_inner. *)
Record aw_state := AwState {
  aw_to : nat; aw_left : bool; aw_max : nat; aw_routed : seq bool;
  aw_perm : int_perm; aw_inv : int_perm; aw_rt : aw_routing }.

Section Inner.
Variables (left right lo hi size : nat) (permutation permutation_inv : int_perm).

(** The index [row - lo] of a vector; a row above [lo] wraps and is out of range. *)
Definition aw_rel (row : nat) : outcome nat := if row < lo then UB else Ok (row - lo).

(** as_waksman_routing_algorithm.cpp:335-384: the state before the loop. *)
Definition aw_init (rt : aw_routing) : outcome aw_state :=
  let! np := ip_range lo hi in
  let! ni := ip_range lo hi in
  let routed := nseq size false in
  if size %% 2 == 1 then
    let! ph := ip_get permutation hi in
    let! st :=
      (if ph == hi then
        let! np := ip_set np hi hi in
        let! ni := ip_set ni hi hi in
        Ok (AwState (hi - 1) true (hi - 1) routed np ni rt)
      else
        let rhs_switch := aw_canonical lo ph in
        let! rt := rt_put rt right rhs_switch (aw_setting lo ph false) in
        let! tprime := aw_switch_input size lo rhs_switch false in
        let! np := ip_set np hi tprime in
        let! ni := ip_set ni tprime hi in
        Ok (AwState (aw_other lo ph) false (hi - 1) routed np ni rt)) in
    let! r := oput (aw_routed st) (hi - lo) true in
    Ok (AwState (aw_to st) (aw_left st) (hi - 1) r (aw_perm st) (aw_inv st) (aw_rt st))
  else
    let! rt := rt_put rt left (hi - 1) false in
    Ok (AwState hi true hi routed np ni rt).

(** as_waksman_routing_algorithm.cpp:392-438: routing from the left. *)
Definition aw_forward (st : aw_state) : outcome aw_state :=
  let w := aw_to st in
  let lhs_switch := aw_canonical lo w in
  let! o := rt_find (aw_rt st) left lhs_switch in
  let! rt := (if o is None then rt_put (aw_rt st) left lhs_switch false else Ok (aw_rt st)) in
  let setting := if o is Some b then b else false in
  let use_top := aw_decision lo w setting in
  let! t := aw_switch_output size lo lhs_switch use_top in
  let! pw := ip_get permutation w in
  if pw == hi then
    let! np := ip_set (aw_perm st) t hi in
    let! ni := ip_set (aw_inv st) hi t in
    let! i := aw_rel w in
    let! routed := oput (aw_routed st) i true in
    Ok (AwState (aw_max st) true (aw_max st) routed np ni rt)
  else
    let rhs_switch := aw_canonical lo pw in
    let! o := rt_find rt right rhs_switch in
    assert! ~~ isSome o in
    let! rt := rt_put rt right rhs_switch (aw_setting lo pw use_top) in
    let! tprime := aw_switch_input size lo rhs_switch use_top in
    let! np := ip_set (aw_perm st) t tprime in
    let! ni := ip_set (aw_inv st) tprime t in
    let! i := aw_rel w in
    let! routed := oput (aw_routed st) i true in
    Ok (AwState (aw_other lo pw) false (aw_max st) routed np ni rt).

(** as_waksman_routing_algorithm.cpp:440-470: routing back from the right (the
    assertion under [#ifdef DEBUG] is not part of the model). *)
Definition aw_backward (st : aw_state) : outcome aw_state :=
  let y := aw_to st in
  let rhs_switch := aw_canonical lo y in
  let! x := ip_get permutation_inv y in
  let lhs_switch := aw_canonical lo x in
  let! o := rt_find (aw_rt st) right rhs_switch in
  assert! isSome o in
  let rhs_setting := if o is Some b then b else false in
  let use_top := aw_decision lo y rhs_setting in
  let! rt := rt_put (aw_rt st) left lhs_switch (aw_setting lo x use_top) in
  let! t := aw_switch_input size lo rhs_switch use_top in
  let! tprime := aw_switch_output size lo lhs_switch use_top in
  let! np := ip_set (aw_perm st) tprime t in
  let! ni := ip_set (aw_inv st) t tprime in
  let! i := aw_rel x in
  let! routed := oput (aw_routed st) i true in
  Ok (AwState (aw_other lo x) true (aw_max st) routed np ni rt).

(** as_waksman_routing_algorithm.cpp:478-482: the loop that lowers [max_unrouted],
    with [k] its distance from [lo]. *)
Fixpoint aw_lower (routed : seq bool) (k : nat) : outcome nat :=
  if k is k'.+1 then let! b := oget routed k in if b then aw_lower routed k' else Ok k else Ok 0.

(** as_waksman_routing_algorithm.cpp:386-494: one iteration; the second
    component says whether the loop is left. *)
Definition aw_iter (st : aw_state) : outcome (aw_state * bool) :=
  let! st := (if aw_left st then aw_forward st else aw_backward st) in
  if ~~ aw_left st then Ok (st, false) else
  let! i := aw_rel (aw_to st) in
  let! r := oget (aw_routed st) i in
  if ~~ r then Ok (st, false) else
  let! i := aw_rel (aw_max st) in
  let! k := aw_lower (aw_routed st) i in
  let! r0 := oget (aw_routed st) 0 in
  if (k == 0) && r0 then
    Ok (AwState (aw_to st) true (lo + k) (aw_routed st) (aw_perm st) (aw_inv st) (aw_rt st), true)
  else Ok (AwState (lo + k) true (lo + k) (aw_routed st) (aw_perm st) (aw_inv st) (aw_rt st), false).

(** The loop; running out of [fuel] is reported like undefined behaviour (it does
    not happen, see AsWaksmanFacts.v). *)
Fixpoint aw_loop (fuel : nat) (st : aw_state) : outcome aw_state :=
  if fuel is f.+1 then
    let! r := aw_iter st in if r.2 then Ok r.1 else aw_loop f r.1
  else UB.
End Inner.

(** as_waksman_routing_algorithm.cpp:272-502: as_waksman_route_inner; [right - 1]
    for [right = 0] as in [aw_construct]. *)
Fixpoint aw_route_inner (fuel left right lo hi : nat) (permutation permutation_inv : int_perm) (rt : aw_routing) :
    outcome aw_routing :=
  if right < left then Ok rt else
  if fuel is f.+1 then
    let size := hi - lo + 1 in
    let width := aw_num_columns size in
    assert! width <= right - left + 1 in
    if width < right - left + 1 then
      if right is r.+1 then aw_route_inner f left.+1 r lo hi permutation permutation_inv rt else UB
    else if size == 2 then
      let! p0 := ip_get permutation lo in
      let! p1 := ip_get permutation (lo + 1) in
      assert! (p0 == lo) || (p0 == lo + 1) in
      assert! (p1 == lo) || (p1 == lo + 1) in
      assert! p0 != p1 in
      rt_put rt left lo (p0 != lo)
    else
      let! st := aw_init left right lo hi size permutation rt in
      let! st := aw_loop left right lo hi size permutation permutation_inv (2 * size).+2 st in
      let! rt := (if size %% 2 == 0 then rt_erase (aw_rt st) left (hi - 1) else Ok (aw_rt st)) in
      let d := aw_top_height size in
      let! pu := ip_slice (aw_perm st) lo (lo + d - 1) in
      let! pl := ip_slice (aw_perm st) (lo + d) hi in
      let! iu := ip_slice (aw_inv st) lo (lo + d - 1) in
      let! il := ip_slice (aw_inv st) (lo + d) hi in
      if right is r.+1 then
        let! rt := aw_route_inner f left.+1 r lo (lo + d - 1) pu iu rt in
        aw_route_inner f left.+1 r (lo + d) hi pl il rt
      else UB
  else UB.

(** as_waksman_routing_algorithm.cpp:504-512: get_as_waksman_routing.  With one
    packet the code reads [routing[0]] of an empty vector; with none it inverts an
    empty permutation. *)
Definition get_as_waksman_routing (permutation : int_perm) : outcome aw_routing :=
  let num_packets := ip_size permutation in
  let width := aw_num_columns num_packets in
  let! inv := ip_inverse permutation in
  if width is w.+1 then
    aw_route_inner width 0 w 0 (num_packets - 1) permutation inv (nseq width [::])
  else UB.

(** as_waksman_routing_algorithm.cpp:525-544: one packet in one column.  The key
    [packet_idx-1] of row 0 would wrap; the model takes it to be absent. *)
Definition aw_check_packet (neighbors : aw_topology) (routing : aw_routing) (column : nat) (curperm : int_perm)
    (nextperm : int_perm) (packet : nat) : outcome int_perm :=
  let! c := oget neighbors column in
  let! e := oget c packet in
  let! dest :=
    (if e.1 == e.2 then Ok e.1 else
      let! it := rt_find routing column packet in
      let! it2 := (if packet is p.+1 then rt_find routing column p else Ok None) in
      assert! isSome it (+) isSome it2 in
      let setting := if it is Some b then b else if it2 is Some b then b else false in
      Ok (if setting then e.2 else e.1)) in
  let! v := ip_get curperm packet in
  ip_set nextperm dest v.
(** as_waksman_routing_algorithm.cpp:514-551: valid_as_waksman_routing *)
Definition valid_as_waksman_routing (unset : nat) (permutation : int_perm) (routing : aw_routing) : outcome bool :=
  let num_packets := ip_size permutation in
  let width := aw_num_columns num_packets in
  let! neighbors := aw_generate unset num_packets in
  let! cur := ofold (fun cur column =>
    ofold (aw_check_packet neighbors routing column cur) (ip_of_size num_packets) (iota 0 num_packets))
    (ip_of_size num_packets) (iota 0 width) in
  let! inv := ip_inverse permutation in
  Ok (ip_eq cur inv).

(** * Specification *)

(** The two edges that leave a position. *)
Definition aw_edges (t : aw_topology) (column row : nat) : nat * nat := nth (0, 0) (nth [::] t column) row.
(** as_waksman_routing_algorithm.hpp:51-59: a position is the top of a switch when
    its two edges differ and the row below has the same two, exchanged. *)
Definition aw_switch_at (t : aw_topology) (column row : nat) : bool :=
  let e := aw_edges t column row in (e.1 != e.2) && (aw_edges t column row.+1 == (e.2, e.1)).
Definition aw_bit (r : aw_routing) (column row : nat) : option bool := nm_find (nth [::] r column) row.
(** The row a packet reaches from [row] in one column: a wire takes it straight
    on; a switch straight or across, as set at the switch's top position. *)
Definition aw_next (t : aw_topology) (r : aw_routing) (column row : nat) : nat :=
  let e := aw_edges t column row in
  if e.1 == e.2 then e.1
  else if aw_bit r column (if aw_switch_at t column row then row else row.-1) == Some true then e.2 else e.1.
Fixpoint aw_follow (t : aw_topology) (r : aw_routing) (column n row : nat) : nat :=
  if n is m.+1 then aw_follow t r column.+1 m (aw_next t r column row) else row.
