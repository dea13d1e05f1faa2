(** Routing on a Benes network
    (common/routing_algorithms/benes_routing_algorithm.{hpp,cpp}).

    [size_t] values are unbounded naturals; [row & ~mask] is [Nat.ldiff]. *)
From mathcomp Require Import all_ssreflect zify.
From Verif Require Import Outcome IntegerPermutation.
Set Implicit Arguments.
Unset Strict Implicit.
Unset Printing Implicit Defensive.

(** libff::log2 (external): the least [k] with [n <= 2^k]. *)
Definition ceil_log2 (n : nat) : nat := up_log 2 n.

(** benes_routing_algorithm.cpp:37-40: benes_cross_edge_mask *)
Definition benes_mask (dimension column : nat) : nat :=
  if column < dimension then 2 ^ (dimension - 1 - column) else 2 ^ (column - dimension).
(** benes_routing_algorithm.cpp:57-61: benes_lhs_packet_destination *)
Definition benes_lhs_dest (dimension column row : nat) (use_top : bool) : nat :=
  let mask := benes_mask dimension column in
  if use_top then Nat.ldiff row mask else Nat.lor row mask.
(** benes_routing_algorithm.cpp:78-81: benes_rhs_packet_source *)
Definition benes_rhs_source (dimension column row : nat) (use_top : bool) : nat :=
  benes_lhs_dest dimension (column - 1) row use_top.
(** benes_routing_algorithm.cpp:88-91: benes_get_switch_setting_from_subnetwork *)
Definition benes_setting (dimension column row : nat) (use_top : bool) : bool :=
  row != benes_lhs_dest dimension column row use_top.
(** benes_routing_algorithm.cpp:99-103: benes_packet_cross_destination *)
Definition benes_cross_dest (dimension column row : nat) : nat :=
  Nat.lxor row (benes_mask dimension column).
(** benes_routing_algorithm.cpp:111-114: benes_packet_cross_source *)
Definition benes_cross_source (dimension column packet : nat) : nat :=
  benes_cross_dest dimension (column - 1) packet.
(** benes_routing_algorithm.cpp:116-122: benes_num_columns *)
Definition benes_num_columns (num_packets : nat) : outcome nat :=
  let dimension := ceil_log2 num_packets in
  assert! num_packets == 2 ^ dimension in Ok (2 * dimension).
(** benes_routing_algorithm.cpp:124-143: generate_benes_topology *)
Definition benes_topology (num_packets : nat) : outcome (seq (seq (nat * nat))) :=
  let! num_columns := benes_num_columns num_packets in
  let dimension := ceil_log2 num_packets in
  assert! num_packets == 2 ^ dimension in
  Ok [seq [seq (packet, benes_cross_dest dimension column packet) | packet <- iota 0 num_packets]
     | column <- iota 0 num_columns].

(** benes_routing_algorithm.hpp:52-60: one bit per column and packet. *)
Definition benes_routing := seq (seq bool).
(** [routing[column][row] = b] *)
Definition rt_set (r : benes_routing) (column row : nat) (b : bool) : outcome benes_routing :=
  let! c := oget r column in let! c := oput c row b in oput r column c.

(** The variables of the loop of route_benes_inner: [w], [last_unrouted],
    [lhs_routed], [new_permutation], [new_permutation_inv] and [routing]. *)
Record benes_state := BenesState {
  bs_w : nat; bs_last : nat; bs_routed : seq bool; bs_perm : int_perm; bs_inv : int_perm; bs_rt : benes_routing }.

Section Inner.
Variables (dimension : nat) (permutation permutation_inv : int_perm).
Variables (cs ce : nat).            (* column_idx_start, column_idx_end *)
Variables (off size : nat).         (* subnetwork_offset, subnetwork_size *)

(** benes_routing_algorithm.cpp:183-238: one iteration of the loop; the second
    component says whether the loop is left.  [lhs_routed] is read and written
    with indices relative to the offset, which are in range for rows of the
    subnetwork (a row below the offset would wrap and be out of range). *)
Definition rel (row : nat) : outcome nat := if row < off then UB else Ok (row - off).
Definition benes_iter (st : benes_state) : outcome (benes_state * bool) :=
  let w := bs_w st in
  let! w' := ip_get permutation w in
  let wd := benes_lhs_dest dimension cs w true in
  let ws := benes_rhs_source dimension ce w' true in
  let! rt := rt_set (bs_rt st) cs w (benes_setting dimension cs w true) in
  let! np := ip_set (bs_perm st) wd ws in
  let! i := rel w in
  let! routed := oput (bs_routed st) i true in
  let! rt := rt_set rt (ce - 1) ws (benes_setting dimension (ce - 1) w' true) in
  let! ni := ip_set (bs_inv st) ws wd in
  let v' := benes_cross_source dimension ce w' in
  let! v := ip_get permutation_inv v' in
  let! i := rel v in
  let! vr := oget routed i in
  assert! ~~ vr in
  let vs := benes_rhs_source dimension ce v' false in
  let vd := benes_lhs_dest dimension cs v false in
  let! rt := rt_set rt (ce - 1) vs (benes_setting dimension (ce - 1) v' false) in
  let! ni := ip_set ni vs vd in
  let! rt := rt_set rt cs v (benes_setting dimension cs v false) in
  let! np := ip_set np vd vs in
  let! routed := oput routed i true in
  let x := benes_cross_dest dimension cs v in
  let! i := rel x in
  let! xr := oget routed i in
  if ~~ xr then Ok (BenesState x (bs_last st) routed np ni rt, false)
  else
    let last := bs_last st + find negb (drop (bs_last st - off) routed) in
    Ok (BenesState last last routed np ni rt, last == off + size).

(** The loop; [fuel] bounds the number of iterations, and running out of it is
    reported like undefined behaviour (it does not happen, see BenesFacts.v). *)
Fixpoint benes_loop (fuel : nat) (st : benes_state) : outcome benes_state :=
  if fuel is f.+1 then
    let! r := benes_iter st in if r.2 then Ok r.1 else benes_loop f r.1
  else UB.
End Inner.

(** benes_routing_algorithm.cpp:155-253: route_benes_inner (its assertions under
    [#ifdef DEBUG] are not part of the model). *)
Fixpoint benes_route_inner (fuel dimension : nat) (permutation permutation_inv : int_perm)
    (cs ce off size : nat) (routing : benes_routing) : outcome benes_routing :=
  if cs == ce then Ok routing else
  if fuel is f.+1 then
    let! np := ip_range off (off + size - 1) in
    let! ni := ip_range off (off + size - 1) in
    let! st := benes_loop dimension permutation permutation_inv cs ce off size size.+1
                 (BenesState off off (nseq size false) np ni routing) in
    let half := size %/ 2 in
    let! pu := ip_slice (bs_perm st) off (off + half - 1) in
    let! pl := ip_slice (bs_perm st) (off + half) (off + size - 1) in
    let! iu := ip_slice (bs_inv st) off (off + half - 1) in
    let! il := ip_slice (bs_inv st) (off + half) (off + size - 1) in
    let! rt := benes_route_inner f dimension pu iu cs.+1 (ce - 1) off half (bs_rt st) in
    benes_route_inner f dimension pl il cs.+1 (ce - 1) (off + half) half rt
  else UB.

(** benes_routing_algorithm.cpp:255-266: get_benes_routing *)
Definition get_benes_routing (permutation : int_perm) : outcome benes_routing :=
  let num_packets := ip_size permutation in
  let! num_columns := benes_num_columns num_packets in
  let dimension := ceil_log2 num_packets in
  let! inv := ip_inverse permutation in
  benes_route_inner num_columns dimension permutation inv 0 num_columns 0 num_packets
    (nseq num_columns (nseq num_packets false)).

(** benes_routing_algorithm.cpp:269-291: route_by_benes for packets of type
    [size_t], one column: the next column starts out as zeros. *)
Definition route_column (dimension : nat) (routing : benes_routing) (cur : seq nat) (column : nat) : outcome (seq nat) :=
  ofold (fun next packet =>
    let! col := oget routing column in
    let! b := oget col packet in
    let! x := oget cur packet in
    oput next (if b then Nat.lxor packet (benes_mask dimension column) else packet) x)
    (nseq (size cur) 0) (iota 0 (size cur)).
(** The last column of [res]. *)
Definition route_by_benes (routing : benes_routing) (start : seq nat) : outcome (seq nat) :=
  let! num_columns := benes_num_columns (size start) in
  ofold (route_column (ceil_log2 (size start)) routing) start (iota 0 num_columns).
(** benes_routing_algorithm.cpp:293-315: valid_benes_routing; the loop stops at
    the first mismatch. *)
Definition valid_benes_routing (permutation : int_perm) (routing : benes_routing) : outcome bool :=
  let num_packets := ip_size permutation in
  let! num_columns := benes_num_columns num_packets in
  let! routed := route_by_benes routing (iota 0 num_packets) in
  ofold (fun ok packet =>
    if ok then let! d := ip_get permutation packet in let! x := oget routed d in Ok (x == packet)
    else Ok false) true (iota 0 num_packets).

(** * Specification *)

(** The row of a packet that enters column [column] at [row] and follows the
    edges of the topology chosen by the routing through [n] columns. *)
Fixpoint benes_follow (topology : seq (seq (nat * nat))) (routing : benes_routing) (column n row : nat) : nat :=
  if n is m.+1 then
    let edges := nth (0, 0) (nth [::] topology column) row in
    benes_follow topology routing column.+1 m
      (if nth false (nth [::] routing column) row then edges.2 else edges.1)
  else row.
