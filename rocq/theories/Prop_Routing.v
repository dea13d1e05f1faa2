(** C25 (integer permutations), C26 (Benes networks) and C27 (AS-Waksman networks). *)
From mathcomp Require Import all_ssreflect zify.
From Verif Require Import Outcome StdMap IntegerPermutation Benes BenesFacts BenesRoute.
From Verif Require Import AsWaksman AsWaksmanNet AsWaksmanRoute AsWaksmanValid.
Set Implicit Arguments.
Unset Strict Implicit.
Unset Printing Implicit Defensive.

(** * C25: integer permutations

    Specification (IntegerPermutation.v): [ip_wf p] says that the vector of [p]
    has one entry per element of [min..max], which every constructor
    establishes; [ip_bounds p a b] that [p] is on [a..b]; [ip_at p i] is the
    value at position [i]; [bijection_on a b f]. *)

(** The constructors give the identity; an empty range aborts. *)
Theorem C25_constructors :
  (forall n, [/\ ip_wf (ip_of_size n.+1), ip_bounds (ip_of_size n.+1) 0 n &
     forall i, i <= n -> ip_get (ip_of_size n.+1) i = Ok i]) /\
  (forall a b, a <= b -> exists p, [/\ ip_range a b = Ok p, ip_wf p, ip_bounds p a b &
     forall i, a <= i <= b -> ip_get p i = Ok i]) /\
  (forall a b, b < a -> ip_range a b = AssertFail).
Proof.
split; [|split] => [n|a b h|a b h].
- have [p [-> hw hb ha]] := ip_of_size_ok n; split=> // i hi.
  by rewrite (ip_get_ok hw hb) ?ha.
- have [p [e hw hb ha]] := ip_range_ok h; exists p; split=> // i hi.
  by rewrite (ip_get_ok hw hb) ?ha.
- by rewrite /ip_range leqNgt h.
Qed.
Print Assumptions C25_constructors.

(** Reading and writing: inside the range they do what they say, outside they abort. *)
Theorem C25_get_set (p : int_perm) (a b : nat) : ip_wf p -> ip_bounds p a b ->
  (forall i, a <= i <= b -> ip_get p i = Ok (ip_at p i)) /\
  (forall i v, a <= i <= b -> exists q, [/\ ip_set p i v = Ok q, ip_wf q, ip_bounds q a b &
     forall j, a <= j <= b -> ip_get q j = Ok (if j == i then v else ip_at p j)]) /\
  (forall i v, ~~ (a <= i <= b) -> ip_get p i = AssertFail /\ ip_set p i v = AssertFail).
Proof.
move=> hw hb; split; [|split] => [i hi|i v hi|i v hi].
- exact: (ip_get_ok hw hb hi).
- have [q [h1 h2 h3 h4]] := ip_set_ok v hw hb hi; exists q; split=> // j hj.
  by rewrite (ip_get_ok h2 h3) ?h4.
- by rewrite (ip_get_abort hb hi) (ip_set_abort v hb hi).
Qed.
Print Assumptions C25_get_set.

(** [is_valid] decides whether the entries form a bijection of the range. *)
Theorem C25_is_valid (p : int_perm) (a b : nat) : ip_wf p -> ip_bounds p a b ->
  ip_is_valid p <-> bijection_on a b (ip_at p).
Proof. exact: ip_validP. Qed.
Print Assumptions C25_is_valid.

(** [inverse] of a valid permutation composes with it to the identity on both
    sides, is valid, and inverting again gives the permutation back. *)
Theorem C25_inverse (p : int_perm) (a b : nat) : ip_wf p -> ip_bounds p a b -> ip_is_valid p ->
  exists q, [/\ ip_inverse p = Ok q, ip_is_valid q, ip_inverse q = Ok p, ip_wf q /\ ip_bounds q a b &
    forall i, a <= i <= b -> ip_at q (ip_at p i) = i /\ ip_at p (ip_at q i) = i].
Proof.
move=> hw hb /(ip_validP hw hb) hbij; have [q [h1 h2 h3 h4]] := ip_inverse_ok hw hb hbij.
have [hbq h5] := bijection_inverse hbij h4.
have [r [h6 h7 h8 h9]] := ip_inverse_ok h2 h3 hbq.
exists q; split=> //; first by apply/(ip_validP h2 h3).
  rewrite h6; congr Ok; apply: (ip_ext h7 hw h8 hb) => i hi.
  have hi' : between a b (ip_at p i) by case: hbij => h _ _; exact: h.
  by rewrite -{1}(h4 i hi) h9.
by move=> i hi; split; [exact: h4|exact: h5].
Qed.
Print Assumptions C25_inverse.

(** [slice] restricts to a subrange; when the subrange is mapped to itself the
    slice of a valid permutation is valid; a bad subrange aborts. *)
Theorem C25_slice (p : int_perm) (a b c d : nat) : ip_wf p -> ip_bounds p a b ->
  (a <= c -> c <= d -> d <= b ->
    exists q, [/\ ip_slice p c d = Ok q, ip_wf q, ip_bounds q c d,
      forall i, c <= i <= d -> ip_at q i = ip_at p i &
      ip_is_valid p -> (forall i, c <= i <= d -> c <= ip_at p i <= d) -> ip_is_valid q]) /\
  (~~ [&& a <= c, c <= d & d <= b] -> ip_slice p c d = AssertFail).
Proof.
move=> hw hb; split=> [h1 h2 h3|h].
  have [q [e1 e2 e3 e4]] := ip_slice_ok hw hb h1 h2 h3; exists q; split=> //.
  move=> /(ip_validP hw hb) [_ hi _] hr; apply/(ip_validP e2 e3).
  have sub i : between c d i -> between a b i by rewrite /between; lia.
  have inj : {in iota c (d - c + 1) &, injective (ip_at p)}.
    by move=> i j; rewrite !mem_betw // => hi1 hj1 e; apply: hi => //; exact: sub.
  split=> [i hi1|i j hi1 hj1|j hj1].
  - by rewrite e4 //; apply: hr.
  - by rewrite !e4 // => e; apply: hi e; exact: sub.
  - have ss : {subset map (ip_at p) (iota c (d - c + 1)) <= iota c (d - c + 1)}.
      by move=> y /mapP [x]; rewrite !mem_betw // => hx ->; apply: hr.
    have [||_ em] := uniq_min_size (s2 := iota c (d - c + 1)) _ ss.
    + by rewrite map_inj_in_uniq ?iota_uniq.
    + by rewrite size_map.
    have : j \in iota c (d - c + 1) by rewrite mem_betw.
    by rewrite -em => /mapP [x]; rewrite mem_betw // => hx ->; exists x; rewrite ?e4.
rewrite /ip_slice /ip_has; case: hb => -> ->.
by case: (leqP a c) h => //= h4; case: (leqP c d) => //= h5 /negbTE->; rewrite andbF.
Qed.
Print Assumptions C25_slice.

(** Non-vacuity: a rotation of 2..4 is valid, a constant map is not; slicing. *)
Definition ip_rot : int_perm := IntPerm [:: 3; 4; 2] 2 (Some 4).
Example C25_ex1 : [/\ ip_wf ip_rot, ip_bounds ip_rot 2 4 & ip_is_valid ip_rot]. Proof. by []. Qed.
Example C25_ex2 : ip_inverse ip_rot = Ok (IntPerm [:: 4; 2; 3] 2 (Some 4)). Proof. by []. Qed.
Example C25_ex3 : ip_is_valid (IntPerm [:: 3; 3; 2] 2 (Some 4)) = false. Proof. by []. Qed.
Example C25_ex4 : ip_slice (IntPerm [:: 1; 0; 3; 2] 0 (Some 3)) 2 3 = Ok (IntPerm [:: 3; 2] 2 (Some 3)).
Proof. by []. Qed.

(** * C26: Benes networks

    Specification (Benes.v): [benes_follow topology routing 0 n i] is the row
    reached by a packet that enters at row [i] and takes, in each of [n]
    columns, the straight or the cross edge of the topology according to the
    bit the routing holds for its position. *)

(** The topology: column [c] has a straight edge and one to the row that differs
    in one bit, the same bit for all rows of the column; it takes 2d columns. *)
Theorem C26_topology (d : nat) : exists topology,
  [/\ benes_topology (2 ^ d) = Ok topology, size topology = 2 * d &
    forall c x, c < 2 * d -> x < 2 ^ d ->
      let e := nth (0, 0) (nth [::] topology c) x in
      [/\ size (nth [::] topology c) = 2 ^ d, e.1 = x,
          e.2 = Nat.lxor x (2 ^ (if c < d then d - 1 - c else c - d)) & e.2 < 2 ^ d]].
Proof.
exists (btop d); rewrite benes_topologyE; split=> //; first by rewrite size_map size_iota.
move=> c x hc hx /=; rewrite (nth_map 0) ?size_iota // (nth_map 0) ?size_map ?size_iota //.
rewrite !nth_iota // !add0n /=; split=> //; last exact: cross_lt.
by rewrite /benes_cross_dest /benes_mask; case: ifP.
Qed.
Print Assumptions C26_topology.

(** The computed routing takes every packet to its destination, for every
    dimension and every valid permutation. *)
Theorem C26_routing_realises_every_permutation (d : nat) (p : int_perm) :
  ip_wf p -> ip_bounds p 0 (2 ^ d - 1) -> ip_is_valid p ->
  exists topology routing,
    [/\ benes_topology (2 ^ d) = Ok topology, get_benes_routing p = Ok routing,
        size routing = 2 * d, forall c, c < 2 * d -> size (nth [::] routing c) = 2 ^ d &
        forall i, i < 2 ^ d -> benes_follow topology routing 0 (2 * d) i = ip_at p i].
Proof.
move=> hw hb /(ip_validP hw hb) hbij; have [rt [e [h1 h2] h3]] := get_benes_routing_ok hw hb hbij.
exists (btop d), rt; rewrite benes_topologyE; split=> // i hi.
by rewrite benes_followE ?h3.
Qed.
Print Assumptions C26_routing_realises_every_permutation.

(** A number of packets that is not a power of two aborts. *)
Theorem C26_other_sizes_abort (p : int_perm) (n : nat) : ip_wf p -> ip_size p = n -> (forall d, n <> 2 ^ d) ->
  [/\ benes_topology n = AssertFail, get_benes_routing p = AssertFail &
    forall rt, valid_benes_routing p rt = AssertFail].
Proof.
move=> hw hs h; rewrite /benes_topology /get_benes_routing /valid_benes_routing hs.
by rewrite !benes_num_columns_abort.
Qed.
Print Assumptions C26_other_sizes_abort.

(** The validity check, on routings of the right shape: it accepts every routing
    that takes each packet to its destination; it accepts no routing that takes
    some packet other than packet 0 elsewhere; and on routings that send no two
    packets to the same row it is exact. *)
Theorem C26_validity_check (d : nat) (p : int_perm) (topology : seq (seq (nat * nat))) (routing : benes_routing) :
  ip_wf p -> ip_bounds p 0 (2 ^ d - 1) -> ip_is_valid p ->
  benes_topology (2 ^ d) = Ok topology ->
  size routing = 2 * d -> (forall c, c < 2 * d -> size (nth [::] routing c) = 2 ^ d) ->
  let arrives i := benes_follow topology routing 0 (2 * d) i in
  exists b, [/\ valid_benes_routing p routing = Ok b,
    (forall i, i < 2 ^ d -> arrives i = ip_at p i) -> b,
    b -> forall i, 0 < i < 2 ^ d -> arrives i = ip_at p i &
    (forall i j, i < 2 ^ d -> j < 2 ^ d -> arrives i = arrives j -> i = j) ->
      b <-> forall i, i < 2 ^ d -> arrives i = ip_at p i].
Proof.
move=> hw hb /(ip_validP hw hb) hbij; rewrite benes_topologyE => -[<-] h1 h2 arrives.
have hr : rshape routing (2 * d) (2 ^ d) by [].
have [res [e1 e2 e3]] := valid_benesE hw hb hbij hr.
have [res' [e1' _ g1 g2]] := route_by_benes_ok hr.
have {e1'} ? : res' = res by move: e1'; rewrite e1 => -[].
subst res'; have d0 : 0 < 2 ^ d by rewrite expn_gt0.
have fE i : i < 2 ^ d -> bfollow d routing 0 (2 * d) i = arrives i by move=> hi; rewrite /arrives benes_followE.
have bt i : i < 2 ^ d -> between 0 (2 ^ d - 1) i by rewrite /between; lia.
have [hr1 hr2 hr3] := hbij.
set b := all _ _ in e3.
have P1 : (forall i, i < 2 ^ d -> arrives i = ip_at p i) -> b.
  move=> h; apply/allP => x; rewrite mem_iota /= => hx; apply/eqP.
  rewrite -h // -fE // g2 // => i j hi hj; rewrite !fE // !h // => e.
  by apply: hr2 e; apply: bt.
have P2 : b -> forall i, 0 < i < 2 ^ d -> arrives i = ip_at p i.
  move=> /allP hall i /andP [i0 hi].
  have /eqP ei : nth 0 res (ip_at p i) == i by apply: hall; rewrite mem_iota.
  have [|_] := g1 (ip_at p i); first by rewrite ei; lia.
  by rewrite ei fE.
exists b; split=> // hinj; split=> //.
move=> hb1 [|i] hi; last exact: P2.
have har : between 0 (2 ^ d - 1) (arrives 0).
  by rewrite -fE //; have := @follow_lt d routing 0 (2 * d) 0 (leqnn _) d0; rewrite /between; lia.
have [[|j] hj ej] := hr3 _ har; first by [].
have hj' : j.+1 < 2 ^ d by move: hj; rewrite /between; lia.
by rewrite -P2 // in ej; have := hinj _ _ hj' d0 ej.
Qed.
Print Assumptions C26_validity_check.

(** ... but it is not exact in general: vectors that receive no packet keep the
    value 0, so a routing that sends packet 0 to the wrong row, on top of
    another packet, can be accepted. *)
Theorem C26_validity_check_exact_refuted : ~ forall (d : nat) (p : int_perm) topology (routing : benes_routing),
  ip_wf p -> ip_bounds p 0 (2 ^ d - 1) -> ip_is_valid p ->
  benes_topology (2 ^ d) = Ok topology ->
  size routing = 2 * d -> (forall c, c < 2 * d -> size (nth [::] routing c) = 2 ^ d) ->
  valid_benes_routing p routing = Ok true ->
  forall i, i < 2 ^ d -> benes_follow topology routing 0 (2 * d) i = ip_at p i.
Proof.
move=> h.
have := h 1 (ip_of_size 2) [:: [:: (0, 1); (1, 0)]; [:: (0, 1); (1, 0)]] [:: [:: true; false]; [:: false; false]].
by move=> /(_ _ _ _ _ _ _ _ 0 isT) H; discriminate H => //; case=> [|[]].
Qed.
Print Assumptions C26_validity_check_exact_refuted.

(** Non-vacuity: the routing of a reversal of four packets. *)
Definition ip_rev4 : int_perm := IntPerm [:: 3; 2; 1; 0] 0 (Some 3).
Example C26_ex1 : [/\ ip_wf ip_rev4, ip_bounds ip_rev4 0 (2 ^ 2 - 1) & ip_is_valid ip_rev4]. Proof. by []. Qed.
Example C26_ex2 : (let! rt := get_benes_routing ip_rev4 in
  let! t := benes_topology 4 in
  let! b := valid_benes_routing ip_rev4 rt in
  Ok (b && ([seq benes_follow t rt 0 4 i | i <- iota 0 4] == [:: 3; 2; 1; 0]))) = Ok true.
Proof. by vm_compute. Qed.
Example C26_ex3 : forall d, 3 <> 2 ^ d.
Proof. by case=> [|[|d]] //; rewrite !expnS => h; lia. Qed.

(** * C27: AS-Waksman networks

    Specification (AsWaksman.v): [aw_edges t c x] are the straight and the cross
    edge of position [x] in column [c]; [aw_switch_at t c x] says that [x] is the
    upper end of a switch; [aw_bit r c x] is the entry of a routing for a
    position, if there is one; [aw_follow t r c n x] is the row reached after [n]
    columns, where a switch is crossed when the entry at its upper end is [true].
    [unset] is the filler that the code writes before filling a vector: nothing
    depends on it. *)

(** The topology, for every number of packets: 2 ceil(log2 n) - 1 columns, in each
    of which the straight edges permute the rows and every position is a wire
    or belongs to exactly one switch. *)
Theorem C27_topology (unset n : nat) : 1 < n -> exists t,
  [/\ aw_generate unset n = Ok t, size t = 2 * ceil_log2 n - 1 &
    forall c, c < 2 * ceil_log2 n - 1 ->
      [/\ size (nth [::] t c) = n, forall x, x < n -> (aw_edges t c x).1 < n /\ (aw_edges t c x).2 < n,
          forall x y, x < n -> y < n -> (aw_edges t c x).1 = (aw_edges t c y).1 -> x = y &
          forall x, x < n -> (aw_edges t c x).1 <> (aw_edges t c x).2 ->
            (aw_switch_at t c x && (x.+1 < n)) (+) ((0 < x) && aw_switch_at t c x.-1)]].
Proof.
move=> hn; have [t [e hs hnet]] := generate_ok unset hn; exists t.
have ew : aw_num_columns n = 2 * ceil_log2 n - 1 by rewrite /aw_num_columns hn.
case: (hs) => h1 h2; rewrite -ew; split=> // c hc.
have [_ hlt] := whole_cols hn hnet hc.
split; first exact: h2.
- move=> x hx; split; first exact: hlt.
  case: (whole_row hn hnet hc hx) => [<-|[_ k1 k2]|[_ k1 k2]]; first exact: hlt.
    by have := hlt _ k1; rewrite k2.
  by have := hlt x.-1; rewrite k2; apply; lia.
- by move=> x y hx hy; apply: (whole_inj hn hnet hc).
- move=> x hx ne; case: (row_switch hn hs hnet [::] hc hx ne) => -[s1 [k1 _ s2]].
    rewrite s1 k1 /=; case: (boolP (0 < x)) => //= x0.
    have hx' : x.-1 < n by lia.
    apply/negP => s3; have ne' : (aw_edges t c x.-1).1 <> (aw_edges t c x.-1).2 by case/andP: s3 => /eqP.
    case: (row_switch hn hs hnet [::] hc hx' ne') => [[_ [_ _]]|[]]; last by rewrite s3.
    by rewrite prednK // s1.
  by rewrite s1 s2 k1.
Qed.
Print Assumptions C27_topology.

(** The computed routing sets exactly the switches of the topology and takes
    every packet to its destination, for every number of packets from two on and
    every valid permutation. *)
Theorem C27_routing_realises_every_permutation (unset n : nat) (p : int_perm) :
  1 < n -> ip_wf p -> ip_bounds p 0 (n - 1) -> ip_is_valid p ->
  exists t rt,
    [/\ aw_generate unset n = Ok t, get_as_waksman_routing p = Ok rt, size rt = 2 * ceil_log2 n - 1,
        forall c x, c < 2 * ceil_log2 n - 1 -> isSome (aw_bit rt c x) = (x < n) && aw_switch_at t c x &
        forall x, x < n -> aw_follow t rt 0 (2 * ceil_log2 n - 1) x = ip_at p x].
Proof.
move=> hn hw hb /(ip_validP hw hb) hbij; have [t [e hs hnet]] := generate_ok unset hn.
have ew : aw_num_columns n = 2 * ceil_log2 n - 1 by rewrite /aw_num_columns hn.
have [rt [e1 s1 k1 k2 f1]] := get_routing_ok hn hs hnet hw hb hbij.
rewrite -ew; exists t, rt; split=> // c x hc; case: (ltnP x n) => hx /=; first exact: k1.
by rewrite k2.
Qed.
Print Assumptions C27_routing_realises_every_permutation.

(** The validity check is exact on routings that set exactly the switches. *)
Theorem C27_validity_check_exact (unset n : nat) (p : int_perm) (t : aw_topology) (rt : aw_routing) :
  1 < n -> ip_wf p -> ip_bounds p 0 (n - 1) -> ip_is_valid p ->
  aw_generate unset n = Ok t -> size rt = 2 * ceil_log2 n - 1 ->
  (forall c x, c < 2 * ceil_log2 n - 1 -> x < n -> isSome (aw_bit rt c x) = aw_switch_at t c x) ->
  exists b, valid_as_waksman_routing unset p rt = Ok b /\
    (b <-> forall x, x < n -> aw_follow t rt 0 (2 * ceil_log2 n - 1) x = ip_at p x).
Proof.
move=> hn hw hb /(ip_validP hw hb) hbij hg.
have ew : aw_num_columns n = 2 * ceil_log2 n - 1 by rewrite /aw_num_columns hn.
rewrite -ew => h1 h2; have [t' [e hs hnet]] := generate_ok unset hn.
have {e} ? : t' = t by move: e; rewrite hg => -[].
by subst t'; apply: (validE hn hs hnet h1 h2 hg hw hb hbij).
Qed.
Print Assumptions C27_validity_check_exact.

(** The computed routing passes the check. *)
Theorem C27_computed_routing_accepted (unset n : nat) (p : int_perm) :
  1 < n -> ip_wf p -> ip_bounds p 0 (n - 1) -> ip_is_valid p ->
  exists rt, get_as_waksman_routing p = Ok rt /\ valid_as_waksman_routing unset p rt = Ok true.
Proof.
move=> hn hw hb hv; have [t [rt [e1 e2 e3 e4 e5]]] := C27_routing_realises_every_permutation unset hn hw hb hv.
exists rt; split=> //.
have [|b [-> hb']] := C27_validity_check_exact hn hw hb hv e1 e3; first by move=> c x hc hx; rewrite e4 // hx.
by congr Ok; apply/idP/hb'.
Qed.
Print Assumptions C27_computed_routing_accepted.

(** With fewer than two packets the topology and the check abort, and the routing
    of a single packet reads past the end of an empty vector. *)
Theorem C27_fewer_than_two (unset n : nat) : n < 2 ->
  [/\ aw_generate unset n = AssertFail,
      forall p rt, ip_size p = n -> valid_as_waksman_routing unset p rt = AssertFail &
      forall p rt, ip_size p = n -> get_as_waksman_routing p <> Ok rt].
Proof.
move=> hn; have g : aw_generate unset n = AssertFail by rewrite /aw_generate ltnNge -ltnS hn.
split=> // p rt hs; first by rewrite /valid_as_waksman_routing hs g.
rewrite /get_as_waksman_routing hs; case: (ip_inverse p) => [q||] //.
by rewrite /aw_num_columns ltnNge -ltnS hn.
Qed.
Print Assumptions C27_fewer_than_two.

(** Non-vacuity: five packets (an odd number, three columns deep inside). *)
Definition ip_five : int_perm := IntPerm [:: 3; 0; 4; 2; 1] 0 (Some 4).
Example C27_ex1 : [/\ ip_wf ip_five, ip_bounds ip_five 0 (5 - 1) & ip_is_valid ip_five]. Proof. by []. Qed.
Example C27_ex2 : (let! rt := get_as_waksman_routing ip_five in
  let! t := aw_generate 77 5 in
  let! b := valid_as_waksman_routing 77 ip_five rt in
  Ok [&& b, [seq aw_follow t rt 0 5 i | i <- iota 0 5] == [:: 3; 0; 4; 2; 1],
      aw_switch_at t 0 0 & ~~ aw_switch_at t 0 4]) = Ok true.
Proof. by vm_compute. Qed.
