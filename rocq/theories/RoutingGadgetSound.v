(** Soundness of the routing gadgets (for C36).  Models nothing of /repo. *)
From mathcomp Require Import all_ssreflect all_algebra zify.
From Verif Require Import Outcome StdMap Lincomb LincombSpec LincombFacts R1CS R1CSSpec R1CSFacts Fieldtac.
From Verif Require Import Protoboard GadgetSpec GadgetLogic BasicGadgets BasicGadgetsFacts BasicGadgetsMore.
From Verif Require Import BasicGadgetsCopy GadgetNew GadgetSeq Sha256Gadget Knapsack MerkleSound.
From Verif Require Import IntegerPermutation Benes AsWaksman Prop_Routing RoutingGadget RoutingGadgetFacts.
Set Implicit Arguments.
Unset Strict Implicit.
Unset Printing Implicit Defensive.
Local Open Scope ring_scope.
Import GRing.Theory.

(** ** Columns of values *)
Section Perm.
Variable T : eqType.
Local Open Scope nat_scope.
Variable n : nat.
Lemma perm_step (u v : nat -> T) (E : nat -> nat * nat) :
  (forall x, x < n -> (E x).1 < n /\ (E x).2 < n) ->
  (forall x, x < n -> u x = v (E x).1 \/ u x = v (E x).2) ->
  uniq [seq u x | x <- iota 0 n] -> perm_eq [seq v x | x <- iota 0 n] [seq u x | x <- iota 0 n].
Proof.
move=> hE h hu.
have hs : {subset [seq u x | x <- iota 0 n] <= [seq v x | x <- iota 0 n]}.
  move=> a /mapP [x]; rewrite mem_iota /= => hx ->; have [h1 h2] := hE x hx.
  by case: (h x hx) => ->; apply: map_f; rewrite mem_iota.
have sz : size [seq v x | x <- iota 0 n] <= size [seq u x | x <- iota 0 n] by rewrite !size_map.
have [_ em] := uniq_min_size hu hs sz.
by apply: uniq_perm; [exact: leq_size_uniq hu hs sz|exact: hu|move=> a; rewrite em].
Qed.
Lemma perm_columns (u : nat -> nat -> T) (E : nat -> nat -> nat * nat) nc :
  (forall c x, c < nc -> x < n -> (E c x).1 < n /\ (E c x).2 < n) ->
  (forall c x, c < nc -> x < n -> u c x = u c.+1 (E c x).1 \/ u c x = u c.+1 (E c x).2) ->
  uniq [seq u 0 x | x <- iota 0 n] -> perm_eq [seq u nc x | x <- iota 0 n] [seq u 0 x | x <- iota 0 n].
Proof.
elim: nc => [|nc IH] hE h hu //.
have hp : perm_eq [seq u nc x | x <- iota 0 n] [seq u 0 x | x <- iota 0 n].
  by apply: IH => // c x hc; [apply: hE|apply: h]; apply: ltnW.
apply: (perm_trans _ hp); apply: (@perm_step _ _ (E nc)); [by move=> x; exact: (hE nc x (ltnSn _))|by move=> x; exact: (h nc x (ltnSn _))|].
by rewrite (perm_uniq hp).
Qed.
(** When the rows of each column are moved by an injection, no distinctness is needed. *)
Lemma perm_columns_inj (u : nat -> nat -> T) (f : nat -> nat -> nat) nc :
  (forall c x, c < nc -> x < n -> f c x < n) ->
  (forall c x y, c < nc -> x < n -> y < n -> f c x = f c y -> x = y) ->
  (forall c x, c < nc -> x < n -> u c x = u c.+1 (f c x)) ->
  perm_eq [seq u nc x | x <- iota 0 n] [seq u 0 x | x <- iota 0 n].
Proof.
elim: nc => [|nc IH] hf hi h //.
have hp : perm_eq [seq u nc x | x <- iota 0 n] [seq u 0 x | x <- iota 0 n].
  apply: IH => [c x hc|c x y hc|c x hc]; [apply: hf|apply: hi|apply: h]; exact: ltnW.
apply: (perm_trans _ hp); rewrite perm_sym.
have -> : [seq u nc x | x <- iota 0 n] = [seq u nc.+1 y | y <- [seq f nc x | x <- iota 0 n]].
  by rewrite -map_comp; apply/eq_in_map => x; rewrite mem_iota => hx /=; exact: (h nc x (ltnSn _) hx).
apply: perm_map.
have hu : uniq [seq f nc x | x <- iota 0 n].
  apply/map_uniqP; first exact: iota_uniq.
  by move=> x y; rewrite !mem_iota /= => hx hy; exact: (hi nc x y (ltnSn _) hx hy).
have hs : {subset [seq f nc x | x <- iota 0 n] <= iota 0 n}.
  by move=> a /mapP [x]; rewrite mem_iota /= => hx ->; rewrite mem_iota /=; exact: (hf nc x (ltnSn _) hx).
have [|_ em] := uniq_min_size hu hs; first by rewrite size_map.
by apply: uniq_perm => //; exact: iota_uniq.
Qed.
(** Undoing a function that is injective on the members. *)
Lemma perm_unmap (S : eqType) (f : S -> T) (s t : seq S) :
  (forall a b, a \in s ++ t -> b \in s ++ t -> f a = f b -> a = b) ->
  perm_eq (map f s) (map f t) -> perm_eq s t.
Proof.
case es: (s ++ t) => [|d st] hi; first by move: es; case: s hi => [|? ?] //; case: t.
pose q v := nth d (d :: st) (index v (map f (d :: st))).
have hq a : a \in s ++ t -> q (f a) = a.
  rewrite es => ha; have hf : f a \in map f (d :: st) by exact: map_f.
  have hx : index (f a) (map f (d :: st)) < size (d :: st) by rewrite -(size_map f) index_mem.
  apply: hi => //; first by rewrite mem_nth.
  by rewrite /q -(nth_map d (f d)) // nth_index.
have hm (r : seq S) : {subset r <= s ++ t} -> map q (map f r) = r.
  by move=> hr; rewrite -map_comp -[RHS]map_id; apply/eq_in_map => a /hr /hq.
move=> /(perm_map q); rewrite !hm // => a ha; rewrite mem_cat ha ?orbT //.
Qed.
End Perm.

(** ** Crossing switches is an injection *)
Section Cross.
Local Open Scope nat_scope.
Variables (n : nat) (edges : seq (nat * nat)) (bit : nat -> bool).
Hypothesis hok : column_ok n edges.
Let E x := nth (0, 0) edges x.
Definition swap_row x := if is_top n edges x then (if bit x then x.+1 else x)
  else if is_bottom n edges x then (if bit x.-1 then x.-1 else x) else x.
Definition move_row x := if is_top n edges x then (if bit x then (E x).2 else (E x).1)
  else if is_bottom n edges x then (if bit x.-1 then (E x).2 else (E x).1) else (E x).1.
Lemma swap_lt x : x < n -> swap_row x < n.
Proof. by move=> hx; rewrite /swap_row; case: ifP => [/top_lt h|_]; case: ifP => // _; [case: ifP => // _; lia]. Qed.
Lemma swapK x : x < n -> swap_row (swap_row x) = x.
Proof.
move=> hx; rewrite {2}/swap_row; case ht: (is_top n edges x).
  case b: (bit x); last by rewrite /swap_row ht b.
  rewrite /swap_row; have hb : is_bottom n edges x.+1 by rewrite /is_bottom /= ht.
  by rewrite ifN ?hb /= ?b //; apply/negP => /(not_both hok (top_lt ht)); rewrite hb.
case hb: (is_bottom n edges x); last by rewrite /swap_row ht hb.
case b: (bit x.-1); last by rewrite /swap_row ht hb b.
by case/andP: hb => h0 ht'; rewrite /swap_row ht' b prednK.
Qed.
Lemma moveE x : x < n -> move_row x = (E (swap_row x)).1.
Proof.
move=> hx; rewrite /move_row /swap_row; case ht: (is_top n edges x).
  by case: (bit x) => //; rewrite /E (top_next ht).
case hb: (is_bottom n edges x) => //; case/andP: hb => h0 ht'.
by case: (bit x.-1) => //; rewrite /E -{1}(prednK h0) (top_next ht').
Qed.
Lemma move_lt x : x < n -> move_row x < n.
Proof. by move=> hx; rewrite moveE //; case: (co_lt hok (swap_lt hx)). Qed.
Lemma move_inj x y : x < n -> y < n -> move_row x = move_row y -> x = y.
Proof.
move=> hx hy; rewrite !moveE // => /(co_inj hok (swap_lt hx) (swap_lt hy)) e.
by rewrite -(swapK hx) -(swapK hy) e.
Qed.
End Cross.

Lemma map_nth_iota (T S : Type) (d : T) (f : T -> S) (s : seq T) m : size s = m -> [seq f (nth d s i) | i <- iota 0 m] = map f s.
Proof.
move=> <-; have -> : [seq f (nth d s i) | i <- iota 0 (size s)] = map f [seq nth d s i | i <- iota 0 (size s)].
  by rewrite -map_comp.
by congr map; apply: (@eq_from_nth _ d); rewrite size_map size_iota // => i hi; rewrite (nth_map 0%N) ?size_iota // nth_iota.
Qed.

Section Sound.
Variable F : fieldType.
Variable R : bigint_repr F.
Add Field Ff : (Fth F).
Implicit Types (x : seq F).

(** The field elements a packet is packed into. *)
Definition packed_of (bits : seq F) : seq F := map (@pack F) (chunks bits (capacity R)).
Lemma packed_inj a b : (0 < capacity R)%N -> size a = size b -> all (@isbit F) a -> all (@isbit F) b ->
  packed_of a = packed_of b -> a = b.
Proof.
move=> hc hs ha hb e.
have -> : a = flatten (chunks a (capacity R)) by rewrite chunks_flatten.
have -> : b = flatten (chunks b (capacity R)) by rewrite chunks_flatten.
congr flatten; have es : size (chunks a (capacity R)) = size (chunks b (capacity R)) by rewrite !size_chunks hs.
apply: (@eq_from_nth _ [::]) => // i hi.
have hi' : (i < div_ceil (size a) (capacity R))%N by rewrite -size_chunks.
have na (s : seq F) : size s = size a -> nth [::] (chunks s (capacity R)) i = chunk_slice s (capacity R) i.
  by move=> h; rewrite /chunks (nth_map 0%N) ?size_iota ?h // nth_iota.
have := congr1 (fun s => nth 0 s i) e; rewrite /packed_of !(nth_map [::]) -?es // !na //.
have ssl (s : seq F) : all (@isbit F) s -> all (@isbit F) (chunk_slice s (capacity R) i).
  move=> /allP h; apply/allP => v hv; apply: h.
  by apply/GadgetLogic.In_mem; apply: (@chunk_slice_In _ _ (capacity R) i); apply/GadgetLogic.In_mem.
have ssz : size (chunk_slice a (capacity R) i) = size (chunk_slice b (capacity R) i).
  by rewrite /chunk_slice !size_drop !size_take hs.
apply: (pack_inj (R := R)) => //; try exact: ssl.
apply: leq_trans (capacity_lt R); rewrite leq_exp2l //.
rewrite /chunk_slice size_drop size_takel ?geq_minr // mulSn; move: (capacity R) (i * _)%N (size a); clear; lia.
Qed.

Lemma map_lval x vs : map (lval x) (plcs_of_vars F vs) = map (xval x) vs.
Proof. by rewrite /plcs_of_vars -map_comp; apply: eq_map => v /=; rewrite lval_var. Qed.
Lemma packs_sat x (bits packed : seq nat) m e :
  multipacking_new (plcs_of_vars F bits) (plcs_of_vars F packed) (capacity R) = Ok m ->
  holds (multipacking_constraints m e) x <->
  map (xval x) packed = packed_of (map (xval x) bits) /\ (e -> all (@isbit F) (map (xval x) bits)).
Proof.
move=> hm; rewrite (multipackingE e x hm).
have [hc hs _] := multipacking_new_zip hm.
rewrite /plcs_of_vars !size_map in hs *.
have -> : all (fun b => isbit (lval x b)) [seq plc_of_var F v | v <- bits] = all (@isbit F) (map (xval x) bits).
  by rewrite !all_map; apply: eq_all => v /=; rewrite lval_var.
suff -> : (forall i, (i < div_ceil (size bits) (capacity R))%N ->
   lval x (lc_nth [seq plc_of_var F v | v <- packed] i) =
   pack (map (lval x) (chunk_slice [seq plc_of_var F v | v <- bits] (capacity R) i))) <->
  map (xval x) packed = packed_of (map (xval x) bits) by [].
have hn i : (i < size packed)%N -> lval x (lc_nth [seq plc_of_var F v | v <- packed] i) = xval x (nth 0%N packed i).
  by move=> hi; rewrite /lc_nth (nth_map 0%N) // lval_var.
have hr i : map (lval x) (chunk_slice [seq plc_of_var F v | v <- bits] (capacity R) i) =
    chunk_slice (map (xval x) bits) (capacity R) i.
  by rewrite -chunk_slice_map -map_comp; congr chunk_slice; apply: eq_map => v /=; rewrite lval_var.
have hp i : (i < size packed)%N -> nth 0 (packed_of (map (xval x) bits)) i = pack (chunk_slice (map (xval x) bits) (capacity R) i).
  move=> hi; rewrite /packed_of (nth_map [::]) ?size_chunks ?size_map -?hs //.
  by rewrite /chunks (nth_map 0%N) ?size_iota ?size_map -?hs // nth_iota -?hs.
split=> h.
  apply: (@eq_from_nth _ 0); first by rewrite size_map /packed_of (size_map (@pack F)) size_chunks size_map.
  by move=> i; rewrite size_map => hi; rewrite (nth_map 0%N) // hp // -hn // h -?hs // hr.
move=> i; rewrite -hs => hi; rewrite hn // hr -hp // -h (nth_map 0%N) //.
Qed.

(** ** Rows *)
Section Rows.
Variables (pb0 pb1 : protoboard F) (n nc k l : nat) (t : seq (seq (nat * nat))) (sw : nat -> nat -> bool) (wires : bool).
Variables (inputs outputs : seq pb_variable_array) (g : routing_gadget F).
Hypothesis hb : built R pb0 pb1 n nc k l t sw wires inputs outputs g.
Variable x : seq F.
Let U c y := map (xval x) (rg_packet g c y).

Lemma bu_size c y : (c <= nc)%N -> (y < n)%N -> size (rg_packet g c y) = k.
Proof.
move=> hc hy; have [||val [_ h _]] := bu_val hb (fun=> 0) (pay := fun _ _ => nseq k 0) (fun _ _ => 0).
- by move=> *; rewrite size_nseq.
- by [].
by case: (h c y hc hy) => -[].
Qed.
Lemma easy_routeE c r : constraint_holds (easy_route g c r) x <->
  xval x (rg_sub g c r 0) = xval x (rg_sub g c.+1 (rg_edges g c r).1 0) \/
  xval x (rg_sub g c r 0) = xval x (rg_sub g c.+1 (rg_edges g c r).2 0).
Proof.
rewrite /easy_route /constraint_holds /= !fsE; split.
  by move/eqP; rewrite mulf_eq0 !subr_eq0 => /orP [/eqP|/eqP]; [left|right].
by case=> ->; rewrite subrr ?mulr0 ?mul0r.
Qed.
Lemma route_forwardE bit c r sub : constraint_holds (route_forward g bit c r sub) x <->
  xval x bit * (xval x (rg_sub g c.+1 (rg_edges g c r).2 sub) - xval x (rg_sub g c.+1 (rg_edges g c r).1 sub)) =
  xval x (rg_sub g c r sub) - xval x (rg_sub g c.+1 (rg_edges g c r).1 sub).
Proof. by rewrite /route_forward /constraint_holds /= !fsE. Qed.

Lemma packet_eq c r c' r' : (c <= nc)%N -> (r < n)%N -> (c' <= nc)%N -> (r' < n)%N ->
  (forall sub, (sub < k)%N -> xval x (rg_sub g c r sub) = xval x (rg_sub g c' r' sub)) -> U c r = U c' r'.
Proof.
move=> hc hr hc' hr' h; apply: (@eq_from_nth _ 0); first by rewrite /U !size_map !bu_size.
move=> i; rewrite /U size_map bu_size // => hi.
by rewrite !(nth_map 0%N) ?bu_size //; apply: h.
Qed.
Lemma easy_packet c r : (c < nc)%N -> (r < n)%N -> ((rg_edges g c r).1 < n)%N -> ((rg_edges g c r).2 < n)%N -> k = 1%N ->
  constraint_holds (easy_route g c r) x -> U c r = U c.+1 (rg_edges g c r).1 \/ U c r = U c.+1 (rg_edges g c r).2.
Proof.
move=> hc hr h1 h2 hk /easy_routeE [] e; [left|right]; apply: packet_eq => //; try exact: ltnW.
  by rewrite hk => -[].
by rewrite hk => -[].
Qed.
Lemma route_packet bit c r : (c < nc)%N -> (r < n)%N -> ((rg_edges g c r).1 < n)%N -> ((rg_edges g c r).2 < n)%N ->
  isbit (xval x bit) -> (forall sub, (sub < k)%N -> constraint_holds (route_forward g bit c r sub) x) ->
  U c r = U c.+1 (if xval x bit == 1 then (rg_edges g c r).2 else (rg_edges g c r).1).
Proof.
move=> hc hr h1 h2 hbit h; apply: packet_eq => //; [exact: ltnW|by case: ifP|].
move=> sub /h /route_forwardE; case/orP: hbit => /eqP ->.
  by rewrite mul0r eq_sym oner_eq0 => /esym /eqP; rewrite subr_eq0 => /eqP.
by rewrite mul1r eqxx => /addIr.
Qed.

Lemma packed_column e c (bits : seq pb_variable_array) m ps : packs R bits (nth [::] (rg_packets g) c) m ps ->
  (forall i, (i < m)%N -> holds (multipacking_constraints (nth [::] ps i) e) x) ->
  forall i, (i < m)%N -> U c i = packed_of (map (xval x) (nth [::] bits i)) /\ (e -> all (@isbit F) (map (xval x) (nth [::] bits i))).
Proof.
case=> _ hp h i hi; have := h i hi; rewrite (packs_sat x e (hp i hi)).
by [].
Qed.
End Rows.

Lemma bit_constraintE b x : constraint_holds (boolean_constraint (lc_terms (plc_of_var F b))) x <-> isbit (xval x b).
Proof. by rewrite boolean_constraintE -/(lval x (plc_of_var F b)) lval_var. Qed.
Section Theorems.
Hypothesis hcap : (0 < capacity R)%N.
Let vals x (vs : seq pb_variable_array) : seq (seq F) := map (map (xval x)) vs.

(** From the packed values back to the bits. *)
Lemma unpack_perm s x (ins outs : seq pb_variable_array) :
  all (fun v : pb_variable_array => size v == s) ins -> all (fun v : pb_variable_array => size v == s) outs ->
  all (all (@isbit F)) (vals x ins) -> all (all (@isbit F)) (vals x outs) ->
  perm_eq (map packed_of (vals x outs)) (map packed_of (vals x ins)) -> perm_eq (vals x outs) (vals x ins).
Proof.
move=> si so bi bo; apply: perm_unmap => a b; rewrite -map_cat => ha hb'; apply: packed_inj => //.
- have hs c : c \in [seq map (xval x) v | v <- outs ++ ins] -> size c = s.
    case/mapP => v hv ->; rewrite size_map; apply/eqP; move: v hv.
    by apply/allP; rewrite all_cat so.
  by rewrite (hs _ ha) (hs _ hb').
- by apply: (allP _ _ ha); rewrite map_cat all_cat bo.
- by apply: (allP _ _ hb'); rewrite map_cat all_cat bo.
Qed.
Lemma uniq_packed s x (ins : seq pb_variable_array) : all (fun v : pb_variable_array => size v == s) ins ->
  all (all (@isbit F)) (vals x ins) -> uniq (vals x ins) -> uniq (map packed_of (vals x ins)).
Proof.
move=> si bi hu; rewrite map_inj_in_uniq // => a b ha hb'; apply: packed_inj => //.
- have hs c : c \in vals x ins -> size c = s.
    by case/mapP => v hv ->; rewrite size_map; apply/eqP; apply: (allP si).
  by rewrite (hs _ ha) (hs _ hb').
- exact: (allP bi).
- exact: (allP bi).
Qed.

Lemma asw_sound unset pb0 n s (inputs outputs : seq pb_variable_array) g pb1 x :
  (1 < n)%N -> (0 < s)%N -> pb_wf pb0 -> size inputs = n -> size outputs = n ->
  all (fun v : pb_variable_array => size v == s) inputs -> all (fun v : pb_variable_array => size v == s) outputs ->
  asw_routing_new R unset pb0 n inputs outputs = Ok (g, pb1) ->
  all (all (@isbit F)) (vals x inputs) ->
  (s <= capacity R -> uniq (vals x inputs))%N ->
  holds (asw_routing_constraints g) x ->
  all (all (@isbit F)) (vals x outputs) /\ perm_eq (vals x outputs) (vals x inputs).
Proof.
move=> hn hs hw si so ai ao hg bi hu.
have [t [g' [pb1' [et eg hok st hb]]]] := asw_built (R := R) hcap unset hn hw si so ai ao.
move: eg; rewrite hg => -[e1 e2]; rewrite -{}e1 -{}e2 in hb; clear g' pb1' hg.
set k := div_ceil s (capacity R) in hb; set nc := aw_num_columns n in hb hok st.
rewrite /asw_routing_constraints (bu_n hb) (bu_nc hb) holds_cat => -[hpk hsw].
have {hpk} hpk i : (i < n)%N -> holds (packing_part g i) x.
  by move=> hi; apply: (iffLR (holds_flatten_iota _ _ _) hpk).
have {hsw} hsw c r : (c < nc)%N -> r \in visited (nth [::] t c) false 0 n -> holds (asw_switch_constraints g c r) x.
  move=> hc hr; have := iffLR (holds_flatten_iota _ _ _) hsw c hc; rewrite (bu_nb hb) => /holds_flatten.
  by apply; apply/GadgetLogic.In_mem.
have hE c r : rg_edges g c r = nth (0, 0)%N (nth [::] t c) r by rewrite /rg_edges (bu_nb hb).
pose U c y := map (xval x) (rg_packet g c y).
have hin i : (i < n)%N -> U 0%N i = packed_of (map (xval x) (nth [::] inputs i)).
  move=> hi; have [] // := @packed_column g x false 0 inputs n (rg_pack g) (bu_pack hb) _ i hi.
  by move=> j hj; have := hpk j hj; rewrite /packing_part holds_cat => -[].
have hout i : (i < n)%N -> U nc i = packed_of (map (xval x) (nth [::] outputs i)) /\ all (@isbit F) (map (xval x) (nth [::] outputs i)).
  move=> hi; have [|h1 h2] := @packed_column g x true nc outputs n (rg_unpack g) (bu_unpack hb) _ i hi; last by split=> //; apply: h2.
  by move=> j hj; have := hpk j hj; rewrite /packing_part holds_cat => -[].
have bo : all (all (@isbit F)) (vals x outputs).
  by rewrite /vals all_map; apply/(all_nthP [::]) => i; rewrite so => hi /=; case: (hout i hi).
split=> //; apply: (@unpack_perm s) => //.
have -> : map packed_of (vals x outputs) = [seq U nc y | y <- iota 0 n].
  rewrite /vals -map_comp -(map_nth_iota [::] _ so); apply/eq_in_map => i; rewrite mem_iota add0n => /= hi.
  by case: (hout i hi).
have ein : map packed_of (vals x inputs) = [seq U 0%N y | y <- iota 0 n].
  rewrite /vals -map_comp -(map_nth_iota [::] _ si); apply/eq_in_map => i; rewrite mem_iota add0n => /= hi.
  by rewrite hin.
rewrite ein.
have k0 : (0 < k)%N by rewrite /k /div_ceil divn_gt0 //; move: hs hcap; clear; lia.
have hlt c r : (c < nc)%N -> (r < n)%N -> ((rg_edges g c r).1 < n)%N /\ ((rg_edges g c r).2 < n)%N.
  by move=> hc hr; rewrite hE; apply: (co_lt (hok c hc)).
have hwire c r : (c < nc)%N -> (r < n)%N -> (rg_edges g c r).1 = (rg_edges g c r).2 -> U c r = U c.+1 (rg_edges g c r).1.
  by move=> hc hr he; rewrite /U (bu_wires hb isT hc hr he).
have htop c r : (c < nc)%N -> is_top n (nth [::] t c) r -> holds (asw_switch_constraints g c r) x /\
    ((rg_edges g c r).1 == (rg_edges g c r).2) = false.
  move=> hc ht; split; last by apply/eqP; rewrite hE; apply: top_neq ht.
  apply: hsw => //; have hr := top_lt ht.
  by rewrite (mem_visited (hok c hc)) (not_both (hok c hc)) // ?andbT; exact: ltnW.
case: (ltnP 1 k) => k1; last first.
  have ek : k = 1%N by move: k0 k1; clear; lia.
  apply: (@perm_columns _ n U (rg_edges g) nc) => //; last first.
    rewrite -ein; apply: (uniq_packed ai) => //; apply: hu.
    by have := div_ceil_bound s hcap; rewrite -/k ek mul1n.
  move=> c r hc hr; have [l1 l2] := hlt c r hc hr.
  case: (row_cases (hok c hc) hr) => [e|ht|[hbt ht]].
  - by left; apply: hwire; rewrite ?hE.
  - have [h hf] := htop c r hc ht; apply: (@easy_packet _ _ _ _ _ _ _ _ _ _ _ _ hb) => //.
    by move: h; rewrite /asw_switch_constraints hf (bu_k hb) -/k ek eqxx => h; apply: h; left.
  - have [h hf] := htop c r.-1 hc ht; apply: (@easy_packet _ _ _ _ _ _ _ _ _ _ _ _ hb) => //.
    move: h; rewrite /asw_switch_constraints hf (bu_k hb) -/k ek eqxx => h; apply: h; right.
    by case/andP: hbt => h0 _; rewrite prednK //; left.
have hk1 : (k == 1)%N = false by apply/eqP; move: k1; clear; lia.
pose bit c r := xval x (rg_bit g c r) == 1.
apply: (@perm_columns_inj _ n U (fun c => move_row n (nth [::] t c) (bit c)) nc) => [c r hc hr|c r r' hc hr hr'|c r hc hr].
- exact: (move_lt _ (hok c hc)).
- exact: (move_inj (hok c hc)).
have [l1 l2] := hlt c r hc hr.
rewrite /move_row; case ht: (is_top n (nth [::] t c) r).
  have [h hf] := htop c r hc ht; move: h; rewrite /asw_switch_constraints hf (bu_k hb) hk1 holds_cons => -[h1 h2].
  rewrite -hE; apply: (route_packet hb) => //; first exact/bit_constraintE.
  move=> sub hsub; move/holds_flatten_iota: h2 => /(_ sub hsub); apply; left; reflexivity.
case hbt: (is_bottom n (nth [::] t c) r); last first.
  rewrite -hE; apply: hwire => //; rewrite hE.
  by case: (row_cases (hok c hc) hr) => [|h|[h _]] //; move: h; rewrite ?ht ?hbt.
case/andP: hbt => h0 ht'.
have [h hf] := htop c r.-1 hc ht'; move: h; rewrite /asw_switch_constraints hf (bu_k hb) hk1 holds_cons => -[h1 h2].
rewrite -hE; apply: (route_packet hb) => //; first exact/bit_constraintE.
move=> sub hsub; move/holds_flatten_iota: h2 => /(_ sub hsub); apply; right; left; rewrite prednK //.
Qed.

Lemma benes_sound pb0 d l s (inputs outputs : seq pb_variable_array) g pb1 x :
  (0 < s)%N -> pb_wf pb0 -> size inputs = (2 ^ d)%N -> (l <= size outputs)%N ->
  all (fun v : pb_variable_array => size v == s) inputs -> all (fun v : pb_variable_array => size v == s) outputs ->
  benes_routing_new R pb0 (2 ^ d) inputs outputs l = Ok (g, pb1) ->
  all (all (@isbit F)) (vals x inputs) -> uniq (vals x inputs) ->
  holds (benes_routing_constraints g) x ->
  all (all (@isbit F)) (vals x (take l outputs)) /\ perm_eq (vals x (take l outputs)) (vals x (take l inputs)).
Proof.
move=> hs hw si so ai ao hg bi hu.
have hl : (l <= 2 ^ d)%N.
  move: hg; rewrite /benes_routing_new; case: benes_num_columns => //= nc; case: oget => //= f.
  by case hl: (l <= size inputs)%N => //= _; rewrite -si.
have [t [g' [pb1' [et eg hb]]]] := benes_built (R := R) hcap hw si so hl ai ao.
move: eg; rewrite hg => -[e1 e2]; rewrite -{}e1 -{}e2 in hb; clear g' pb1' hg.
have [t' [et' st ht]] := C26_topology d.
move: et'; rewrite et => -[e]; rewrite -{}e in st ht; clear t'.
move: si hl hb ht; set n := (2 ^ d)%N => si hl hb ht.
set k := div_ceil s (capacity R) in hb; set nc := (2 * d)%N in hb st ht.
rewrite /benes_routing_constraints (bu_n hb) (bu_nc hb) holds_cat => -[hpk hsw].
have {hpk} hpk i : (i < n)%N -> holds (benes_packing_part g i) x.
  by move=> hi; apply: (iffLR (holds_flatten_iota _ _ _) hpk).
have {hsw} hsw c r : (c < nc)%N -> (r < n)%N -> holds (benes_row_constraints g c r) x.
  by move=> hc hr; have := iffLR (holds_flatten_iota _ _ _) hsw c hc => /holds_flatten_iota; apply.
pose U c y := map (xval x) (rg_packet g c y).
have su : size (rg_unpack g) = l by case: (bu_unpack hb).
have hin i : (i < n)%N -> U 0%N i = packed_of (map (xval x) (nth [::] inputs i)).
  move=> hi; have [] // := @packed_column g x false 0 inputs n (rg_pack g) (bu_pack hb) _ i hi.
  by move=> j hj; have := hpk j hj; rewrite /benes_packing_part holds_cat => -[].
have hout i : (i < l)%N -> U nc i = packed_of (map (xval x) (nth [::] outputs i)) /\ all (@isbit F) (map (xval x) (nth [::] outputs i)).
  move=> hi; have [|h1 h2] := @packed_column g x true nc outputs l (rg_unpack g) (bu_unpack hb) _ i hi; last by split=> //; apply: h2.
  by move=> j hj; have := hpk j (leq_trans hj hl); rewrite /benes_packing_part holds_cat su hj => -[].
have hfix i : (l <= i)%N -> (i < n)%N -> U nc i = packed_of (map (xval x) (nth [::] inputs i)).
  move=> h1 h2; rewrite -hin //; symmetry; apply: (packet_eq hb) => // sub hsub.
  have := hpk i h2; rewrite /benes_packing_part holds_cat su ltnNge h1 (bu_k hb) (bu_nc hb) => -[_ h].
  move/holds_iota: h => /(_ sub hsub).
  by rewrite /constraint_holds /= !fsE mul1r.
have bo : all (all (@isbit F)) (vals x (take l outputs)).
  rewrite /vals all_map; apply/(all_nthP [::]) => i; rewrite size_takel // => hi /=.
  by rewrite nth_take //; case: (hout i hi).
split=> //.
have e1 : map packed_of (vals x (take l outputs)) ++ map packed_of (vals x (drop l inputs)) = [seq U nc y | y <- iota 0 n].
  rewrite /vals -!map_comp -[n in RHS](subnKC hl) iotaD map_cat; congr (_ ++ _).
    rewrite -(map_nth_iota [::] _ (size_takel so)); apply/eq_in_map => i; rewrite mem_iota add0n => /= hi.
    by rewrite nth_take //; case: (hout i hi).
  have sd : size (drop l inputs) = (n - l)%N by rewrite size_drop si.
  have -> : iota (0 + l) (n - l) = [seq (l + i)%N | i <- iota 0 (n - l)] by rewrite -iotaDl addn0 add0n.
  rewrite -(map_nth_iota [::] _ sd) -map_comp; apply/eq_in_map => i; rewrite mem_iota add0n => /= hi.
  by rewrite nth_drop hfix ?leq_addr //; move: hi hl; clear; lia.
have ein : map packed_of (vals x inputs) = [seq U 0%N y | y <- iota 0 n].
  rewrite /vals -map_comp -(map_nth_iota [::] _ si); apply/eq_in_map => i; rewrite mem_iota add0n => /= hi.
  by rewrite hin.
have bt (p : nat) : all (fun v : pb_variable_array => size v == s) (take p inputs) && all (fun v : pb_variable_array => size v == s) (drop p inputs).
  by rewrite -all_cat cat_take_drop.
apply: (@unpack_perm s) => //.
- by case/andP: (bt l).
- by move: ao; rewrite -{1}(cat_take_drop l outputs) all_cat => /andP [].
- by move: bi; rewrite /vals -{1}(cat_take_drop l inputs) map_cat all_cat => /andP [].
suff : perm_eq [seq U nc y | y <- iota 0 n] [seq U 0%N y | y <- iota 0 n].
  have e2 : map packed_of (vals x inputs) = map packed_of (vals x (take l inputs)) ++ map packed_of (vals x (drop l inputs)).
    by rewrite /vals -!map_cat cat_take_drop.
  by rewrite -e1 -ein e2 perm_cat2r.
have k0 : (0 < k)%N by rewrite /k /div_ceil divn_gt0 //; move: hs hcap; clear; lia.
have hlt c r : (c < nc)%N -> (r < n)%N -> ((rg_edges g c r).1 < n)%N /\ ((rg_edges g c r).2 < n)%N.
  by move=> hc hr; rewrite /rg_edges (bu_nb hb); have [_ -> _ h2] := ht c r hc hr.
apply: (@perm_columns _ n U (rg_edges g) nc) => //; last by rewrite -ein; apply: (uniq_packed ai).
move=> c r hc hr; have [l1 l2] := hlt c r hc hr; have := hsw c r hc hr; rewrite /benes_row_constraints (bu_k hb).
case: eqP => ek h.
  by apply: (easy_packet hb) => //; apply: h; left.
move: h; rewrite holds_cons => -[h1 h2].
have := route_packet hb (bit := rg_bit g c r) hc hr l1 l2 (iffLR (bit_constraintE _ _) h1).
move=> /(_ (fun sub hsub => iffLR (holds_iota _ _ _) h2 sub hsub)).
by case: ifP => _; [right|left].
Qed.
End Theorems.
End Sound.
