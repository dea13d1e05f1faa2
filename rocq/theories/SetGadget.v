(** The set-commitment gadget: soundness and completeness. *)
From Coq Require Import NArith ZifyN.
From mathcomp Require Import all_ssreflect all_algebra zify.
From Verif Require Import Outcome Lincomb LincombSpec LincombFacts R1CS R1CSSpec R1CSFacts Fieldtac.
From Verif Require Import Protoboard GadgetSpec GadgetLogic BasicGadgets BasicGadgetsFacts BasicGadgetsMore BasicGadgetsCopy GadgetNew.
From Verif Require Import Sha256Gadget GadgetSeq Sha256Hash GadgetPost Knapsack MerkleSpec MerkleTree MerkleGadget MerkleGadgetSpec MerkleSound MerkleComplete MerkleHashComplete.
Set Implicit Arguments.
Unset Strict Implicit.
Unset Printing Implicit Defensive.
Local Open Scope ring_scope.
Import GRing.Theory.
Local Opaque allocate_array iota.
Delimit Scope N_scope with num.

Section SetGadget.
Variable F : fieldType.
Variable R : bigint_repr F.
Variable HashT : hash_gadget F.
Local Notation n := (hg_digest_len HashT).
Implicit Types (x k : seq F) (pb : protoboard F).
Local Notation sz pb := (size (pb_values pb)).
Local Notation ksz pb := (size (pb_lc_values pb)).

Lemma bools_holds (vs : pb_variable_array) x :
  holds [seq boolean_constraint (lc_terms (plc_of_var F b)) | b <- vs] x <-> var_isbits x vs.
Proof. exact: digest_constraintsE. Qed.

Lemma plcs_bits x (vs : pb_variable_array) : lc_bits x (plcs_of_vars F vs) = var_bits x vs.
Proof. by rewrite /lc_bits -map_comp; apply: eq_map => v /=; rewrite lval_var. Qed.
Lemma plcs_isbits x (vs : pb_variable_array) : lc_isbits x (plcs_of_vars F vs) = var_isbits x vs.
Proof. by rewrite /lc_isbits all_map; apply: eq_all => v /=; rewrite lval_var. Qed.

Lemma set_sound rel pb0 max_entries element root proof cs g pb1 x :
  pb_wf pb0 -> hash_allocates HashT -> hash_enforces HashT (size element) rel ->
  hash_enforces HashT (2 * n) rel -> hash_enforces_packed HashT (capacity R) (2 * n) rel ->
  path_shape (log2 max_entries) n (sp_path proof) -> size (sp_address_bits proof) = log2 max_entries -> size root = n ->
  set_gadget_new R HashT pb0 max_entries element root proof cs = Ok (g, pb1) ->
  holds (proof_variable_constraints F proof) x -> var_isbits x element -> var_isbits x root ->
  ((0 < log2 max_entries)%N -> lval x cs <> 0) -> holds (set_gadget_constraints g) x ->
  exists2 d, rel (var_bits x element) d &
    path_connects rel (var_bits x root) (bits_nat (var_bits x (sp_address_bits proof))) d
      (path_siblings x (sp_path proof) (var_bits x (sp_address_bits proof))).
Proof.
move=> hw hal hE hH hP hp sA sr; rewrite /set_gadget_new /block_variable_parts [flatten _]/= cats0.
rewrite /proof_variable_constraints holds_cat => + [] /bools_holds bA hpc be br.
case: eqP => hd.
  case e: (hg_new HashT pb0 _ _ _) => [[h pbh]| |] // [<- _] _ /=.
  rewrite /set_gadget_constraints /= cats0 => hh; exists (var_bits x root).
    by have [_] := hE _ _ _ _ _ _ _ hw erefl sr e be hh; apply.
  by move: sA; rewrite hd; case: (sp_address_bits proof).
case e0: (digest_variable_new pb0 n) => [ed pbd]; have [sed hwd] := digest_var_new hw e0.
case e1: (hg_new HashT pbd _ _ _) => [[h pbh]| |] //=.
have ha := hal _ _ _ _ _ _ hwd erefl sed e1.
case e2: (check_read_new _ _ _ _ _ _ _ _ _) => [[c pbc]| |] //= -[<- _] hcs.
rewrite /set_gadget_constraints /= holds_cat => -[hh hc].
have [||b1 b2] := check_read_sound (allocates_wf ha) hal hH hP hp sed sr e2 hpc _ br _ hc.
- by rewrite plcs_isbits.
- by apply: hcs; rewrite lt0n; apply/eqP.
rewrite plcs_bits in b2; exists (var_bits x ed) => //.
by have [_] := hE _ _ _ _ _ _ _ hwd erefl sed e1 be hh; apply.
Qed.

(** ** Witness generation *)
Lemma path_witness_ok pb x k depth path address (p : seq (seq bool)) :
  let a := [seq test_bit address i | i <- iota 0 depth] in
  path_shape depth n path -> assignable (size x) (path_vars path) -> size p = depth -> all (fun d => size d == n) p ->
  (depth <= 64)%N ->
  exists x', [/\ path_variable_witness path address p (upd pb x k) = Ok (upd pb x' k), changes_only (path_vars path) x x' &
    forall i, (i < depth)%N -> map (xval x') (path_sib path a i) = map (bit_val F) (nth [::] p i)].
Proof.
move=> a hp [hu hr] sp hs h64; have [p1 p2 p3 p4] := hp.
rewrite /path_variable_witness p1 sp eqxx; cbn [oassert].
have sa : size a = depth by rewrite size_map size_iota.
have ea i : (i < depth)%N -> nth false a (size a - 1 - i) = odd (address %/ 2 ^ (depth - 1 - i)).
  by move=> hi; rewrite sa /a (nth_map 0%N) ?size_iota ?nth_iota ?add0n //; move: hi; clear; lia.
suff H : forall m, (m <= depth)%N -> exists x', [/\
   ofold (fun pb i =>
    let! b := path_bit depth address i in
    let! node := oget p i in
    if b then let! d := oget (pv_left path) i in digest_variable_witness d pb node
    else let! d := oget (pv_right path) i in digest_variable_witness d pb node) (upd pb x k) (iota 0 m) = Ok (upd pb x' k),
   changes_only (path_vars path) x x' &
    forall i, (i < m)%N -> map (xval x') (path_sib path a i) = map (bit_val F) (nth [::] p i)] by exact: H.
elim=> [|m IH] hm; first by exists x.
have [x' [e [sx hc] hv]] := IH (ltnW hm).
have ssib : size (path_sib path a m) = n.
  by rewrite /path_sib; case: ifP => _; apply/eqP; [apply: (allP p3)|apply: (allP p4)]; rewrite mem_nth ?p1 ?p2.
have snd : size (nth [::] p m) = n by apply/eqP; apply: (allP hs); rewrite mem_nth ?sp.
have usib : uniq (path_sib path a m).
  move: hu; rewrite /path_vars cat_uniq => /and3P [/uniq_flatten [l1 _] _ /uniq_flatten [r1 _]].
  by rewrite /path_sib; case: ifP.
have [||x2 [e2 c2 v2]] := @fill_with_bits_ok F pb x' k (path_sib path a m) (nth [::] p m).
- split=> //; apply/allP => v /path_sib_sub hv'; rewrite sx; exact: (allP hr).
- by rewrite ssib snd.
exists x2; split.
- have -> : iota 0 m.+1 = iota 0 m ++ [:: m] by rewrite -addn1 iotaD.
  rewrite ofold_cat e; cbn [ofold obind].
  have -> : path_bit depth address m = Ok (nth false a (size a - 1 - m)).
    by rewrite ea // /path_bit ifT //; move: hm h64; clear; lia.
  have -> : oget p m = Ok (nth [::] p m) by apply: oget_nth; rewrite sp.
  have g1 : oget (pv_left path) m = Ok (nth [::] (pv_left path) m) by apply: oget_nth; rewrite p1.
  have g2 : oget (pv_right path) m = Ok (nth [::] (pv_right path) m) by apply: oget_nth; rewrite p2.
  by rewrite g1 g2; cbn [obind]; move: e2; rewrite /path_sib; case: ifP => _; rewrite /digest_variable_witness => ->.
- by apply: changes_trans_in (conj sx hc) c2 => // v; apply: path_sib_sub.
move=> i; rewrite ltnS leq_eqVlt => /orP [/eqP ->|hi] //.
rewrite -hv //; apply/eq_in_map => v hvi; have [_ -> //] := c2.
move: hu; rewrite /path_vars cat_uniq => /and3P [/uniq_flatten [_ l2] /hasPn hd /uniq_flatten [_ r2]].
have hlr i' j' u : u \in nth [::] (pv_right path) i' -> u \notin nth [::] (pv_left path) j'.
  move=> hu; apply/negP => hu'; have : u \in flatten (pv_right path).
    apply/flattenP; exists (nth [::] (pv_right path) i') => //.
    by apply: mem_nth; case: ltnP => // /(nth_default [::]) h; rewrite h in hu.
  move/hd/negP; apply; apply/flattenP; exists (nth [::] (pv_left path) j') => //.
  by apply: mem_nth; case: ltnP => // /(nth_default [::]) h; rewrite h in hu'.
have hne : i <> m by move: hi; clear; lia.
move: hvi; rewrite /path_sib; case: ifP => _; case: ifP => _.
- exact: l2.
- by move=> h; apply/negP => /hlr /negP; apply; exact: h.
- exact: hlr.
- exact: r2.
Qed.

Section Complete.
Variables (len : nat) (H : seq bool -> seq bool).
Variables (sl slE : protoboard F -> pb_variable_array -> nat -> linear_combination F).
Hypothesis hH : hash_completes HashT (2 * n) H sl.
Hypothesis hE : hash_completes HashT len H slE.
Hypothesis hcap : (0 < capacity R)%N.

(** The hash of the element, run on a board on which the slots of its own are as
    the constructor left them: other slots keep their contents. *)
Lemma element_hash_run pb0 block out h pb1 pb : pb_wf pb0 -> size block = len -> size out = n ->
  hg_new HashT pb0 len block out = Ok (h, pb1) -> later pb1 pb ->
  (forall i, (ksz pb0 <= i < ksz pb1)%N -> nth 0 (pb_lc_values pb) i = nth 0 (pb_lc_values pb1) i) ->
  all (fun v => (v <= sz pb0)%N && (v \notin out)) block -> uniq out -> all (is_var pb0) out ->
  var_isbits (pb_values pb) block ->
  exists pb', let x' := pb_values pb' in
    [/\ hg_witness h pb = Ok pb', assigns (out ++ fresh_vars pb0 pb1) pb pb',
        forall i, ~~ (ksz pb0 <= i < ksz pb1)%N -> nth 0 (pb_lc_values pb') i = nth 0 (pb_lc_values pb) i,
        var_isbits x' out /\ var_bits x' out = H (var_bits (pb_values pb) block) &
        forall m z, outside (sz pb) [predU mem block & mem (out ++ fresh_vars pb0 pb1)] m -> changes_only m x' z ->
          holds (hg_constraints h true) z].
Proof.
move=> hw hb ho e [hwp h1 h2] hs hbl uo ao bb.
pose slot i := if (ksz pb0 <= i < ksz pb1)%N then slE pb0 out i else lc_of_const (nth 0 (pb_lc_values pb) i).
have hsl i : (ksz pb0 <= i < ksz pb1)%N -> slot i = slE pb0 out i by rewrite /slot => ->.
have Q := hc_run hE hw hb ho e h1 h2 hsl hbl uo ao.
have hpre : var_isbits (pb_values pb) block /\ ready slot (ksz pb0) (ksz pb1) (pb_lc_values pb).
  split=> // i hi; rewrite hsl // => hwi; rewrite hs //; exact: (hc_slots hE hw hb ho ao e hi hwi).
have [pb' [q1 q2 q3 q4]] := gq_run hwp erefl erefl Q hpre.
have ha := hc_alloc hE hw hb ho e.
have out0 v : v \in out ++ fresh_vars pb0 pb1 -> ((sz pb0 < v)%N \/ v \in out) /\ (0 < v)%N.
  rewrite mem_cat mem_fresh // => /orP [hv|hv]; last by split; [left; move: hv|move: hv]; clear; lia.
  by have /andP [] := allP ao v hv; split=> //; right.
exists pb'; split=> //.
- move=> i hi; have [_ _ q5] := q3; have := q5 i; rewrite /slot (negbTE hi) => hq.
  have hav : avoids (out ++ fresh_vars pb0 pb1) (lc_of_const (nth 0 (pb_lc_values pb) i)).
    apply/allP => t; have := within_const pred0 (nth 0 (pb_lc_values pb) i); move=> /allP hin /hin.
    by rewrite orbF => /eqP ->; apply/negP => /out0 [].
  by case: (hq hav) => // ->; rewrite formal_sum_const.
- case: q4 => _ q4 q5; split=> //; rewrite q5; congr H; apply/eq_in_map => v hv.
  have [_ _ _ [_ ->]] // := q2; apply/negP => /out0 [[hv'|hv'] _]; have /andP [h3 h4] := allP hbl v hv.
    by move: h3 hv'; clear; lia.
  by rewrite hv' in h4.
move=> m z hm hc; case: Q => st _ _; have [_ _ s3 [s4 _]] := q2.
have := st m _ _ z (pb_lc_values pb') s4 s3 (wstep_changes slot _ hc) hm q4.
by case.
Qed.

Theorem set_complete slot0 pb0 max_entries element root proof cs g pb1 pb address path rt :
  let D := log2 max_entries in let x := pb_values pb in
  let vs := sp_address_bits proof ++ path_vars (sp_path proof) ++ root in
  pb_wf pb0 -> (D <= 64)%N -> size element = len ->
  path_shape D n (sp_path proof) -> size (sp_address_bits proof) = D -> size root = n ->
  set_gadget_new R HashT pb0 max_entries element root proof cs = Ok (g, pb1) ->
  all (is_var pb0) vs -> uniq vs -> all (fun v => (v <= sz pb0)%N && (v \notin vs)) element ->
  lc_proper slot0 (sz pb0) (ksz pb0) cs -> avoids vs (lc_terms cs) ->
  later pb1 pb -> (forall i, (ksz pb0 <= i < ksz pb1)%N -> nth 0 (pb_lc_values pb) i = nth 0 (pb_lc_values pb1) i) ->
  var_isbits x element -> lval x cs = 1 ->
  (address < 2 ^ D)%N -> (address < fp_order R)%N -> size path = D -> all (fun d => size d == n) path ->
  path_verifies H rt address (H (var_bits x element)) path ->
  exists pbp pb', let x' := pb_values pb' in
    [/\ proof_variable_witness R proof (address, path) pb = Ok pbp, set_gadget_witness g pbp = Ok pb',
        assigns (vs ++ fresh_vars pb0 pb1) pb pb',
        holds (proof_variable_constraints F proof ++ set_gadget_constraints g) x' &
        [/\ var_isbits x' root, var_bits x' root = rt & bits_nat (var_bits x' (sp_address_bits proof)) = address]].
Proof.
move=> D x vs hw h64 sel hp sA sroot; rewrite /set_gadget_new /block_variable_parts [flatten _]/= cats0 -/D => eg.
move=> hvars huniq hel hcs hav hlat hslots bel hcs1 hadd hadd' spath hpath hver.
have hroot v : v \in root -> v \in vs by move=> hv; rewrite !mem_cat hv !orbT.
case: eqP eg => hd.
  rewrite sel; case e: (hg_new HashT pb0 _ _ _) => [[h pbh]| |] // [<- epb]; rewrite epb in e.
  have uroot : uniq root by move: huniq; rewrite !cat_uniq => /and3P [_ _ /and3P []].
  have [||pb' [q1 q2 q3 [q4 q5] q6]] := @element_hash_run pb0 element root h pb1 pb hw sel sroot e hlat hslots _ uroot _ bel.
  - by apply: sub_all hel => v /andP [-> h2]; apply: contra h2 => /hroot.
  - by apply/allP => v /hroot; apply: (allP hvars).
  have eA : sp_address_bits proof = [::] by apply: size0nil; rewrite sA.
  have ep : path = [::] by apply: size0nil; rewrite spath.
  exists pb, pb'; split.
  - by rewrite /proof_variable_witness sA hd.
  - by rewrite /set_gadget_witness /= q1.
  - case: q2 => a1 a2 a3 a4; split=> //; apply: changes_sub a4 => v; rewrite !mem_cat.
    by case/orP => ->; rewrite ?orbT.
  - rewrite /proof_variable_constraints eA holds_cat; split.
      by apply/(path_constraintsE _ hp) => i; rewrite hd.
    rewrite /set_gadget_constraints /= cats0; apply: (q6 [::]) => //; exact: changes_refl.
  split=> //; first by move: hver; rewrite q5 ep.
  by rewrite eA; move: hadd; rewrite hd expn0; case: (address).
case ed: (digest_variable_new pb0 n) => [dg pbd]; have [ad edg szd] := allocate_array_new hw ed.
rewrite sel; case e1: (hg_new HashT pbd _ _ _) => [[h pbh]| |] //; cbn [obind fst snd].
have sdg : size dg = n by rewrite edg size_iota.
have hwd := allocates_wf ad.
have ha := hc_alloc hE hwd sel sdg e1; have hwh := allocates_wf ha.
case e2: (check_read_new _ _ _ _ _ _ _ _ _) => [[c pbc]| |] // [<- epb]; rewrite epb in e2.
have [hD sA' [lv [st [_ _ _ r4 r5 _ _ _ r8]]]] := read_inv hH hcap hwh hp e2.
have wst : pb_wf (st D) by apply: allocates_wf (r5 0%N D _); rewrite leqnn.
have [r9 _ _ _] := bit_vector_copy_new_spec wst r8.
have hac : allocates pbh pb1 by apply: allocates_trans r4 (allocates_trans (r5 0%N D _) r9); rewrite leqnn.
have ah : allocates pb0 pbh := allocates_trans ad ha.
have a1 : allocates pb0 pb1 := allocates_trans ah hac.
have kd : ksz pbd = ksz pb0.
  by move: ed; rewrite /digest_variable_new => /(allocate_array_wf hw) [_ _ -> _ _].
have [hwp hsz hks] := hlat.
have s1 := allocates_size ad; have s2 := allocates_size ha; have s3 := allocates_size hac.
have k2 := allocates_ksize ha; have k3 := allocates_ksize hac.
have varange v : v \in vs -> (0 < v <= sz pb0)%N by move=> hv; exact: (allP hvars).
have uA : uniq (sp_address_bits proof) by move: huniq; rewrite cat_uniq => /and3P [].
have uP : uniq (path_vars (sp_path proof)) by move: huniq; rewrite !cat_uniq => /and3P [_ _ /and3P []].
have memA v : v \in sp_address_bits proof -> v \in vs by move=> hv; rewrite !mem_cat hv.
have memP v : v \in path_vars (sp_path proof) -> v \in vs.
  by rewrite /vs; move: (path_vars _) => q hv; rewrite !mem_cat hv orbT.
have memPR v : v \in path_vars (sp_path proof) ++ root -> v \in vs.
  by rewrite [v \in _ ++ root]mem_cat => /orP [/memP|/hroot].
have ApR v : v \in sp_address_bits proof -> v \notin path_vars (sp_path proof) ++ root.
  move=> hv; move: huniq; rewrite cat_uniq => /and3P [_ /hasPn hd' _].
  by apply/negP => /hd' /negP; apply.
have inN v : v \in vs -> (0 < v <= size x)%N by move/varange; move: s1 s2 s3 hsz; rewrite /x; clear; lia.
(* the proof variables *)
have hfit : as_bigint R (address%:R : F) = address by apply: as_bigint_nat.
have [|xA [eA [sxA cA] vA]] := @fill_bits_ok F pb x (pb_lc_values pb) (sp_address_bits proof) address.
  by split=> //; apply/allP => v /memA /inN.
have [|xP [eP cP vP]] := @path_witness_ok pb xA (pb_lc_values pb) D (sp_path proof) address path hp _ spath hpath h64.
  by split=> //; apply/allP => v /memP /inN; rewrite sxA.
set a := [seq test_bit address i | i <- iota 0 D] in vP.
have [sxP hxP] := cP.
pose pbA := upd pb xP (pb_lc_values pb).
have hpw : proof_variable_witness R proof (address, path) pb = Ok pbA.
  rewrite /proof_variable_witness sA lt0n; case: eqP => // _; rewrite hfit -[pb in LHS](board_of hwp).
  by rewrite fill_with_bits_of_lcs eA; cbn [obind fst snd].
have wA : pb_wf pbA.
  case: hwp => w1 w2 w3 w4; split=> //=; rewrite ?sxP ?sxA //.
have chP : changes_only vs x xP by apply: changes_trans_in (conj sxA cA) cP => v; [apply: memA|apply: memP].
have vAx v : v \in sp_address_bits proof -> xval xP v = xval xA v.
  by move=> hv; rewrite hxP //; have := ApR v hv; rewrite [v \in _ ++ root]mem_cat negb_or => /andP [].
have bitsA y : (forall v, v \in sp_address_bits proof -> xval y v = xval xA v) ->
    var_isbits y (sp_address_bits proof) /\ var_bits y (sp_address_bits proof) = a.
  move=> hy; have e : map (xval y) (sp_address_bits proof) = [seq (test_bit address i)%:R | i <- iota 0 D].
    by rewrite -sA -vA; apply/eq_in_map.
  split; first by rewrite /var_isbits -(all_map (xval y) (@isbit F)) e all_map; apply/allP => i _ /=; apply: isbit_nat.
  rewrite /var_bits (map_comp (@bit_of F) (xval y)) e -map_comp; apply: eq_map => i /=; exact: bit_of_nat.
have sib_vs i v : v \in path_sib (sp_path proof) a i -> v \in vs by move/path_sib_sub/memP.
have elP v : v \in element -> (v <= sz pb0)%N /\ v \notin vs by move=> hv; have /andP := allP hel v hv.
have elx : map (xval xP) element = map (xval x) element.
  by apply/eq_in_map => v /elP [_ hv]; case: chP => _ ->.
(* the hash of the element *)
have dgr v : v \in dg -> (sz pb0 < v <= sz pbd)%N by rewrite edg mem_iota szd; clear; lia.
have [||||||pbB [q1 q2 q3 [q4 q5] q6]] := @element_hash_run pbd element dg h pbh pbA hwd sel sdg e1.
- split=> //=; first by rewrite sxP sxA /x; move: hsz s3; clear; lia.
  by move: hks k3; clear; lia.
- move=> i hi; rewrite [pb_lc_values _]/= hslots; last by move: hi kd k3; clear; lia.
  by case: hac => _ _ [zs ->] _; rewrite nth_cat; case/andP: hi => _ ->.
- apply/allP => v /elP [h1 _]; apply/andP; split; first by move: h1 s1; clear; lia.
  by apply/negP => /dgr; move: h1; clear; lia.
- by rewrite edg; apply: iota_uniq.
- by apply/allP => v /dgr; rewrite /is_var; clear; lia.
- by rewrite /var_isbits -(all_map (xval _) (@isbit F)) elx all_map.
have [b1 b2 b3 [b4 b5]] := q2; rewrite [pb_values pbA]/= in b4 b5; rewrite [pb_lc_values pbA]/= in b3.
have keep v : (v <= sz pb0)%N -> xval (pb_values pbB) v = xval xP v.
  move=> hv; apply: b5; rewrite mem_cat mem_fresh // negb_or; apply/andP; split.
    by apply/negP => /dgr; move: hv; clear; lia.
  by move: hv s1; clear; lia.
have keepvs v : v \in vs -> xval (pb_values pbB) v = xval xP v by move/varange => /andP [_]; apply: keep.
have [bA1 bA2] : var_isbits (pb_values pbB) (sp_address_bits proof) /\ var_bits (pb_values pbB) (sp_address_bits proof) = a.
  by apply: bitsA => v hv; rewrite keepvs ?vAx //; apply: memA.
have sibB i : (i < D)%N -> map (xval (pb_values pbB)) (path_sib (sp_path proof) a i) = map (bit_val F) (nth [::] path i).
  by move=> hi; rewrite -vP //; apply/eq_in_map => v /sib_vs; apply: keepvs.
have csx y : (forall v, (v <= sz pb0)%N -> v \notin vs -> xval y v = xval x v) -> lval y cs = 1.
  move=> hy; rewrite -hcs1 /lval; have hin : in_range (sz pb0) (lc_terms cs).
    move: hcs; rewrite /lc_proper; case: ifP => _ [h1 h2] //; by rewrite h2 /in_range /= h1.
  move: hav hin; rewrite /avoids /in_range /formal_sum; elim: (lc_terms cs) => [|t l IH]; first by rewrite !big_nil.
  by move=> /= /andP [t1 t2] /andP [t3 t4]; rewrite !big_cons IH // hy.
have csB : lval (pb_values pbB) cs = 1.
  by apply: csx => v h1 h2; rewrite keep //; case: chP => _ ->.
(* the authentication path *)
have [|||||||||||pb' [c1 c2 c3 _ c5]] := @check_read_run F R HashT H sl hH hcap slot0 pbh D (plcs_of_vars F (sp_address_bits proof))
  dg root (sp_path proof) cs c pb1 pbB hwh hp sdg sroot e2.
- by apply/allP => v /memPR /varange; rewrite /is_var; move: s1 s2; clear; lia.
- by move: huniq; rewrite [uniq vs]cat_uniq => /and3P [].
- apply/allP => v /dgr hv; apply/andP; split; first by move: hv s2; clear; lia.
  by apply/negP => /memPR /varange; move: hv; clear; lia.
- move=> l [<-|hl].
    split; first by apply: lc_proper_le hcs; [move: s1 s2|move: kd k2]; clear; lia.
    by apply: avoids_subset hav => v; apply: memPR.
  have [v hv ->] : exists2 v, v \in sp_address_bits proof & l = plc_of_var F v.
    have [v [ev hv]] := iffLR (List.in_map_iff _ _ _) hl; exists v => //; exact: iffLR (GadgetLogic.In_mem _ _) hv.
  split; last by rewrite /avoids /= (ApR v hv).
  by rewrite /lc_proper /=; split=> //; move: (varange v (memA v hv)) s1 s2; clear; lia.
- by split=> //; rewrite ?b4 ?b3 ?sxP ?sxA.
- move=> i hi; rewrite q3 ?[pb_lc_values pbA]/= ?hslots //; last by move: hi; clear; lia.
  by move: hi kd k2; clear; lia.
- by rewrite plcs_isbits.
- exact: q4.
- rewrite plcs_bits bA2 => i hi; rewrite /var_isbits -(all_map (xval _) (@isbit F)) sibB // all_map.
  by apply/allP => b _ /=; rewrite /bit_val; case: b; rewrite /isbit ?eqxx ?orbT.
- by rewrite csB /isbit eqxx orbT.
- by rewrite csB => /eqP; rewrite oner_eq0.
rewrite plcs_bits bA2 in c2 c5; have [c6 c7] := c5 csB.
have [d1 d2 d3 [d4 d5]] := c2.
have m2 v : v \in flatten [seq path_side (sp_path proof) a i | i <- iota 0 D] ++ root ++ fresh_vars pbh pb1 ->
    v \in path_vars (sp_path proof) ++ root \/ (sz pbh < v <= sz pb1)%N.
  rewrite [v \in _]mem_cat => /orP [/flattenP [s /mapP [i _ ->] /path_side_sub hv]|].
    by left; rewrite [v \in _]mem_cat hv.
  by rewrite mem_cat mem_fresh // => /orP [hv|hv]; [left; rewrite [v \in _]mem_cat hv orbT|right].
exists pbA, pb'; split.
- exact: hpw.
- by rewrite /set_gadget_witness /= q1 /= c1.
- split; [by rewrite d1 b1|exact: d2|by rewrite d3 b3|].
  have ch1 : changes_only (vs ++ fresh_vars pb0 pb1) x (pb_values pbB).
    apply: changes_trans_in chP (conj b4 b5) => v; first by move=> hv; rewrite [v \in _]mem_cat hv.
    rewrite [v \in _ ++ fresh_vars pbd _]mem_cat mem_fresh // => hv; rewrite [v \in _]mem_cat mem_fresh //; apply/orP; right.
    by case/orP: hv => [/dgr|]; move: s1 s2 s3; clear; lia.
  apply: changes_trans_in ch1 (conj d4 d5) => v //.
  move/m2 => [/memPR hv|hv]; rewrite [v \in _]mem_cat ?hv // mem_fresh //; apply/orP; right.
  by move: hv s1 s2; clear; lia.
- move: c3; rewrite holds_cat => -[c3 c4].
  rewrite /proof_variable_constraints /set_gadget_constraints 3!holds_cat; split; first split=> //.
    apply/bools_holds; apply: (bitsA _ _).1 => v hv; rewrite d5 ?keepvs ?vAx //; first exact: memA.
    apply/negP => /m2 [hv'|hv']; first by have := ApR v hv; rewrite hv'.
    by move: (varange v (memA v hv)) hv' s1 s2; clear; lia.
  split=> //; apply: (q6 _ _ _ (conj d4 d5)) => v /m2 hv; split.
    rewrite [pb_values pbA]/= sxP sxA /x; case: hv => [/memPR /varange|]; move: s1 s2 s3 hsz; clear; lia.
  rewrite inE negb_or; apply/andP; split.
    apply/negP => /elP [h1 h2]; case: hv => [/memPR hv|]; first by rewrite hv in h2.
    by move: h1 s1 s2; clear; lia.
  change (v \notin dg ++ fresh_vars pbd pbh); rewrite mem_cat mem_fresh // negb_or; apply/andP; split.
    apply/negP => /dgr hv'; case: hv => [/memPR /varange|]; move: hv' s2; clear; lia.
  by case: hv => [/memPR /varange|]; move: s1 s2; clear; lia.
split=> //.
  have es : path_siblings (pb_values pbB) (sp_path proof) a = path.
    apply: (@eq_from_nth _ [::]); rewrite size_path_siblings size_map size_iota ?spath // => i hi.
    rewrite nth_path_siblings ?size_map ?size_iota //.
    have := sibB i hi; rewrite /path_sib size_map size_iota => e3.
    rewrite /var_bits (map_comp (@bit_of F) (xval _)) e3 -map_comp; apply: map_id_in => b _ /=; exact: bit_of_bit_val.
  have ea : bits_nat a = address by rewrite bits_nat_test_bit modn_small.
  move/path_connects_graph: c7; rewrite es ea q5 /path_verifies => <-; rewrite -hver /path_verifies.
  have -> // : var_bits (pb_values pbA) element = var_bits x element.
  by rewrite /var_bits (map_comp (@bit_of F) (xval _)) elx -map_comp.
have [_ ->] : var_isbits (pb_values pb') (sp_address_bits proof) /\ var_bits (pb_values pb') (sp_address_bits proof) = a.
  apply: bitsA => v hv; rewrite d5 ?keepvs ?vAx //; first exact: memA.
  apply/negP => /m2 [hv'|hv']; first by have := ApR v hv; rewrite hv'.
  by move: (varange v (memA v hv)) hv' s1 s2; clear; lia.
by rewrite bits_nat_test_bit modn_small.
Qed.
End Complete.
End SetGadget.
