(** Facts about the remaining basic gadgets: multipacking, copying bit vectors,
    linear combinations and gadgets made from R1CS instances. *)
From mathcomp Require Import all_ssreflect all_algebra zify.
From Verif Require Import Outcome Lincomb LincombSpec LincombFacts R1CS R1CSSpec R1CSFacts Fieldtac.
From Verif Require Import Protoboard GadgetSpec GadgetLogic BasicGadgets BasicGadgetsFacts BasicGadgetsMore.
Set Implicit Arguments.
Unset Strict Implicit.
Unset Printing Implicit Defensive.
Local Open Scope ring_scope.
Import GRing.Theory.

Section Copy.
Variable F : fieldType.
Variable R : bigint_repr F.
Add Field Ff : (Fth F).
Implicit Types (x k : seq F) (pb : protoboard F) (slot : nat -> linear_combination F).

(** * Multipacking *)
Definition chunks (T : Type) (s : seq T) (c : nat) : seq (seq T) :=
  [seq chunk_slice s c i | i <- iota 0 (div_ceil (size s) c)].
Lemma size_chunks (T : Type) (s : seq T) c : size (chunks s c) = div_ceil (size s) c.
Proof. by rewrite size_map size_iota. Qed.
Lemma chunks_flatten (T : Type) (s : seq T) c : (0 < c)%N -> flatten (chunks s c) = s.
Proof. by move=> hc; apply: chunk_slice_flatten; apply: div_ceil_bound. Qed.
Lemma chunks_map (A B : Type) (f : A -> B) (s : seq A) c : chunks (map f s) c = map (map f) (chunks s c).
Proof. by rewrite /chunks size_map -map_comp; apply: eq_map => i; apply: chunk_slice_map. Qed.

Lemma multipacking_new_zip (bits packed : pb_linear_combination_array F) c g :
  multipacking_new bits packed c = Ok g ->
  [/\ (0 < c)%N, size packed = div_ceil (size bits) c &
      g = [seq Packing p.1 p.2 | p <- zip (chunks bits c) packed]].
Proof.
rewrite /multipacking_new; case: (posnP c) => [->//|hc].
rewrite /oassert; case: eqP => //= hs [<-]; split=> //.
have : size packed = size (iota 0 (div_ceil (size bits) c)) by rewrite size_iota.
rewrite /chunks; move: (iota 0 _) => s; elim: s packed {hs} => [|i s IH] [|p ps] //= [/IH ->] //.
Qed.

Lemma multipacking_from_bits_ok pb x k slot (bits : pb_linear_combination_array F) vs c g :
  multipacking_new bits (plcs_of_vars F vs) c = Ok g ->
  (forall l, List.In l bits -> lc_proper slot (size x) (size k) l) ->
  assignable (size x) vs -> all (fun l => avoids vs (lc_terms l)) bits ->
  all (fun l => isbit (lval x l)) bits ->
  exists x' k',
    [/\ multipacking_witness_from_bits g (upd pb x k) = Ok (upd pb x' k'),
        wstep slot vs x k x' k',
        map (xval x') vs = [seq pack (map (lval x) p) | p <- chunks bits c] &
        holds (multipacking_constraints g true) x'].
Proof.
move=> /multipacking_new_zip [hc]; rewrite size_map => hs hg hp hv ha hb.
pose ps := zip (chunks bits c) vs.
have ef : map fst ps = chunks bits c by rewrite fst_zip // size_chunks.
have es : map snd ps = vs by rewrite /ps -/unzip2 unzip2_zip // size_chunks hs.
have eg : g = [seq Packing p.1 (plc_of_var F p.2) | p <- ps].
  rewrite hg /ps /plcs_of_vars; elim: (chunks bits c) (vs) => [|a s IH] [|v ws] //=; congr cons; exact: IH.
have fl : flatten (map fst ps) = bits by rewrite ef chunks_flatten.
have := @multi_bits_ok F pb x k slot ps; rewrite fl es -eg /=.
have -> : [seq pack [seq lval x i | i <- p.1] | p <- ps] = [seq pack [seq lval x i | i <- p] | p <- chunks bits c].
  by rewrite -ef -map_comp.
exact.
Qed.

Lemma multipacking_from_packed_ok pb x k slot (bits : seq nat) (packed : pb_linear_combination_array F) c g :
  multipacking_new (plcs_of_vars F bits) packed c = Ok g ->
  assignable (size x) bits ->
  (forall l, List.In l packed -> lc_proper slot (size x) (size k) l) ->
  all (fun l => avoids bits (lc_terms l)) packed ->
  (forall i, (i < size packed)%N -> (as_bigint R (lval x (lc_nth packed i)) < 2 ^ size (chunk_slice bits c i))%N) ->
  exists x' k',
    [/\ multipacking_witness_from_packed R g (upd pb x k) = Ok (upd pb x' k'),
        wstep slot bits x k x' k' & holds (multipacking_constraints g true) x'].
Proof.
move=> /multipacking_new_zip [hc]; rewrite size_map => hs hg hv hp ha hb.
pose ps := zip (chunks bits c) packed.
have ef : map fst ps = chunks bits c by rewrite fst_zip // size_chunks.
have es : map snd ps = packed by rewrite /ps -/unzip2 unzip2_zip // size_chunks hs.
have eg : g = [seq Packing (plcs_of_vars F p.1) p.2 | p <- ps].
  rewrite hg /ps /plcs_of_vars chunks_map; elim: (chunks bits c) (packed) => [|a s IH] [|v ws] //=.
  by congr cons; exact: IH.
have fl : flatten (map fst ps) = bits by rewrite ef chunks_flatten.
have := @multi_packed_ok F R pb x k slot ps; rewrite fl es -eg /=; apply=> //.
apply/(all_nthP ([::], PbLc false 0%N [::])) => i; rewrite size_zip size_chunks hs minnn => hi.
rewrite /ps nth_zip ?size_chunks ?hs //= (nth_map 0%N) ?size_iota // nth_iota // add0n.
by apply: hb; rewrite hs.
Qed.

(** * Copying bit vectors *)
Record bc_shape (g : bit_vector_copy F) (c : nat) : Prop := BcShape {
  bcs_size : size (bc_source g) = size (bc_target g);
  bcs_ps : size (bc_packed_source g) = size (bc_packed_target g);
  bcs_source : multipacking_new (plcs_of_vars F (bc_source g)) (plcs_of_vars F (bc_packed_source g)) c
               = Ok (bc_pack_source g);
  bcs_target : multipacking_new (plcs_of_vars F (bc_target g)) (plcs_of_vars F (bc_packed_target g)) c
               = Ok (bc_pack_target g);
  bcs_copier : bc_copier g = FieldVectorCopy (bc_packed_source g) (bc_packed_target g) (bc_do_copy g) }.

Lemma chunk_slice_In (T : Type) (s : seq T) c i a : List.In a (chunk_slice s c i) -> List.In a s.
Proof.
rewrite /chunk_slice => h; rewrite -(cat_take_drop (minn (i.+1 * c) (size s)) s).
rewrite -(cat_take_drop (i * c) (take _ s)); apply/List.in_app_iff; left.
by apply/List.in_app_iff; right.
Qed.

Lemma pack_inj (a b : seq F) : size a = size b -> all (@isbit F) a -> all (@isbit F) b ->
  (2 ^ size a <= fp_order R)%N -> pack a = pack b -> a = b.
Proof.
move=> hs ha hb hn; rewrite (pack_bits ha) (pack_bits hb) => /(@natF_inj F R) h.
have {}h : bits_nat (map (@bit_of F) a) = bits_nat (map (@bit_of F) b).
  by apply: h; apply: leq_trans hn; rewrite ?hs; apply: leq_trans (bits_nat_lt _) _; rewrite size_map ?hs.
have e := bits_nat_inj _ h; rewrite !size_map in e; have {}e := e hs.
have inv s : all (@isbit F) s -> s = [seq (nat_of_bool c)%:R | c <- map (@bit_of F) s].
  by elim: s => [|u s IH] //= /andP [hu /IH <-]; rewrite -(isbitP hu).
by rewrite (inv a ha) (inv b hb) e.
Qed.

Lemma plc_nth vs i : (i < size vs)%N -> lc_nth (plcs_of_vars F vs) i = plc_of_var F (nth 0%N vs i).
Proof. by move=> hi; rewrite /lc_nth (nth_map 0%N). Qed.

Lemma bit_vector_copy_sound (g : bit_vector_copy F) c e1 e2 x : bc_shape g c ->
  (2 ^ c <= fp_order R)%N -> holds (bit_vector_copy_constraints g e1 e2) x ->
  all (fun v => isbit (xval x v)) (bc_source g) -> all (fun v => isbit (xval x v)) (bc_target g) ->
  lval x (bc_do_copy g) = 0 \/ map (xval x) (bc_source g) = map (xval x) (bc_target g).
Proof.
move=> hs hc; rewrite /bit_vector_copy_constraints 2!holds_cat => -[h1 [h2 h3]] b1 b2.
move/(multipackingE _ _ (bcs_source hs)): h1 => [h1 _].
move/(multipackingE _ _ (bcs_target hs)): h2 => [h2 _].
rewrite (bcs_copier hs) in h3.
case/(field_vector_copyE (g := FieldVectorCopy _ _ _) _ (bcs_ps hs)): h3 => /= [|h3]; [by left|right].
have [c0 ns _ _] := multipacking_newE (bcs_source hs).
rewrite !size_map in h1 h2 ns.
have fl s : map (xval x) s = flatten (chunks (map (xval x) s) c) by rewrite chunks_flatten.
rewrite (fl (bc_source g)) (fl (bc_target g)) /chunks !size_map (bcs_size hs); congr flatten.
apply/eq_in_map => i; rewrite mem_iota add0n /= => hi.
have hi' : (i < div_ceil (size (bc_source g)) c)%N by rewrite (bcs_size hs).
have e1' := h1 i hi'; have e2' := h2 i hi.
rewrite plc_nth ?ns // lval_var in e1'; rewrite plc_nth -?(bcs_ps hs) ?ns // lval_var in e2'.
have e3 : xval x (nth 0%N (bc_packed_source g) i) = xval x (nth 0%N (bc_packed_target g) i).
  have := congr1 (fun s => nth 0 s i) h3.
  by rewrite !(nth_map 0%N) // -?(bcs_ps hs) ns.
move: e1' e2'; rewrite e3 => ->; rewrite !chunk_slice_map -!/(plcs_of_vars F _) !lval_vars.
have bb s j : all (fun v => isbit (xval x v)) s -> all (@isbit F) (map (xval x) (chunk_slice s c j)).
  move=> /all_InP hb; rewrite all_map; apply/all_InP => v hv.
  by apply: hb; apply: chunk_slice_In hv.
apply: pack_inj; rewrite ?bb // ?size_map.
  by rewrite /chunk_slice !size_drop !size_take (bcs_size hs).
apply: leq_trans hc; rewrite leq_exp2l //; exact: size_chunk_slice.
Qed.

Definition bc_mods (g : bit_vector_copy F) : seq nat :=
  bc_target g ++ bc_packed_source g ++ bc_packed_target g.

Lemma avoids_vars m vs : all (fun v => v \notin m) vs ->
  all (fun l => avoids m (lc_terms l)) (plcs_of_vars F vs).
Proof. by rewrite all_map => h; apply: sub_all h => v /= ->. Qed.

Lemma proper_vars slot n m vs : all (fun v => v <= n)%N vs ->
  forall o, List.In o (plcs_of_vars F vs) -> lc_proper slot n m o.
Proof.
move=> h o /List.in_map_iff [v [<- /In_mem hv]]; apply: lc_proper_plc_var; exact: (allP h).
Qed.

Lemma isbit_vars x vs : all (fun l => isbit (lval x l)) (plcs_of_vars F vs) = all (fun v => isbit (xval x v)) vs.
Proof. by rewrite all_map; apply: eq_all => v /=; rewrite lval_var. Qed.

Lemma isbit_map x y vs : map (xval x) vs = map (xval y) vs ->
  all (fun v => isbit (xval x v)) vs = all (fun v => isbit (xval y v)) vs.
Proof. by move=> h; rewrite -(all_map (xval x) (@isbit F)) h all_map. Qed.

Lemma packing_frame (g : multipacking F) m x y e : changes_only m x y ->
  all (fun p => all (fun l => avoids m (lc_terms l)) (pk_bits p) && avoids m (lc_terms (pk_packed p))) g ->
  holds (multipacking_constraints g e) x -> holds (multipacking_constraints g e) y.
Proof.
move=> hc; elim: g => [|p g IH]; first by move=> _ _; apply/holds_nil.
case/andP => /andP [h1 h2] h3; rewrite !multipacking_cons !holds_cat.
case=> /packing_constraintsE [a1 a2] a3; split; last exact: IH.
apply/packing_constraintsE; rewrite (changes_lvals hc h1); split.
  by rewrite -a1; apply: changes_fs hc h2.
move=> /a2; rewrite -(all_map (lval x) (@isbit F)) -(changes_lvals hc h1) all_map //.
Qed.

Lemma In_zip (A B : Type) (s : seq A) (t : seq B) a b : List.In (a, b) (zip s t) -> List.In a s /\ List.In b t.
Proof.
elim: s t => [|c s IH] [|d t] //= [[-> ->]|/IH [h1 h2]]; first by split; left.
by split; right.
Qed.

Lemma avoids_packers m bits vs c g : multipacking_new (plcs_of_vars F bits) (plcs_of_vars F vs) c = Ok g ->
  all (fun v => v \notin m) bits -> all (fun v => v \notin m) vs ->
  all (fun p => all (fun l => avoids m (lc_terms l)) (pk_bits p) && avoids m (lc_terms (pk_packed p))) g.
Proof.
move=> /multipacking_new_zip [hc hs ->] hb hv; rewrite all_map; apply/all_InP => -[p q] hin /=.
have [hin1 hin2] := In_zip hin.
apply/andP; split.
  apply/all_InP => o ho; move/all_InP: (avoids_vars hb); apply.
  rewrite -(chunks_flatten (plcs_of_vars F bits) hc); apply/In_flatten; by exists p.
by move/all_InP: (avoids_vars hv); apply.
Qed.

Lemma bit_vector_copy_ok pb x k slot (g : bit_vector_copy F) c : bc_shape g c ->
  assignable (size x) (bc_mods g) ->
  all (fun v => v <= size x)%N (bc_source g) -> all (fun v => v \notin bc_mods g) (bc_source g) ->
  lc_proper slot (size x) (size k) (bc_do_copy g) -> avoids (bc_mods g) (lc_terms (bc_do_copy g)) ->
  isbit (lval x (bc_do_copy g)) ->
  all (fun v => isbit (xval x v)) (bc_source g) ->
  (lval x (bc_do_copy g) = 0 -> all (fun v => isbit (xval x v)) (bc_target g)) ->
  exists x' k', [/\ bit_vector_copy_witness g (upd pb x k) = Ok (upd pb x' k'),
    wstep slot (bc_mods g) x k x' k', holds (bit_vector_copy_constraints g true true) x' &
    map (xval x') (bc_target g) =
      map (xval x) (if lval x (bc_do_copy g) == 1 then bc_source g else bc_target g)].
Proof.
move=> hs hm hr hn hp ha hb b1 b2.
have [k1 [e1 w1 c1]] := @wstep_eval F pb slot x k _ hp.
have hrd := read_cached pb (wstep_proper w1 hp) c1.
move/assignable_cat: (hm) => [mt mp mtp]; move/assignable_cat: (mp) => [ms mq msq].
have sn (m : seq nat) vs : {subset m <= bc_mods g} -> all (fun v => v \notin bc_mods g) vs -> all (fun v => v \notin m) vs.
  by move=> hsub; apply: sub_all => v; apply: contra => /hsub.
have sub1 : {subset bc_target g <= bc_mods g} by move=> v hv; rewrite /bc_mods mem_cat hv.
have sub2 : {subset bc_packed_source g <= bc_mods g} by move=> v hv; rewrite /bc_mods !mem_cat hv orbT.
have sub3 : {subset bc_packed_target g <= bc_mods g} by move=> v hv; rewrite /bc_mods !mem_cat hv !orbT.
have dis (a b : seq nat) : all (fun v => v \notin a) b -> all (fun v => v \notin b) a.
  by move=> h; apply/allP => v hv; apply/negP => /(allP h); rewrite hv.
have [mtp1 mtp2] : all (fun v => v \notin bc_packed_source g) (bc_target g) /\
                   all (fun v => v \notin bc_packed_target g) (bc_target g).
  by move: mtp; rewrite all_cat => /andP [h1 h2]; split; apply: dis.
(* the copy *)
have [x2 [e2 c2 bt2 v2]] : exists x2, [/\
   (if lval x (bc_do_copy g) == 1 then copy_vars (upd pb x k1) (zip (bc_source g) (bc_target g)) else Ok (upd pb x k1))
     = Ok (upd pb x2 k1), changes_only (bc_target g) x x2, all (fun v => isbit (xval x2 v)) (bc_target g) &
   map (xval x2) (bc_target g) = map (xval x) (if lval x (bc_do_copy g) == 1 then bc_source g else bc_target g)].
  case: eqP => [h1|h1].
    have [x2 [e2 c2 v2]] := @copy_vars_ok F pb x k1 _ _ (bcs_size hs) mt hr (sn _ _ sub1 hn).
    exists x2; split=> //; rewrite -(all_map (xval x2) (@isbit F)) v2 all_map //.
  exists x; split=> //; apply: b2.
  by move: hb; rewrite /isbit => /orP [/eqP //|/eqP].
have s2 := changes_size c2.
have m2 : map (xval x2) (bc_source g) = map (xval x) (bc_source g) by apply: changes_map c2 (sn _ _ sub1 hn).
have w2 : wstep slot (bc_target g) x k x2 k1 by apply: (wstep_trans (m1 := [::]) (m2 := bc_target g)) w1 (wstep_changes slot k1 c2).
(* packing the source *)
have [||||x3 [k3 [e3 w3 v3 h3]]] := @multipacking_from_bits_ok pb x2 k1 slot _ _ _ _ (bcs_source hs).
- by apply: proper_vars; rewrite s2.
- by rewrite s2.
- exact: avoids_vars (sn _ _ sub2 hn).
- by rewrite isbit_vars (isbit_map m2).
have w3' : wstep slot (bc_target g ++ bc_packed_source g) x k x3 k3 by apply: wstep_trans w2 w3; subset_tac.
have s3 := wstep_size w3'.
have bt3 : map (xval x3) (bc_target g) = map (xval x2) (bc_target g) by apply: changes_map (wstep_changes_only w3) _.
(* packing the target *)
have [||||x4 [k4 [e4 w4 v4 h4]]] := @multipacking_from_bits_ok pb x3 k3 slot _ _ _ _ (bcs_target hs).
- by apply: proper_vars; rewrite s3; apply: assignable_range.
- by rewrite s3.
- exact: avoids_vars.
- by rewrite isbit_vars (isbit_map bt3).
have bt4 : map (xval x4) (bc_target g) = map (xval x3) (bc_target g) by apply: changes_map (wstep_changes_only w4) _.
have w04 : wstep slot (bc_mods g) x k x4 k4.
  by apply: (wstep_trans _ _ w3' w4) => v; rewrite /bc_mods !mem_cat; [rewrite orbA => ->|move=> ->; rewrite !orbT].
exists x4, k4; split=> //; last by rewrite bt4 bt3 v2.
  rewrite /bit_vector_copy_witness e1 /= hrd /=.
  have -> /= : (lval x (bc_do_copy g) == 0) || (lval x (bc_do_copy g) == 1) by [].
  by rewrite e2 /= e3 /= e4.
rewrite /bit_vector_copy_constraints !holds_cat; split; last split=> //.
  apply: (packing_frame (wstep_changes_only w4)) h3.
  apply: (avoids_packers (bcs_source hs)); first exact: sn _ _ sub3 hn.
  exact: dis.
rewrite (bcs_copier hs); apply/(field_vector_copyE (g := FieldVectorCopy _ _ _) _ (bcs_ps hs)) => /=.
case/orP: (hb) => /eqP hd; [left|right].
  by have -> : lval x4 (bc_do_copy g) = lval x (bc_do_copy g) by exact: changes_fs (wstep_changes_only w04) ha.
rewrite v4 (changes_map (wstep_changes_only w4)) ?v3; last exact: dis.
rewrite -!(map_comp _ _) /chunks !size_map (bcs_size hs); apply: eq_map => i /=.
by rewrite !chunk_slice_map -!/(plcs_of_vars F _) !lval_vars -!chunk_slice_map bt3 v2 hd eqxx m2.
Qed.

(** * Linear combinations of groups of variables *)
Definition lcw_value x (b : F) (v : seq (seq nat * F)) i : F :=
  b + \sum_(pc <- v) pc.2 * xval x (nth 0%N pc.1 i).

Lemma lcw_lc_ok x (v : seq (seq nat * F)) i (l0 : linear_combination F) : all (fun pc => i < size pc.1)%N v ->
  exists l, ofold (fun l (pc : seq nat * F) => let! u := oget pc.1 i in Ok (add_term l (lt_mk u pc.2))) l0 v = Ok l /\
    formal_sum l x = formal_sum l0 x + \sum_(pc <- v) pc.2 * xval x (nth 0%N pc.1 i).
Proof.
elim: v l0 => [|pc v IH] l0 /=; first by move=> _; exists l0; rewrite big_nil addr0.
case/andP => hi hv; rewrite (@oget_nth _ 0%N) //=.
have [l [h1 h2]] := IH (add_term l0 (lt_mk (nth 0%N pc.1 i) pc.2)) hv.
by exists l; split=> //; rewrite h2 big_cons !fsE /= addrA.
Qed.

Lemma linear_combination_constraintsE (base : seq F) (v : seq (seq nat * F)) (target : seq nat) :
  all (fun pc => size base <= size pc.1)%N v -> (size base <= size target)%N ->
  exists cs, linear_combination_constraints base v target = Ok cs /\
    forall x, holds cs x <-> forall i, (i < size base)%N ->
      xval x (nth 0%N target i) = lcw_value x (nth 0 base i) v i.
Proof.
move=> hv ht; rewrite /linear_combination_constraints.
have gen (s : seq (nat * F)) : all (fun ib => ib.1 < size base)%N s ->
  exists cs, omapm (fun ib =>
    let! b := ofold (fun l (pc : seq nat * F) => let! u := oget pc.1 ib.1 in Ok (add_term l (lt_mk u pc.2)))
                (add_term (@lc_zero F) (lt_mk ONE ib.2)) v in
    let! t := oget target ib.1 in
    Ok (R1csConstraint (add_term (@lc_zero F) (lt_of_var F ONE)) b (add_term (@lc_zero F) (lt_of_var F t)))) s = Ok cs /\
    forall x, holds cs x <-> forall ib, List.In ib s -> xval x (nth 0%N target ib.1) = lcw_value x ib.2 v ib.1.
  elim: s => [|ib s IH] /=; first by move=> _; exists [::]; split=> // x; rewrite holds_nil.
  case/andP => hi /IH [cs [h1 h2]].
  have hvi : all (fun pc => ib.1 < size pc.1)%N v by apply: sub_all hv => pc; apply: leq_trans.
  have [l [e1 _]] := lcw_lc_ok [::] (add_term (@lc_zero F) (lt_mk ONE ib.2)) hvi.
  have e2 x : formal_sum l x = lcw_value x ib.2 v ib.1.
    have [l' [e1' e2']] := lcw_lc_ok x (add_term (@lc_zero F) (lt_mk ONE ib.2)) hvi.
    by move: e1'; rewrite e1 => -[->]; rewrite e2' !fsE /= mulr1 add0r.
  rewrite e1 /= (@oget_nth _ 0%N) /=; last exact: leq_trans hi ht.
  rewrite h1 /=; eexists; split=> // x; rewrite holds_cons h2 /constraint_holds.
  rewrite [c_a _]/= [c_b _]/= [c_c _]/= e2 !fsE /= mul1r.
  split=> [[h3 h4] ib' [<-|]|h]; [by []|exact: h4|].
  by split=> [|ib' hib]; [rewrite h //; left|apply: h; right].
have [|cs [h1 h2]] := gen (zip (iota 0 (size base)) base).
  apply/allP => -[i b] /(map_f fst) /=; rewrite -/unzip1 unzip1_zip ?size_iota // mem_iota //.
exists cs; split=> // x; rewrite h2; split=> h.
  move=> i hi; apply: (h (i, nth 0 base i)); have := @In_zip_nth.
  move=> /(_ _ _ 0%N 0 (iota 0 (size base)) base i); rewrite size_iota nth_iota // add0n; exact.
move=> [i b] /(@In_nth_seq _ (0%N, 0)) [j]; rewrite size_zip size_iota minnn => hj.
by rewrite nth_zip ?size_iota // nth_iota // add0n => -[<- <-]; apply: h.
Qed.

Lemma lcw_fill_ok pb x k (v : seq (seq nat * F)) t i : (0 < t <= size x)%N ->
  all (fun pc => i < size pc.1)%N v -> all (fun pc => nth 0%N pc.1 i <= size x)%N v ->
  all (fun pc => nth 0%N pc.1 i != t) v ->
  exists x', [/\ ofold (fun pb (pc : seq nat * F) =>
      let! u := oget pc.1 i in let! a := pb_val pb t in let! y := pb_val pb u in pb_set pb t (a + pc.2 * y))
      (upd pb x k) v = Ok (upd pb x' k), changes_only [:: t] x x' &
    xval x' t = xval x t + \sum_(pc <- v) pc.2 * xval x (nth 0%N pc.1 i)].
Proof.
elim: v x => [|pc v IH] x ht /=; first by exists x; split=> //; rewrite big_nil addr0.
case/andP => h1 h2 /andP [h3 h4] /andP [h5 h6].
rewrite (@oget_nth _ 0%N) //= pb_val_upd /=; last by case/andP: ht.
rewrite pb_val_upd //= pb_set_upd //=.
set x1 := put x t _; have c1 : changes_only [:: t] x x1 by apply: changes_put; case/andP: ht.
have s1 := changes_size c1; rewrite -s1 in ht h4.
have [x2 [e2 c2 v2]] := IH x1 ht h2 h4 h6.
exists x2; split=> //; first exact: changes_trans_in c1 c2.
rewrite v2 big_cons /x1 xval_put_eq; last by rewrite -s1.
rewrite addrA; congr (_ + _); elim: (v) h6 => [|pd w IH'] /=; first by rewrite !big_nil.
case/andP => h7 /IH' e; rewrite !big_cons e; congr (_ * _ + _).
by apply: xval_put_neq => //; rewrite -s1; case/andP: ht.
Qed.

Lemma linear_combination_witness_ok pb x k (base : seq F) (v : seq (seq nat * F)) (target : seq nat) :
  all (fun pc => size base <= size pc.1)%N v -> size target = size base ->
  assignable (size x) target ->
  (forall pc i, List.In pc v -> (i < size base)%N ->
     (nth 0%N pc.1 i <= size x)%N /\ nth 0%N pc.1 i \notin target) ->
  exists x', [/\ linear_combination_witness base v target (upd pb x k) = Ok (upd pb x' k),
    changes_only target x x' &
    forall i, (i < size base)%N -> xval x' (nth 0%N target i) = lcw_value x' (nth 0 base i) v i].
Proof.
move=> hv hs ht hvv.
pose step := fun pb (ib : nat * F) =>
    let! t := oget target ib.1 in
    let! pb := pb_set pb t ib.2 in
    ofold (fun pb (pc : seq nat * F) => let! u := oget pc.1 ib.1 in
                        let! a := pb_val pb t in
                        let! x := pb_val pb u in
                        pb_set pb t (a + pc.2 * x)) pb v.
have lcw_eq (y z : seq F) b i : changes_only target y z -> (i < size base)%N -> lcw_value z b v i = lcw_value y b v i.
  move=> [_ hc] hi; rewrite /lcw_value; congr (_ + _).
  elim: (v) hvv => [|pc w IH] hvv'; first by rewrite !big_nil.
  rewrite !big_cons IH; last by move=> pd j hpd hj; apply: hvv' => //; right.
  by rewrite hc //; case: (hvv' pc i _ hi) => //; left.
have gen m : (m <= size base)%N -> exists x', [/\
    ofold step (upd pb x k) (zip (iota 0 m) (take m base)) = Ok (upd pb x' k), changes_only target x x' &
    forall i, (i < m)%N -> xval x' (nth 0%N target i) = lcw_value x' (nth 0 base i) v i].
  elim: m => [|m IH] hm.
    by exists x; split=> //; rewrite take0.
  have [x1 [e1 c1 v1]] := IH (ltnW hm); have s1 := changes_size c1.
  have hmt : (m < size target)%N by rewrite hs.
  have tr : (0 < nth 0%N target m <= size x)%N by apply: (allP (proj2 ht)); apply: mem_nth.
  have tin : {subset [:: nth 0%N target m] <= target} by move=> w; rewrite inE => /eqP ->; apply: mem_nth.
  set x2 := put x1 (nth 0%N target m) (nth 0 base m).
  have c2 : changes_only [:: nth 0%N target m] x1 x2 by apply: changes_put; rewrite s1; case/andP: tr.
  have s2 := changes_size c2.
  have [||||x3 [e3 c3 v3]] := @lcw_fill_ok pb x2 k v (nth 0%N target m) m.
  - by rewrite s2 s1.
  - by apply: sub_all hv => pc; apply: leq_trans.
  - by apply/all_InP => pc hpc; rewrite s2 s1; case: (hvv pc m hpc hm).
  - apply/all_InP => pc hpc; case: (hvv pc m hpc hm) => _; apply: contra => /eqP ->; exact: mem_nth.
  have c13 : changes_only [:: nth 0%N target m] x1 x3 by exact: changes_trans_in c2 c3.
  exists x3; split.
  - rewrite -addn1 iotaD addn1 (take_nth 0) // -cats1 zip_cat ?size_iota ?size_take ?hm //.
    rewrite ofold_cat e1 /= /step /= (@oget_nth _ 0%N) //= pb_set_upd ?s1 //= -/x2.
    by rewrite add0n e3.
  - by apply: changes_trans_in c1 c13.
  - move=> i; rewrite ltnS leq_eqVlt => /orP [/eqP ->|hi].
      rewrite v3 /x2 xval_put_eq ?s1 //.
      by rewrite (lcw_eq x2 x3) //; exact: changes_sub c3.
    rewrite (lcw_eq x1 x3) //; last 2 first.
    + exact: changes_sub c13.
    + exact: ltn_trans hi hm.
    rewrite -v1 //; case: c13 => _ -> //; rewrite inE nth_uniq //; last by case: ht.
      by rewrite neq_ltn hi.
    by rewrite hs (ltn_trans hi hm).
have [x' [h1 h2 h3]] := gen _ (leqnn _); rewrite take_size in h1.
by exists x'; split.
Qed.

(** * Gadgets from R1CS instances *)
Lemma translate_lcE (g : from_r1cs F) (l : linear_combination F) x :
  in_range (size (fr_vars g)) l ->
  formal_sum (translate_lc g l) x = formal_sum l (map (xval x) (fr_vars g)).
Proof.
rewrite /translate_lc /formal_sum; elim: l => [|t l IH] /=; first by rewrite !big_nil.
case/andP => ht /IH {}IH; rewrite !big_cons IH; congr (_ * _ + _).
rewrite /cs_to_vars /lt_index /=; case: t.1 ht => [|i] //= hi.
by rewrite /xval /= (nth_map 0%N).
Qed.

Lemma from_r1csE (g : from_r1cs F) x : size (fr_vars g) = num_variables (fr_cs g) -> r1cs_in_range (fr_cs g) ->
  holds (from_r1cs_constraints g) x <-> r1cs_holds (fr_cs g) (map (xval x) (fr_vars g)).
Proof.
move=> hs hr; rewrite /from_r1cs_constraints holds_map /r1cs_holds.
have e c : List.In c (constraints (fr_cs g)) ->
  constraint_holds (R1csConstraint (translate_lc g (c_a c)) (translate_lc g (c_b c)) (translate_lc g (c_c c))) x <->
  constraint_holds c (map (xval x) (fr_vars g)).
  move=> hc; move/all_InP: hr => /(_ c hc) /and3P []; rewrite -hs => h1 h2 h3.
  by rewrite /constraint_holds /= !translate_lcE.
by split=> h c hc; apply/e => //; apply: h.
Qed.

Lemma from_r1cs_witness_ok pb x k (g : from_r1cs F) (primary auxiliary : seq F) :
  size (fr_vars g) = num_variables (fr_cs g) -> assignable (size x) (fr_vars g) ->
  num_inputs (fr_cs g) = size primary -> num_variables (fr_cs g) = (size primary + size auxiliary)%N ->
  exists x', [/\ from_r1cs_witness g (upd pb x k) primary auxiliary = Ok (upd pb x' k),
    changes_only (fr_vars g) x x' & map (xval x') (fr_vars g) = primary ++ auxiliary].
Proof.
move=> hs hv hi hn.
have esz : size (fr_vars g) = (size primary + size auxiliary)%N by rewrite hs.
set p := size primary in esz *; set vs := fr_vars g in hs hv esz *.
have hcat : vs = take p vs ++ drop p vs by rewrite cat_take_drop.
have sp : size (take p vs) = p by rewrite size_take esz; case: ifP; lia.
have sa : size (drop p vs) = size auxiliary by rewrite size_drop esz; lia.
move: (hv); rewrite {1}hcat => /assignable_cat [hp ha hpa].
have [x1 [e1 c1 v1]] := @set_all_nth F pb x k (take p vs) (fun i => nth 0 primary i) hp.
rewrite sp in e1.
have [|x2 [e2 c2 v2]] := @set_all_nth F pb x1 k (drop p vs) (fun i => nth 0 auxiliary i).
  by rewrite (changes_size c1).
rewrite sa in e2.
exists x2; split.
- rewrite /from_r1cs_witness hi hn !eqxx /=.
  have -> : [seq (cs_to_vars g i.+1, nth 0 primary i) | i <- iota 0 (size primary)] =
            [seq (nth 0%N (take p vs) i, nth 0 primary i) | i <- iota 0 p].
    by apply/eq_in_map => i; rewrite mem_iota => /= hlt; rewrite /cs_to_vars /= nth_take.
  rewrite e1 /=.
  have -> : [seq (cs_to_vars g (size primary + i).+1, nth 0 auxiliary i) | i <- iota 0 (size auxiliary)] =
            [seq (nth 0%N (drop p vs) i, nth 0 auxiliary i) | i <- iota 0 (size auxiliary)].
    by apply: eq_map => i; rewrite /cs_to_vars /= nth_drop.
  by rewrite e2.
- by rewrite hcat; apply: changes_trans c1 c2.
- rewrite hcat map_cat; congr (_ ++ _).
    rewrite (changes_map c2); last first.
      by apply/allP => v hvv; apply/negP => /(allP hpa); rewrite hvv.
    apply: (@eq_from_nth _ 0); rewrite size_map sp // => i hlt.
    by rewrite (nth_map 0%N) ?sp // v1 ?sp.
  apply: (@eq_from_nth _ 0); rewrite size_map sa // => i hlt.
  by rewrite (nth_map 0%N) ?sa // v2 ?sa.
Qed.

End Copy.
