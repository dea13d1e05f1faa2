(** Soundness and completeness of the basic gadgets. *)
From mathcomp Require Import all_ssreflect all_algebra zify.
From Verif Require Import Outcome Lincomb LincombSpec LincombFacts R1CS R1CSSpec R1CSFacts Protoboard
  GadgetSpec GadgetLogic BasicGadgets Fieldtac.
Import GRing.Theory.
Set Implicit Arguments.
Unset Strict Implicit.
Unset Printing Implicit Defensive.
Local Open Scope ring_scope.

Lemma num_bits_le n m : (num_bits n <= m)%N = (n < 2 ^ m)%N.
Proof.
rewrite /num_bits; apply/idP/idP => h; last exact: up_log_min.
by apply: leq_trans (leq_pexp2l _ h) => //; apply: up_logP.
Qed.

Section Facts.
Variable F : fieldType.
Add Field Ff : (Fth F).
Implicit Types (x k : seq F) (pb : protoboard F) (slot : nat -> linear_combination F).

Lemma isbitP (a : F) : isbit a -> a = (bit_of a)%:R.
Proof. by rewrite /bit_of => /orP [] /eqP ->; rewrite ?eqxx // eq_sym oner_eq0. Qed.
Lemma isbit_nat (b : bool) : isbit (b%:R : F).
Proof. by case: b; rewrite /isbit eqxx ?orbT. Qed.
Lemma bit_of_nat (b : bool) : bit_of (b%:R : F) = b.
Proof. by case: b; rewrite /bit_of ?eqxx // eq_sym oner_eq0. Qed.
Lemma bit_valE (b : bool) : bit_val F b = b%:R. Proof. by case: b. Qed.

Lemma isbit_mul (a : F) : a * (1 - a) = 0 <-> isbit a.
Proof.
split=> [/eqP|]; first by rewrite mulf_eq0 subr_eq0 /isbit [1 == a]eq_sym.
by case/orP => /eqP ->; rewrite ?mul0r ?subrr ?mulr0.
Qed.
Lemma boolean_constraintE (l : linear_combination F) x :
  constraint_holds (boolean_constraint l) x <-> isbit (formal_sum l x).
Proof. by rewrite /constraint_holds /= !fsE; apply: isbit_mul. Qed.
Lemma equals_const_constraintE (l : linear_combination F) c x :
  constraint_holds (equals_const_constraint l c) x <-> formal_sum l x = c.
Proof. by rewrite /constraint_holds /= !fsE mul1r. Qed.

(** * Sums of linear combinations *)
Lemma pack_bits (vs : seq F) : all (@isbit F) vs -> pack vs = (bits_nat (map (@bit_of F) vs))%:R.
Proof.
by elim: vs => [|v vs IH] //= /andP [/isbitP {1}-> /IH ->]; rewrite natrD natrM.
Qed.
Lemma pack_cat (a b : seq F) : pack (a ++ b) = pack a + 2%:R ^+ size a * pack b.
Proof. by elim: a => [|v a IH] /=; [rewrite add0r mul1r|rewrite IH exprS; fring F]. Qed.

Lemma packing_terms_ok (ls : pb_linear_combination_array F) x ts c :
  formal_sum (foldl (fun (st : seq (linear_term F) * F) l =>
     (st.1 ++ [seq lt_scale t st.2 | t <- lc_terms l], st.2 + st.2)) (ts, c) ls).1 x
  = formal_sum ts x + c * pack (map (lval x) ls).
Proof.
elim: ls ts c => [|l ls IH] ts c /=; first by rewrite mulr0 addr0.
rewrite IH formal_sum_cat -/(lc_scale (lc_terms l) c) formal_sum_scale -/(lval x l).
by fring F.
Qed.
Lemma packing_sumE (ls : pb_linear_combination_array F) x :
  formal_sum (pb_packing_sum ls) x = pack (map (lval x) ls).
Proof. by rewrite /pb_packing_sum formal_sum_from_terms packing_terms_ok formal_sum_nil mul1r add0r. Qed.

Lemma packing_terms_range (ls : pb_linear_combination_array F) n ts c :
  in_range n (foldl (fun (st : seq (linear_term F) * F) l =>
     (st.1 ++ [seq lt_scale t st.2 | t <- lc_terms l], st.2 + st.2)) (ts, c) ls).1
  = in_range n ts && all (fun l => in_range n (lc_terms l)) ls.
Proof.
elim: ls ts c => [|l ls IH] ts c /=; first by rewrite andbT.
by rewrite IH in_range_cat -/(lc_scale (lc_terms l) c) in_range_scale andbA.
Qed.
Lemma packing_sum_range (ls : pb_linear_combination_array F) n :
  in_range n (pb_packing_sum ls) = all (fun l => in_range n (lc_terms l)) ls.
Proof. by rewrite /pb_packing_sum in_range_from_terms packing_terms_range. Qed.

Lemma pb_sumE (ls : pb_linear_combination_array F) x :
  formal_sum (pb_sum ls) x = \sum_(l <- ls) lval x l.
Proof.
rewrite /pb_sum; suff -> : forall acc, formal_sum (foldl (fun r l => lc_add r (lc_terms l)) acc ls) x =
  formal_sum acc x + \sum_(l <- ls) lval x l by rewrite formal_sum_zero add0r.
elim: ls => [|l ls IH] acc /=; first by rewrite big_nil addr0.
by rewrite IH formal_sum_add big_cons addrA.
Qed.
Lemma pb_coeff_sumE (ls : pb_linear_combination_array F) cs x : size ls = size cs ->
  exists2 l, pb_coeff_sum ls cs = Ok l & formal_sum l x = \sum_(lc <- zip ls cs) lc.2 * lval x lc.1.
Proof.
move=> hs; rewrite /pb_coeff_sum hs eqxx /=; eexists; first by [].
rewrite formal_sum_from_terms; elim: (zip ls cs) => [|[l c] s IH] /=; first by rewrite formal_sum_nil big_nil.
by rewrite formal_sum_cat IH -/(lc_scale (lc_terms l) c) formal_sum_scale big_cons.
Qed.

Lemma add_varsE (l : linear_combination F) vs x :
  formal_sum (add_vars l vs) x = formal_sum l x + \sum_(v <- vs) xval x v.
Proof.
rewrite /add_vars; elim: vs l => [|v vs IH] l /=; first by rewrite big_nil addr0.
by rewrite IH big_cons formal_sum_add_term /= mul1r addrA.
Qed.
Lemma sub_varsE (l : linear_combination F) vs x :
  formal_sum (sub_vars l vs) x = formal_sum l x - \sum_(v <- vs) xval x v.
Proof.
rewrite /sub_vars; elim: vs l => [|v vs IH] l /=; first by rewrite big_nil subr0.
by rewrite IH big_cons formal_sum_add_term /=; fring F.
Qed.
Lemma add_vars_range n (l : linear_combination F) vs :
  in_range n (add_vars l vs) = in_range n l && all (fun v => v <= n)%N vs.
Proof.
by rewrite /add_vars; elim: vs l => [|v vs IH] l /=; rewrite ?andbT // IH in_range_add_term /= andbA.
Qed.
Lemma sub_vars_range n (l : linear_combination F) vs :
  in_range n (sub_vars l vs) = in_range n l && all (fun v => v <= n)%N vs.
Proof.
by rewrite /sub_vars; elim: vs l => [|v vs IH] l /=; rewrite ?andbT // IH in_range_add_term /= andbA.
Qed.

Lemma lval_vars x vs : map (lval x) (plcs_of_vars F vs) = map (xval x) vs.
Proof. by rewrite /plcs_of_vars -map_comp; apply: eq_map => v /=; rewrite lval_var. Qed.

(** * Loops of assignments *)
Definition assignable n (vs : seq nat) : Prop := uniq vs /\ all (fun v => 0 < v <= n)%N vs.

Lemma set_all_ok pb x k (vxs : seq (nat * F)) : assignable (size x) (map fst vxs) ->
  exists x', [/\ set_all (upd pb x k) vxs = Ok (upd pb x' k), changes_only (map fst vxs) x x' &
                 forall v a, List.In (v, a) vxs -> xval x' v = a].
Proof.
elim: vxs x => [|[v a] vxs IH] x [/= hu ha]; first by exists x; split=> //; apply: changes_refl.
case/andP: hu => hv hu; case/andP: ha => hr ha.
have hs : size (put x v a) = size x by apply: size_put; lia.
have [|x' [h1 h2 h3]] := IH (put x v a); first by split=> //; rewrite hs.
exists x'; split.
- by rewrite /set_all ofold_cons /= pb_set_upd.
- apply: (changes_trans_in (m1 := [:: v]) (m2 := map fst vxs)) h2 => //.
  + by move=> w; rewrite !inE => ->.
  + by move=> w hw; rewrite inE hw orbT.
  + by apply: changes_put; lia.
- move=> w b [[<- <-]|] //; last exact: h3.
  by case: h2 => _ ->; rewrite ?xval_put_eq //.
Qed.

Lemma zip_map2 (A B : Type) (f : A -> B) (s : seq A) : zip s (map f s) = [seq (a, f a) | a <- s].
Proof. by elim: s => [|a s IH] //=; rewrite IH. Qed.

Lemma lcs_fill_with_bits_of_vars pb vs r :
  lcs_fill_with_bits_of pb (plcs_of_vars F vs) r =
  set_all pb (zip vs [seq bit_val F (test_bit r i) | i <- iota 0 (size vs)]).
Proof.
rewrite /lcs_fill_with_bits_of /set_all /plcs_of_vars size_map.
elim: vs 0%N pb => [|v vs IH] i pb //=.
rewrite /pb_lc_set /=; case: (pb_set pb v _) => //= pb'; exact: IH.
Qed.

Lemma fst_zip (A B : Type) (s : seq A) (t : seq B) : size s = size t -> map fst (zip s t) = s.
Proof. by elim: s t => [|a s IH] [|b t] //= [/IH ->]. Qed.

Lemma In_zip_nth (A B : Type) (a : A) (b : B) s t i : size s = size t -> (i < size s)%N ->
  List.In (nth a s i, nth b t i) (zip s t).
Proof. by elim: s t i => [|c s IH] [|d t] [|i] //= [h] hi; [left|right; apply: IH]. Qed.

Lemma fill_bits_ok pb x k vs r : assignable (size x) vs ->
  exists x', [/\ lcs_fill_with_bits_of (upd pb x k) (plcs_of_vars F vs) r = Ok (upd pb x' k),
                 changes_only vs x x' &
                 map (xval x') vs = [seq (test_bit r i)%:R | i <- iota 0 (size vs)]].
Proof.
move=> hv; rewrite lcs_fill_with_bits_of_vars.
have hz : map fst (zip vs [seq bit_val F (test_bit r i) | i <- iota 0 (size vs)]) = vs.
  by rewrite fst_zip // size_map size_iota.
have [|x' [h1 h2 h3]] := @set_all_ok pb x k (zip vs [seq bit_val F (test_bit r i) | i <- iota 0 (size vs)]).
  by rewrite hz.
rewrite hz in h2; exists x'; split=> //.
apply: (@eq_from_nth _ 0); rewrite !size_map ?size_iota // => i hi.
rewrite (nth_map 0%N) // (nth_map 0%N) ?size_iota // nth_iota // add0n -bit_valE.
apply: h3; have -> : bit_val F (test_bit r i) = nth 0 [seq bit_val F (test_bit r j) | j <- iota 0 (size vs)] i.
  by rewrite (nth_map 0%N) ?size_iota // nth_iota // add0n.
by apply: In_zip_nth; rewrite // size_map size_iota.
Qed.

(** * Packing *)
Lemma packing_constraintsE (g : packing F) e x :
  holds (packing_constraints g e) x <->
  lval x (pk_packed g) = pack (map (lval x) (pk_bits g)) /\ (e -> all (fun b => isbit (lval x b)) (pk_bits g)).
Proof.
rewrite /packing_constraints holds_cons /constraint_holds /= packing_sumE !fsE mul1r.
have -> : (lval x (pk_packed g) = formal_sum (lc_terms (pk_packed g)) x) by [].
case: e; last by rewrite holds_nil; split=> [[<-]|[-> _]].
rewrite holds_map; split=> [[<- h]|[-> h]]; split=> //.
  move=> _; elim: (pk_bits g) h => [|b bs IH] //= h.
  by rewrite IH; [rewrite andbT; apply/boolean_constraintE; apply: h; left|move=> t ht; apply: h; right].
move=> t ht; apply/boolean_constraintE; move: (h isT) ht; clear h.
by elim: (pk_bits g) => [|b bs IH] //= /andP [h1 h2] [<-|] //; exact: IH.
Qed.

Lemma packing_range n (g : packing F) e :
  all (fun l => in_range n (lc_terms l)) (pk_bits g) -> in_range n (lc_terms (pk_packed g)) ->
  cs_in_range n (packing_constraints g e).
Proof.
move=> h1 h2; rewrite /cs_in_range /= /constraint_in_range /= packing_sum_range h1 h2 /=.
case: e => //; rewrite all_map; apply: sub_all h1 => l /= hl.
by rewrite /constraint_in_range /= !irE hl.
Qed.

Variable R : bigint_repr F.

Lemma packing_from_packed_ok pb x k slot vs (packed : pb_linear_combination F) :
  assignable (size x) vs -> lc_proper slot (size x) (size k) packed -> avoids vs (lc_terms packed) ->
  (as_bigint R (lval x packed) < 2 ^ size vs)%N ->
  exists x' k',
    [/\ packing_witness_from_packed R (Packing (plcs_of_vars F vs) packed) (upd pb x k) = Ok (upd pb x' k'),
        wstep slot vs x k x' k',
        map (xval x') vs = [seq (test_bit (as_bigint R (lval x packed)) i)%:R | i <- iota 0 (size vs)] &
        holds (packing_constraints (Packing (plcs_of_vars F vs) packed) true) x'].
Proof.
move=> hv hp ha hb; have [k1 [e1 g1 c1]] := @lc_evaluate_ok F pb x k slot packed hp.
have hp1 : lc_proper slot (size x) (size k1) packed by rewrite (proj1 g1).
have [x2 [e2 c2 v2]] := @fill_bits_ok pb x k1 vs (as_bigint R (lval x packed)) hv.
exists x2, k1; split=> //; last first.
- apply/packing_constraintsE => /=; rewrite lval_vars v2; split.
    have -> : lval x2 packed = lval x packed by exact: changes_fs c2 ha.
    rewrite pack_bits; last by apply/allP => a /mapP [i _ ->]; apply: isbit_nat.
    rewrite -map_comp (eq_map (f2 := test_bit (as_bigint R (lval x packed)))); last by move=> i /=; rewrite bit_of_nat.
    by rewrite bits_nat_test_bit modn_small // as_bigintK.
  move=> _; have : all (@isbit F) (map (xval x2) vs).
    by rewrite v2; apply/allP => a /mapP [i _ ->]; apply: isbit_nat.
  by rewrite -lval_vars all_map.
- apply: (wstep_trans (m1 := [::]) (m2 := vs)) (wstep_cache _ g1) (wstep_changes _ _ c2) => //.
- rewrite /packing_witness_from_packed /= e1 /= (read_cached pb hp1 c1) /=.
  by rewrite size_map num_bits_le hb /= e2.
Qed.

Lemma packing_from_packed_abort pb x k slot (g : packing F) :
  lc_proper slot (size x) (size k) (pk_packed g) ->
  (2 ^ size (pk_bits g) <= as_bigint R (lval x (pk_packed g)))%N ->
  packing_witness_from_packed R g (upd pb x k) = AssertFail.
Proof.
move=> hp hb; have [k1 [e1 g1 c1]] := @lc_evaluate_ok F pb x k slot _ hp.
have hp1 : lc_proper slot (size x) (size k1) (pk_packed g) by rewrite (proj1 g1).
by rewrite /packing_witness_from_packed /= e1 /= (read_cached pb hp1 c1) /= num_bits_le ltnNge hb.
Qed.

(** [get_field_element_from_bits] on up-to-date bits. *)
Lemma get_from_bits_ok pb x k slot (ls : pb_linear_combination_array F) :
  (forall l, List.In l ls -> lc_proper slot (size x) (size k) l) ->
  (forall l, List.In l ls -> cached x k l) -> all (fun l => isbit (lval x l)) ls ->
  lcs_get_field_element_from_bits (upd pb x k) ls = Ok (pack (map (lval x) ls)).
Proof.
rewrite /lcs_get_field_element_from_bits => hp hc hb.
have : forall acc, ofold (fun result l =>
    let! a := pb_lc_val (upd pb x k) l in assert! (a == 0) || (a == 1) in Ok (result + (result + a))) acc (rev ls)
  = Ok (pack (map (lval x) ls) + 2%:R ^+ size ls * acc).
  elim: ls hp hc hb => [|l ls IH] hp hc /=; first by move=> _ acc /=; rewrite mul1r add0r.
  case/andP => hl hb acc; rewrite rev_cons -cats1 ofold_cat IH //.
  - rewrite /= (read_cached pb (hp l (or_introl erefl)) (hc l (or_introl erefl))) /=.
    by move: hl; rewrite /isbit => -> /=; congr Ok; rewrite exprS; fring F.
  - by move=> o ho; apply: hp; right.
  - by move=> o ho; apply: hc; right.
by move=> ->; rewrite mulr0 addr0.
Qed.

Lemma packing_from_bits_ok pb x k slot (ls : pb_linear_combination_array F) (packed : nat) :
  (forall l, List.In l ls -> lc_proper slot (size x) (size k) l) ->
  (0 < packed <= size x)%N -> all (fun l => avoids [:: packed] (lc_terms l)) ls ->
  all (fun l => isbit (lval x l)) ls ->
  exists x' k',
    [/\ packing_witness_from_bits (Packing ls (plc_of_var F packed)) (upd pb x k) = Ok (upd pb x' k'),
        wstep slot [:: packed] x k x' k',
        xval x' packed = pack (map (lval x) ls) &
        holds (packing_constraints (Packing ls (plc_of_var F packed)) true) x'].
Proof.
move=> hp hv ha hb; have [k1 [e1 g1 c1]] := @lcs_evaluate_ok F pb x k slot ls hp.
have hp1 : forall l, List.In l ls -> lc_proper slot (size x) (size k1) l by rewrite (proj1 g1).
have hc := @changes_put F x packed (pack (map (lval x) ls)) (proj2 (andP hv)).
have hl : map (lval (put x packed (pack (map (lval x) ls)))) ls = map (lval x) ls.
  move: hc; move: (put x packed _) => y hc.
  elim: (ls) {hp hp1 c1 e1 hb} ha => [|l s IH] //= /andP [h1 h2]; rewrite IH //.
  by congr cons; apply: changes_fs hc h1.
exists (put x packed (pack (map (lval x) ls))), k1; split=> //.
- rewrite /packing_witness_from_bits /= e1 /= (get_from_bits_ok pb hp1 c1 hb) /=.
  by rewrite /pb_lc_set /= pb_set_upd.
- apply: (wstep_trans (m1 := [::]) (m2 := [:: packed])) (wstep_cache _ g1) (wstep_changes _ _ hc) => //.
- by rewrite xval_put_eq.
- apply/packing_constraintsE; rewrite /= lval_var xval_put_eq // hl; split=> // _.
  suff : all (@isbit F) (map (lval (put x packed (pack (map (lval x) ls)))) ls) by rewrite all_map.
  by rewrite hl all_map.
Qed.

(** The bits are determined by the packed value. *)
Lemma packing_unique (g : packing F) x y :
  (2 ^ size (pk_bits g) <= fp_order R)%N ->
  holds (packing_constraints g true) x -> holds (packing_constraints g true) y ->
  lval x (pk_packed g) = lval y (pk_packed g) ->
  map (lval x) (pk_bits g) = map (lval y) (pk_bits g).
Proof.
move=> hn /packing_constraintsE [hx bx] /packing_constraintsE [hy by_] he.
have ax : all (@isbit F) (map (lval x) (pk_bits g)) by rewrite all_map; apply: bx.
have ay : all (@isbit F) (map (lval y) (pk_bits g)) by rewrite all_map; apply: by_.
move: he; rewrite hx hy (pack_bits ax) (pack_bits ay) => /(@natF_inj F R) h.
have {}h : bits_nat (map (@bit_of F) (map (lval x) (pk_bits g))) =
           bits_nat (map (@bit_of F) (map (lval y) (pk_bits g))).
  by apply: h; apply: leq_trans hn; apply: leq_trans (bits_nat_lt _) _; rewrite !size_map.
have e := bits_nat_inj _ h; rewrite !size_map in e; have {}e := e erefl.
apply: (@eq_from_nth _ 0); rewrite !size_map // => i hi.
have bi s : (i < size s)%N -> all (@isbit F) s -> nth 0 s i = (nth false (map (@bit_of F) s) i)%:R.
  by move=> hs hall; rewrite (nth_map 0) //; apply: isbitP; apply: (allP hall); apply: mem_nth.
by rewrite !bi ?size_map // e.
Qed.

(** * Disjunction and conjunction *)
Lemma disjunctionE (g : disjunction) x :
  holds (disjunction_constraints F g) x <->
  let s := \sum_(v <- dj_inputs g) xval x v in
  xval x (dj_inv g) * s = xval x (dj_output g) /\ (1 - xval x (dj_output g)) * s = 0.
Proof.
rewrite /disjunction_constraints !holds_cons holds_nil /constraint_holds /=.
rewrite !add_varsE !fsE !formal_sum_cons formal_sum_nil /= !mul1r !add0r !addr0 mulN1r; tauto.
Qed.
Lemma conjunctionE (g : conjunction) x :
  holds (conjunction_constraints F g) x <->
  let s := (size (cj_inputs g))%:R - \sum_(v <- cj_inputs g) xval x v in
  xval x (cj_inv g) * s = 1 - xval x (cj_output g) /\ xval x (cj_output g) * s = 0.
Proof.
rewrite /conjunction_constraints !holds_cons holds_nil /constraint_holds /=.
rewrite !sub_varsE !fsE !formal_sum_cons !formal_sum_nil /= !mul1r !addr0 !mulN1r ?mulr1; tauto.
Qed.

Lemma sum_bits x (vs : seq nat) : all (fun v => isbit (xval x v)) vs ->
  \sum_(v <- vs) xval x v = (count (fun v => bit_of (xval x v)) vs)%:R.
Proof.
elim: vs => [|v vs IH] /=; first by rewrite big_nil.
by case/andP => /isbitP h /IH hs; rewrite big_cons hs natrD {1}h.
Qed.

Lemma disjunction_sound (g : disjunction) x :
  holds (disjunction_constraints F g) x -> (size (dj_inputs g) < fp_order R)%N ->
  all (fun v => isbit (xval x v)) (dj_inputs g) ->
  xval x (dj_output g) = (has (fun v => bit_of (xval x v)) (dj_inputs g))%:R.
Proof.
move=> /disjunctionE /= [h1 h2] hn hb; move: h1 h2; rewrite sum_bits //.
set c := count _ _; have hc : (c <= size (dj_inputs g))%N by apply: count_size.
rewrite has_count -/c => h1 /eqP; rewrite mulf_eq0.
case: (posnP c) => [c0|cp]; first by move: h1; rewrite c0 mulr0.
case/orP; first by rewrite subr_eq0 => /eqP.
rewrite (natF_eq0 R) => /dvdn_leq; rewrite cp => /(_ isT); lia.
Qed.
Lemma conjunction_sound (g : conjunction) x :
  holds (conjunction_constraints F g) x -> (size (cj_inputs g) < fp_order R)%N ->
  all (fun v => isbit (xval x v)) (cj_inputs g) ->
  xval x (cj_output g) = (all (fun v => bit_of (xval x v)) (cj_inputs g))%:R.
Proof.
move=> /conjunctionE /= [h1 h2] hn hb; move: h1 h2; rewrite sum_bits //.
set c := count _ _; have hc : (c <= size (cj_inputs g))%N by apply: count_size.
rewrite all_count -/c -natrB // => h1 /eqP; rewrite mulf_eq0.
case: (@eqP _ c (size (cj_inputs g))) => [e|ne].
  by move: h1; rewrite e subnn mulr0 => h _; rewrite -(subKr 1 (xval x _)) -h subr0.
case/orP; first by move/eqP.
by rewrite (natF_eq0 R) => /dvdn_leq; lia.
Qed.

Lemma sum_vals_ok pb x k vs s : all (fun v => v <= size x)%N vs ->
  sum_vals (upd pb x k) s vs = Ok (s + \sum_(v <- vs) xval x v).
Proof.
rewrite /sum_vals; elim: vs s => [|v vs IH] s /=; first by rewrite big_nil addr0.
by case/andP => h1 h2; rewrite pb_val_upd //= IH // big_cons addrA.
Qed.
Lemma sub_vals_ok pb x k vs s : all (fun v => v <= size x)%N vs ->
  sub_vals (upd pb x k) s vs = Ok (s - \sum_(v <- vs) xval x v).
Proof.
rewrite /sub_vals; elim: vs s => [|v vs IH] s /=; first by rewrite big_nil subr0.
by case/andP => h1 h2; rewrite pb_val_upd //= IH // big_cons opprD addrA.
Qed.

Lemma sum_frame m x y vs : changes_only m x y -> all (fun v => v \notin m) vs ->
  \sum_(v <- vs) xval y v = \sum_(v <- vs) xval x v.
Proof.
case=> _ h; elim: vs => [|v vs IH] /=; first by rewrite !big_nil.
by case/andP => h1 h2; rewrite !big_cons h // IH.
Qed.

Lemma put2 x v w a b : (0 < v <= size x)%N -> (0 < w <= size x)%N -> v != w ->
  let y := put (put x v a) w b in
  [/\ changes_only [:: v; w] x y, xval y v = a & xval y w = b].
Proof.
move=> hv hw hne y; have hs : size (put x v a) = size x by apply: size_put; lia.
have c1 : changes_only [:: v] x (put x v a) by apply: changes_put; lia.
have c2 : changes_only [:: w] (put x v a) y by apply: changes_put; lia.
split; first exact: changes_trans c1 c2.
  by rewrite /y xval_put_neq ?xval_put_eq // hs; lia.
by rewrite /y xval_put_eq // hs; lia.
Qed.

Lemma disjunction_ok pb x k (g : disjunction) :
  assignable (size x) [:: dj_inv g; dj_output g] ->
  all (fun v => v <= size x)%N (dj_inputs g) ->
  all (fun v => v \notin [:: dj_inv g; dj_output g]) (dj_inputs g) ->
  exists x', [/\ disjunction_witness g (upd pb x k) = Ok (upd pb x' k),
                 changes_only [:: dj_inv g; dj_output g] x x', holds (disjunction_constraints F g) x' &
                 xval x' (dj_output g) = (\sum_(v <- dj_inputs g) xval x v != 0)%:R].
Proof.
case=> /=; rewrite inE andbT => hne /and3P [h1 h2 _] hr hn.
rewrite /disjunction_witness sum_vals_ok //= add0r; set s := \sum_(_ <- _) _.
pose a := if s == 0 then 0 else s^-1; pose b := (s != 0)%:R : F.
have hs : size (put x (dj_inv g) a) = size x by apply: size_put; lia.
have [c va vb] := @put2 x (dj_inv g) (dj_output g) a b h1 h2 hne.
exists (put (put x (dj_inv g) a) (dj_output g) b); split=> //.
  rewrite /a /b in hs *; case: (s == 0) hs => hs /=; rewrite pb_set_upd //= pb_set_upd ?hs //.
apply/disjunctionE => /=; rewrite (sum_frame c hn) -/s va vb /a /b.
by case: eqP => [->|/eqP hz] /=; rewrite ?mulr0 // mulVf // subrr mul0r.
Qed.
Lemma conjunction_ok pb x k (g : conjunction) :
  assignable (size x) [:: cj_inv g; cj_output g] ->
  all (fun v => v <= size x)%N (cj_inputs g) ->
  all (fun v => v \notin [:: cj_inv g; cj_output g]) (cj_inputs g) ->
  exists x', [/\ conjunction_witness g (upd pb x k) = Ok (upd pb x' k),
                 changes_only [:: cj_inv g; cj_output g] x x', holds (conjunction_constraints F g) x' &
                 xval x' (cj_output g) = ((size (cj_inputs g))%:R - \sum_(v <- cj_inputs g) xval x v == 0)%:R].
Proof.
case=> /=; rewrite inE andbT => hne /and3P [h1 h2 _] hr hn.
rewrite /conjunction_witness sub_vals_ok //=; set s := _ - \sum_(_ <- _) _.
pose a := if s == 0 then 0 else s^-1; pose b := (s == 0)%:R : F.
have hs : size (put x (cj_inv g) a) = size x by apply: size_put; lia.
have [c va vb] := @put2 x (cj_inv g) (cj_output g) a b h1 h2 hne.
exists (put (put x (cj_inv g) a) (cj_output g) b); split=> //.
  rewrite /a /b in hs *; case: (s == 0) hs => hs /=; rewrite pb_set_upd //= pb_set_upd ?hs //.
apply/conjunctionE => /=; rewrite (sum_frame c hn) -/s va vb /a /b.
by case: eqP => [->|/eqP hz] /=; rewrite ?mulr0 ?mul0r ?subrr // mulVf // subr0.
Qed.

Lemma disjunction_range n (g : disjunction) :
  (dj_inv g <= n)%N -> (dj_output g <= n)%N -> all (fun v => v <= n)%N (dj_inputs g) ->
  cs_in_range n (disjunction_constraints F g).
Proof.
move=> h1 h2 h3; rewrite /cs_in_range /= /constraint_in_range /= !add_vars_range /=.
by rewrite h1 h2 h3.
Qed.
Lemma conjunction_range n (g : conjunction) :
  (cj_inv g <= n)%N -> (cj_output g <= n)%N -> all (fun v => v <= n)%N (cj_inputs g) ->
  cs_in_range n (conjunction_constraints F g).
Proof.
move=> h1 h2 h3; rewrite /cs_in_range /= /constraint_in_range /= !sub_vars_range /=.
by rewrite h1 h2 h3.
Qed.

End Facts.
