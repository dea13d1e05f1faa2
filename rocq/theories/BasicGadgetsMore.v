(** Soundness and completeness of the basic gadgets, continued: comparison, inner
    product, multiplexing, copying, multipacking, linear combinations and
    gadgets made from constraint systems. *)
From mathcomp Require Import all_ssreflect all_algebra zify.
From Verif Require Import Outcome Lincomb LincombSpec LincombFacts R1CS R1CSSpec R1CSFacts Protoboard
  GadgetSpec GadgetLogic BasicGadgets BasicGadgetsFacts Fieldtac.
Import GRing.Theory.
Set Implicit Arguments.
Unset Strict Implicit.
Unset Printing Implicit Defensive.
Local Open Scope ring_scope.

Lemma bits_nat_eq0 bs : (bits_nat bs == 0%N) = ~~ has id bs.
Proof. by elim: bs => [|b bs IH] //=; rewrite negb_or -IH; case: b => //=; lia. Qed.

Section More.
Variable F : fieldType.
Variable R : bigint_repr F.
Add Field Ff : (Fth F).
Implicit Types (x k : seq F) (pb : protoboard F) (slot : nat -> linear_combination F).

Lemma changes_map m x y (vs : seq nat) : changes_only m x y -> all (fun v => v \notin m) vs ->
  map (xval y) vs = map (xval x) vs.
Proof. by case=> _ h; elim: vs => [|v vs IH] //= /andP [h1 h2]; rewrite h // IH. Qed.
Lemma changes_size m x y : changes_only m x y -> size y = size x. Proof. by case. Qed.
Lemma assignable_le n m vs : (n <= m)%N -> assignable n vs -> assignable m vs.
Proof. by move=> h [h1 h2]; split=> //; apply: sub_all h2 => v /=; lia. Qed.
Lemma assignable_cat n a b : assignable n (a ++ b) <->
  [/\ assignable n a, assignable n b & all (fun v => v \notin a) b].
Proof.
rewrite /assignable cat_uniq all_cat; split.
  case=> /and3P [h1 h2 h3] /andP [h4 h5]; split=> //.
  by apply/allP => v hv; apply/negP => hva; move/hasP: h2; apply; exists v.
case=> -[h1 h2] [h3 h4] h5; rewrite h1 h2 h3 h4 andbT /=; split=> //.
by apply/hasPn => v hv; exact: (allP h5 v hv).
Qed.
Lemma assignable_range n vs : assignable n vs -> all (fun v => v <= n)%N vs.
Proof. by case=> _; apply: sub_all => v /andP []. Qed.
Lemma assignable1 n v : assignable n [:: v] <-> (0 < v <= n)%N.
Proof. by rewrite /assignable /= andbT; split=> [[]|]. Qed.

(** * Comparison *)
Record cm_shape (g : comparison F) (a0 : seq nat) : Prop := CmShape {
  cms_size : size a0 = cm_n g;
  cms_pack : cm_pack_alpha g = Packing (plcs_of_vars F (rcons a0 (cm_less_or_eq g))) (plc_of_var F (cm_alpha_packed g));
  cms_inputs : dj_inputs (cm_all_zeros_test g) = a0;
  cms_output : dj_output (cm_all_zeros_test g) = cm_not_all_zeros g }.

Lemma comparisonE (g : comparison F) a0 x : cm_shape g a0 ->
  holds (comparison_constraints g) x <->
  [/\ isbit (xval x (cm_not_all_zeros g)),
      holds (packing_constraints (cm_pack_alpha g) true) x,
      2%:R ^+ cm_n g + lval x (cm_B g) - lval x (cm_A g) = xval x (cm_alpha_packed g),
      holds (disjunction_constraints F (cm_all_zeros_test g)) x &
      xval x (cm_less_or_eq g) * xval x (cm_not_all_zeros g) = xval x (cm_less g)].
Proof.
move=> hs; rewrite /comparison_constraints !holds_cat !holds_cons !holds_nil boolean_constraintE.
rewrite -/(lval x (plc_of_var F (cm_not_all_zeros g))) lval_var.
rewrite /constraint_holds [c_a _]/= [c_b _]/= [c_c _]/= !fsE mul1r /lval.
by split=> [h|[h1 h2 h3 h4 h5]]; [split|]; tauto.
Qed.

Lemma natr2X n : (2 ^ n)%:R = 2%:R ^+ n :> F.
Proof. by rewrite natrX. Qed.

Lemma comparison_sound (g : comparison F) a0 x (a b : nat) : cm_shape g a0 ->
  (2 ^ (cm_n g).+1 <= fp_order R)%N -> (a < 2 ^ cm_n g)%N -> (b < 2 ^ cm_n g)%N ->
  lval x (cm_A g) = a%:R -> lval x (cm_B g) = b%:R ->
  holds (comparison_constraints g) x ->
  xval x (cm_less g) = (a < b)%N%:R /\ xval x (cm_less_or_eq g) = (a <= b)%N%:R.
Proof.
move=> hs hp ha hb eA eB /(comparisonE _ hs) [_ h2 h3 h4 h5].
move: h2; rewrite (cms_pack hs) => /packing_constraintsE /= [hp1 /(_ isT) hp2].
have hbits : all (@isbit F) (map (xval x) (rcons a0 (cm_less_or_eq g))).
  by rewrite -lval_vars all_map.
move: hp1; rewrite lval_var lval_vars -h3 eA eB pack_bits // map_rcons map_rcons.
rewrite -cats1 bits_nat_cat !size_map (cms_size hs) [bits_nat [:: _]]/= muln0 addn0.
move: hbits; rewrite map_rcons all_rcons => /andP [hl hall].
have hz := disjunction_sound h4 (R := R).
rewrite (cms_inputs hs) (cms_output hs) (cms_size hs) in hz.
have {}hz : xval x (cm_not_all_zeros g) = (has (fun v => bit_of (xval x v)) a0)%:R.
  apply: hz; last by rewrite all_map in hall.
  by apply: leq_trans hp; apply: ltn_trans (ltn_expl (cm_n g) (isT : 1 < 2)%N) _; rewrite ltn_exp2l.
have hlt : (bits_nat (map (@bit_of F) (map (xval x) a0)) < 2 ^ cm_n g)%N.
  by apply: leq_trans (bits_nat_lt _) _; rewrite !size_map (cms_size hs).
have hhas : has (fun v => bit_of (xval x v)) a0 = (bits_nat (map (@bit_of F) (map (xval x) a0)) != 0%N).
  by rewrite bits_nat_eq0 negbK has_map has_map.
set N := bits_nat _ in hlt hhas *; set L := bit_of (xval x (cm_less_or_eq g)).
rewrite -natr2X -natrD -natrB; last by lia.
move/(@natF_inj F R) => e.
have {}e : (2 ^ cm_n g + b - a = N + 2 ^ cm_n g * L)%N.
  by apply: e; apply: leq_trans hp; rewrite expnS; case: (L) => /=; lia.
have eL : L = (a <= b)%N by move: e; case: (L) => /=; case: leqP => //; lia.
have hl' := isbitP hl; rewrite -/L in hl'.
rewrite -h5 hz hhas hl' eL -natrM mulnb; split=> //; congr (nat_of_bool _)%:R.
by move: e; rewrite eL; case: leqP => /= h e; [case: ltngtP h; lia|lia].
Qed.

Definition cm_mods (g : comparison F) (a0 : seq nat) : seq nat :=
  (cm_alpha_packed g :: rcons a0 (cm_less_or_eq g)) ++
  [:: dj_inv (cm_all_zeros_test g); cm_not_all_zeros g; cm_less g].

Lemma comparison_ok pb x k slot (g : comparison F) a0 (a b : nat) : cm_shape g a0 ->
  (2 ^ (cm_n g).+1 <= fp_order R)%N -> (a < 2 ^ cm_n g)%N -> (b < 2 ^ cm_n g)%N ->
  lval x (cm_A g) = a%:R -> lval x (cm_B g) = b%:R ->
  lc_proper slot (size x) (size k) (cm_A g) -> lc_proper slot (size x) (size k) (cm_B g) ->
  assignable (size x) (cm_mods g a0) ->
  avoids (cm_mods g a0) (lc_terms (cm_A g)) -> avoids (cm_mods g a0) (lc_terms (cm_B g)) ->
  exists x' k', [/\ comparison_witness R g (upd pb x k) = Ok (upd pb x' k'),
    wstep slot (cm_mods g a0) x k x' k' & holds (comparison_constraints g) x'].
Proof.
move=> hs hp ha hb eA eB pA pB hm aA aB.
have [k1 [e1 w1 c1]] := @wstep_eval F pb slot x k _ pA.
have [k2 [e2 w2 c2]] := @wstep_eval F pb slot x k1 _ (wstep_proper w1 pB).
have w12 : wstep slot [::] x k x k2 by apply: wstep_trans w1 w2.
have cA2 : cached x k2 (cm_A g) by apply: (wstep_cached w2 pA (avoids0 _)).
pose v := (2 ^ cm_n g + b - a)%N.
have hv : (v < 2 ^ (cm_n g).+1)%N by rewrite /v expnS; lia.
have ev : 2%:R ^+ cm_n g + lval x (cm_B g) - lval x (cm_A g) = v%:R.
  by rewrite eA eB /v natrB ?natrD ?natr2X //; lia.
move/assignable_cat: (hm) => [hm1 hm2 hm12].
have [hmp hma hmpa] : [/\ (0 < cm_alpha_packed g <= size x)%N,
    assignable (size x) (rcons a0 (cm_less_or_eq g)) & cm_alpha_packed g \notin rcons a0 (cm_less_or_eq g)].
  by case: hm1 => /= /andP [h1 h2] /andP [h3 h4].
set x3 := put x (cm_alpha_packed g) v%:R.
have w3 : wstep slot [:: cm_alpha_packed g] x k2 x3 k2 by apply: wstep_put; lia.
have v3 : xval x3 (cm_alpha_packed g) = v%:R by apply: xval_put_eq.
have [||||x4 [k4 [e4 w4 v4 h4]]] :=
  @packing_from_packed_ok F R pb x3 k2 slot (rcons a0 (cm_less_or_eq g)) (plc_of_var F (cm_alpha_packed g)).
- by rewrite (wstep_size w3).
- by apply: lc_proper_plc_var; rewrite (wstep_size w3); lia.
- by rewrite /= hmpa.
- rewrite lval_var v3 as_bigint_nat; last by exact: leq_trans hv hp.
  by rewrite size_rcons (cms_size hs).
have s4 : size x4 = size x by rewrite (wstep_size w4) (wstep_size w3).
have n12 w : w \in [:: dj_inv (cm_all_zeros_test g); cm_not_all_zeros g; cm_less g] ->
    w \notin cm_alpha_packed g :: rcons a0 (cm_less_or_eq g) by exact: (allP hm12).
have [|||x5 [e5 c5 h5 v5]] := @disjunction_ok F pb x4 k4 (cm_all_zeros_test g).
- rewrite (cms_output hs) s4; case: hm2 => /=; rewrite !inE !negb_or => /andP [/andP [i1 _] _] /and4P [i2 i3 _ _].
  by split; rewrite /= ?inE ?i1 ?i2 ?i3.
- by rewrite (cms_inputs hs) s4; move: (assignable_range hma); rewrite all_rcons => /andP [].
- rewrite (cms_inputs hs) (cms_output hs); apply/allP => w hw; rewrite !inE negb_or.
  apply/andP; split; apply/eqP => ew.
    by have := n12 w; rewrite ew !inE eqxx mem_rcons inE -ew hw !orbT => /(_ isT).
  by have := n12 w; rewrite ew !inE eqxx mem_rcons inE -ew hw !orbT => /(_ isT).
rewrite (cms_output hs) in c5 v5; have w5 := wstep_changes slot k4 c5.
have s5 : size x5 = size x by rewrite (wstep_size w5).
have hle : (cm_less_or_eq g <= size x)%N.
  by have := assignable_range hma; rewrite all_rcons => /andP [].
have [hz1 hl1] : (0 < cm_not_all_zeros g <= size x)%N /\ (0 < cm_less g <= size x)%N.
  by case: hm2 => _ /= /and4P [].
set x6 := put x5 (cm_less g) (xval x5 (cm_less_or_eq g) * xval x5 (cm_not_all_zeros g)).
have w6 : wstep slot [:: cm_less g] x5 k4 x6 k4 by apply: wstep_put; lia.
have w56 : wstep slot [:: dj_inv (cm_all_zeros_test g); cm_not_all_zeros g; cm_less g] x4 k4 x6 k4.
  by apply: wstep_trans w5 w6; subset_tac.
have w36 : wstep slot (cm_mods g a0) x k2 x6 k4.
  apply: (wstep_trans (m1 := cm_alpha_packed g :: rcons a0 (cm_less_or_eq g)) _ _ _ w56); rewrite /cm_mods; try subset_tac.
  by apply: wstep_trans w3 w4; subset_tac.
have w06 : wstep slot (cm_mods g a0) x k x6 k4 by apply: (wstep_trans _ _ w12 w36).
exists x6, k4; split=> //.
- rewrite /comparison_witness e1 /= e2 /= (read_cached pb (wstep_proper w12 pB) c2) /=.
  rewrite (read_cached pb (wstep_proper w12 pA) cA2) /= ev.
  rewrite pb_set_upd //= -/x3 (cms_pack hs) e4 /= e5 /= !pb_val_upd ?s5 //=; last by lia.
  by rewrite pb_set_upd ?s5.
apply/(comparisonE _ hs).
have le_ne : cm_less g != cm_less_or_eq g.
  by apply/eqP => e; have := n12 (cm_less g); rewrite e !inE eqxx mem_rcons inE eqxx !orbT => /(_ isT).
have z_ne : cm_not_all_zeros g != cm_less g.
  by case: hm2 => /=; rewrite !inE negb_or => /andP [_ /andP []].
have x6z : xval x6 (cm_not_all_zeros g) = xval x5 (cm_not_all_zeros g) by apply: (wstep_val w6); rewrite inE.
split.
- by rewrite x6z v5; apply: isbit_nat.
- rewrite (cms_pack hs); move/packing_constraintsE: h4 => /= [h41 h42].
  apply/packing_constraintsE => /=.
  have e46 : map (xval x6) (rcons a0 (cm_less_or_eq g)) = map (xval x4) (rcons a0 (cm_less_or_eq g)).
    apply: (changes_map (wstep_changes_only w56)); apply/allP => w hw; apply/negP => /n12.
    by rewrite inE hw orbT.
  have e46' : xval x6 (cm_alpha_packed g) = xval x4 (cm_alpha_packed g).
    by apply: (wstep_val w56); apply/negP => /n12; rewrite inE eqxx.
  rewrite !lval_vars !lval_var e46 e46' in h41 *; split=> // _.
  have := h42 isT; rewrite -[all _ _]all_map -/(map (lval x4) _) => {}h42.
  have : all (@isbit F) (map (lval x6) (plcs_of_vars F (rcons a0 (cm_less_or_eq g)))).
    by rewrite lval_vars e46 -lval_vars all_map; move: h42; rewrite all_map.
  by rewrite all_map.
- rewrite (wstep_fs w06 aA : lval _ _ = lval _ _) (wstep_fs w06 aB : lval _ _ = lval _ _) ev.
  rewrite (wstep_val w56); last by apply/negP => /n12; rewrite inE eqxx.
  by rewrite (wstep_val w4 hmpa) v3.
- move/disjunctionE: h5 => /= h5; apply/disjunctionE => /=.
  rewrite (cms_inputs hs) (cms_output hs) in h5 *.
  have -> : \sum_(w <- a0) xval x6 w = \sum_(w <- a0) xval x5 w.
    apply: (sum_frame (wstep_changes_only w6)); apply/allP => w hw; rewrite inE; apply/eqP => e.
    by have := n12 w; rewrite e !inE eqxx mem_rcons inE -e hw !orbT => /(_ isT).
  rewrite x6z (wstep_val w6) // inE; case: hm2 => /=; rewrite !inE !negb_or.
  by move=> /andP [/andP [_ ->]].
- rewrite [in LHS](wstep_val w6); last by rewrite inE eq_sym.
  by rewrite x6z /x6 xval_put_eq // s5.
Qed.

Lemma comparison_range n (g : comparison F) a0 : cm_shape g a0 ->
  in_range n (lc_terms (cm_A g)) -> in_range n (lc_terms (cm_B g)) ->
  all (fun v => v <= n)%N (cm_mods g a0) -> cs_in_range n (comparison_constraints g).
Proof.
move=> hs hA hB hm; have := hm; rewrite /cm_mods all_cat [all _ (_ :: _)]/= all_rcons.
move=> /andP [/and3P [h1 h2 h3] /and4P [h4 h5 h6 _]].
rewrite /comparison_constraints; apply: cs_in_range_catI; last (apply: cs_in_range_catI; last
  (apply: cs_in_range_catI; last apply: cs_in_range_catI)).
- by rewrite /cs_in_range /= /constraint_in_range /= !irE /= h5.
- rewrite (cms_pack hs); apply: packing_range; rewrite /= ?h1 //.
  by rewrite all_map all_rcons /= h2; apply: sub_all h3 => v /= ->.
- by rewrite /cs_in_range /= /constraint_in_range /= !irE /= hA hB h1.
- by apply: disjunction_range; rewrite ?(cms_inputs hs) ?(cms_output hs).
- by rewrite /cs_in_range /= /constraint_in_range /= h2 h5 h6.
Qed.

(** * Inner product *)
Record ip_shape (g : inner_product F) : Prop := IpShape {
  ips_pos : (0 < size (ip_A g))%N;
  ips_B : size (ip_B g) = size (ip_A g);
  ips_S : size (ip_S g) = (size (ip_A g) - 1)%N }.

Definition ip_mods (g : inner_product F) : seq nat := rcons (ip_S g) (ip_result g).

Lemma ip_targetE (g : inner_product F) i : ip_shape g -> (i < size (ip_A g))%N ->
  ip_target g i = nth 0%N (ip_mods g) i.
Proof.
move=> [h1 h2 h3] hi; rewrite /ip_target /ip_mods nth_rcons h3.
by case: (ltngtP i (size (ip_A g) - 1)) => //; lia.
Qed.

(** The partial sums. *)
Definition ip_term (g : inner_product F) x i : F := lval x (lc_nth (ip_A g) i) * lval x (lc_nth (ip_B g) i).
Definition ip_sum (g : inner_product F) x m : F := \sum_(0 <= i < m) ip_term g x i.

Lemma ip_sumE (g : inner_product F) x : size (ip_A g) = size (ip_B g) ->
  ip_sum g x (size (ip_A g)) = \sum_(ab <- zip (ip_A g) (ip_B g)) lval x ab.1 * lval x ab.2.
Proof.
move=> hs; rewrite (big_nth (PbLc false 0%N [::], PbLc false 0 [::])) size_zip hs minnn.
by apply: eq_big_nat => i /andP [_ hi]; rewrite nth_zip // /ip_term /=.
Qed.

Lemma inner_productE (g : inner_product F) x : ip_shape g ->
  holds (inner_product_constraints g) x <->
  forall i, (i < size (ip_A g))%N -> xval x (nth 0%N (ip_mods g) i) = ip_sum g x i.+1.
Proof.
move=> hs; rewrite /inner_product_constraints holds_iota.
have hc i : (i < size (ip_A g))%N ->
  (constraint_holds (R1csConstraint (lc_terms (lc_nth (ip_A g) i)) (lc_terms (lc_nth (ip_B g) i))
         (var_add_lc (ip_target g i)
            (lc_of_term (if i == 0%N then lt_mk ONE (0 : F) else var_neg F (nth 0%N (ip_S g) (i - 1)))))) x
   <-> ip_term g x i = xval x (nth 0%N (ip_mods g) i) -
        (if i is i'.+1 then xval x (nth 0%N (ip_mods g) i') else 0)).
  move=> hi; rewrite /constraint_holds [c_a _]/= [c_b _]/= [c_c _]/= !fsE (ip_targetE hs hi).
  rewrite -/(ip_term g x i); case: i hi => [|i] hi /=; first by rewrite mul0r subr0 addr0.
  rewrite mulN1r subn1 /=.
  suff -> : nth 0%N (ip_mods g) i = nth 0%N (ip_S g) i by [].
  by rewrite /ip_mods nth_rcons (ips_S hs); have -> : (i < size (ip_A g) - 1)%N by lia.
split=> h.
  elim=> [|i IH] hi.
    by have /hc := h 0%N hi => /(_ hi); rewrite subr0 /ip_sum big_nat1 => <-.
  have /hc := h i.+1 hi => /(_ hi) e.
  rewrite /ip_sum big_nat_recr //= -/(ip_sum g x i.+1) -IH; last by lia.
  by rewrite e; fring F.
move=> i hi; apply/hc => //; rewrite h // {1}/ip_sum big_nat_recr //= -/(ip_sum g x i).
case: i hi => [|i] hi; first by rewrite /ip_sum big_nil add0r subr0.
by rewrite h; [fring F|lia].
Qed.

Lemma inner_product_sound (g : inner_product F) x : ip_shape g ->
  holds (inner_product_constraints g) x ->
  xval x (ip_result g) = \sum_(ab <- zip (ip_A g) (ip_B g)) lval x ab.1 * lval x ab.2.
Proof.
move=> hs /(inner_productE _ hs) h; rewrite -ip_sumE ?(ips_B hs) //.
have := h (size (ip_A g)).-1; rewrite prednK ?(ips_pos hs) //.
rewrite /ip_mods nth_rcons (ips_S hs) -subn1 ltnn eqxx; apply.
by have := ips_pos hs; lia.
Qed.

Lemma lc_nth_In (ls : pb_linear_combination_array F) i : (i < size ls)%N -> List.In (lc_nth ls i) ls.
Proof. exact: nth_In_seq. Qed.

Lemma inner_product_ok pb x k slot (g : inner_product F) : ip_shape g ->
  (forall l, List.In l (ip_A g) \/ List.In l (ip_B g) ->
     lc_proper slot (size x) (size k) l /\ avoids (ip_mods g) (lc_terms l)) ->
  assignable (size x) (ip_mods g) ->
  exists x' k', [/\ inner_product_witness g (upd pb x k) = Ok (upd pb x' k'),
    wstep slot (ip_mods g) x k x' k' & holds (inner_product_constraints g) x'].
Proof.
move=> hs hl hm.
have sm : size (ip_mods g) = size (ip_A g) by rewrite size_rcons (ips_S hs); have := ips_pos hs; lia.
pose step := fun (st : F * protoboard F) i =>
    let: (total, pb) := st in
    let! pb := lc_evaluate pb (lc_nth (ip_A g) i) in
    let! pb := lc_evaluate pb (lc_nth (ip_B g) i) in
    let! a := pb_lc_val pb (lc_nth (ip_A g) i) in
    let! b := pb_lc_val pb (lc_nth (ip_B g) i) in
    let total := total + a * b in
    let! pb := pb_set pb (ip_target g i) total in
    Ok (total, pb).
have main m : (m <= size (ip_A g))%N -> exists x' k',
    [/\ ofold step (0, upd pb x k) (iota 0 m) = Ok (ip_sum g x m, upd pb x' k'),
        wstep slot (ip_mods g) x k x' k' &
        forall j, (j < m)%N -> xval x' (nth 0%N (ip_mods g) j) = ip_sum g x j.+1].
  elim: m => [|m IH] hm'.
    exists x, k; split=> //; last exact: wstep_refl.
    by rewrite /= /ip_sum big_nil.
  have [|x1 [k1 [e1 w1 v1]]] := IH; first by lia.
  have [pA aA] := hl _ (or_introl (lc_nth_In hm')).
  have hB : (m < size (ip_B g))%N by rewrite (ips_B hs).
  have [pB aB] := hl _ (or_intror (lc_nth_In hB)).
  have [k2 [e2 w2 c2]] := @wstep_eval F pb slot x1 k1 _ (wstep_proper w1 pA).
  have w12 : wstep slot (ip_mods g) x k x1 k2 by apply: wstep_trans w1 w2.
  have [k3 [e3 w3 c3]] := @wstep_eval F pb slot x1 k2 _ (wstep_proper w12 pB).
  have w13 : wstep slot (ip_mods g) x k x1 k3 by apply: wstep_trans w12 w3.
  have c2' := wstep_cached w3 pA (avoids0 _) c2.
  have hi : nth 0%N (ip_mods g) m \in ip_mods g by apply: mem_nth; rewrite sm.
  have hir : (0 < nth 0%N (ip_mods g) m <= size x1)%N.
    by rewrite (wstep_size w1); apply: (allP (proj2 hm)).
  set x4 := put x1 (nth 0%N (ip_mods g) m) (ip_sum g x m.+1).
  have w4 : wstep slot [:: nth 0%N (ip_mods g) m] x1 k3 x4 k3 by apply: wstep_put; lia.
  have w14 : wstep slot (ip_mods g) x k x4 k3.
    by apply: (wstep_trans _ _ w13 w4) => // w; rewrite inE => /eqP ->.
  exists x4, k3; split=> //.
    rewrite -addn1 iotaD ofold_cat e1 add0n [obind _ _]/= /step e2 /= e3 /=.
    rewrite (read_cached pb (wstep_proper w13 pA) c2') /= (read_cached pb (wstep_proper w13 pB) c3) /=.
    rewrite (wstep_fs w13 aA : lval _ _ = lval _ _) (wstep_fs w13 aB : lval _ _ = lval _ _).
    rewrite ip_targetE // -/(ip_term g x m).
    have -> : ip_sum g x m + ip_term g x m = ip_sum g x m.+1 by rewrite /ip_sum big_nat_recr.
    by rewrite pb_set_upd //= addn1.
  move=> j; rewrite ltnS leq_eqVlt => /orP [/eqP ->|hj]; first by rewrite /x4 xval_put_eq.
  rewrite (wstep_val w4) ?v1 // inE nth_uniq ?sm; try by lia.
  by case: hm.
have [//|x' [k' [e w v]]] := main (size (ip_A g)).
exists x', k'; split=> //; first by rewrite /inner_product_witness -/step e.
apply/inner_productE => // i hi; rewrite v // /ip_sum; apply: eq_big_nat => j /andP [_ hj].
have hA : (j < size (ip_A g))%N by lia.
have hB : (j < size (ip_B g))%N by rewrite (ips_B hs).
have [_ aA] := hl _ (or_introl (lc_nth_In hA)).
have [_ aB] := hl _ (or_intror (lc_nth_In hB)).
by rewrite /ip_term (wstep_fs w aA : lval _ _ = lval _ _) (wstep_fs w aB : lval _ _ = lval _ _).
Qed.

Lemma inner_product_range n (g : inner_product F) : ip_shape g ->
  all (fun l => in_range n (lc_terms l)) (ip_A g) -> all (fun l => in_range n (lc_terms l)) (ip_B g) ->
  all (fun v => v <= n)%N (ip_mods g) -> cs_in_range n (inner_product_constraints g).
Proof.
move=> hs hA hB hm; rewrite /cs_in_range /inner_product_constraints all_map.
have sm : size (ip_mods g) = size (ip_A g) by rewrite size_rcons (ips_S hs); have := ips_pos hs; lia.
have hnth (ls : pb_linear_combination_array F) i : all (fun l => in_range n (lc_terms l)) ls ->
    in_range n (lc_terms (lc_nth ls i)).
  move=> h; case: (ltnP i (size ls)) => hi; last by rewrite /lc_nth nth_default.
  by elim: ls i h hi => [|l ls IH] [|i] //= /andP [h1 h2] hi //; apply: IH.
apply/allP => i; rewrite mem_iota add0n /= => hi.
rewrite /constraint_in_range [c_a _]/= [c_b _]/= [c_c _]/= !hnth // in_range_var_add in_range_term.
have hmi j : (j < size (ip_A g))%N -> (nth 0%N (ip_mods g) j <= n)%N.
  by move=> hj; apply: (allP hm); apply: mem_nth; rewrite sm.
rewrite ip_targetE // hmi //=; case: i hi => [|i] hi //=.
have := hmi i; rewrite /ip_mods nth_rcons (ips_S hs) subn1 /=.
have -> : (i < (size (ip_A g)).-1)%N by lia.
by rewrite subn1 /=; apply; lia.
Qed.

(** * Loose multiplexing *)
Record lm_shape (g : loose_mux F) : Prop := LmShape {
  lms_alpha : size (lm_alpha g) = size (lm_arr g);
  lms_ip : ip_shape (lm_compute_result g);
  lms_A : ip_A (lm_compute_result g) = plcs_of_vars F (lm_alpha g);
  lms_B : ip_B (lm_compute_result g) = lm_arr g;
  lms_res : ip_result (lm_compute_result g) = lm_result g }.

Lemma loose_muxE (g : loose_mux F) x : lm_shape g ->
  holds (loose_mux_constraints g) x <->
  [/\ forall i, (i < size (lm_arr g))%N -> xval x (nth 0%N (lm_alpha g) i) * (xval x (lm_index g) - i%:R) = 0,
      \sum_(v <- lm_alpha g) xval x v = xval x (lm_success g),
      isbit (xval x (lm_success g)) &
      holds (inner_product_constraints (lm_compute_result g)) x].
Proof.
move=> hs; rewrite /loose_mux_constraints holds_cat holds_iota 2!holds_cat 2!holds_cons !holds_nil.
rewrite boolean_constraintE -/(lval x (plc_of_var F (lm_success g))) lval_var.
have -> : constraint_holds (R1csConstraint (add_term (lc_zero F) (lt_of_var F ONE))
   (add_vars (lc_zero F) (lm_alpha g)) (add_term (lc_zero F) (lt_of_var F (lm_success g)))) x
   <-> \sum_(v <- lm_alpha g) xval x v = xval x (lm_success g).
  by rewrite /constraint_holds [c_a _]/= [c_b _]/= [c_c _]/= add_varsE !fsE /= !mul1r !add0r.
have hc : (forall i, (i < size (lm_arr g))%N ->
    constraint_holds (R1csConstraint (lc_of_var F (nth 0%N (lm_alpha g) i))
      (var_sub_lc (lm_index g) (lc_of_int F (Posz i))) (lc_of_int F 0)) x) <->
   forall i, (i < size (lm_arr g))%N -> xval x (nth 0%N (lm_alpha g) i) * (xval x (lm_index g) - i%:R) = 0.
  by split=> h i /h; rewrite /constraint_holds [c_a _]/= [c_b _]/= [c_c _]/= !fsE.
by rewrite hc; split=> [h|[h1 h2 h3 h4]]; [split|]; tauto.
Qed.

Lemma sum_nth_one (s : seq F) i : (i < size s)%N -> (forall j, (j < size s)%N -> j != i -> nth 0 s j = 0) ->
  \sum_(a <- s) a = nth 0 s i.
Proof.
move=> hi h; rewrite (big_nth 0) (big_cat_nat _ (n := i)) //=; last by lia.
rewrite big_nat big1 ?add0r; last by move=> j /andP [_ hj]; apply: h; lia.
rewrite big_ltn // big_nat big1 ?addr0 // => j /andP [h1 h2]; apply: h => //; lia.
Qed.

Lemma mux_alpha (g : loose_mux F) x : lm_shape g -> (size (lm_arr g) <= fp_order R)%N ->
  (forall i, (i < size (lm_arr g))%N -> xval x (nth 0%N (lm_alpha g) i) * (xval x (lm_index g) - i%:R) = 0) ->
  forall i, (i < size (lm_arr g))%N ->
    xval x (nth 0%N (lm_alpha g) i) = (if xval x (lm_index g) == i%:R then \sum_(v <- lm_alpha g) xval x v else 0).
Proof.
move=> hs hn h i hi; case: eqP => [e|/eqP ne]; last first.
  by move/eqP: (h i hi); rewrite mulf_eq0 subr_eq0 (negbTE ne) orbF => /eqP.
have -> : \sum_(v <- lm_alpha g) xval x v = \sum_(a <- map (xval x) (lm_alpha g)) a by rewrite big_map.
rewrite (@sum_nth_one _ i); rewrite ?size_map ?(lms_alpha hs) // ?(nth_map 0%N) ?(lms_alpha hs) //.
move=> j hj hji; rewrite (nth_map 0%N) ?(lms_alpha hs) //.
move/eqP: (h j hj); rewrite mulf_eq0 e => /orP [/eqP //|]; rewrite subr_eq0 => /eqP.
by move/(@natF_inj F R) => /(_ (leq_trans hi hn) (leq_trans hj hn)) ee; rewrite ee eqxx in hji.
Qed.

Lemma zip_sum_nth x (vs : seq nat) (ls : pb_linear_combination_array F) : size vs = size ls ->
  \sum_(ab <- zip (plcs_of_vars F vs) ls) lval x ab.1 * lval x ab.2 =
  \sum_(0 <= i < size ls) xval x (nth 0%N vs i) * lval x (lc_nth ls i).
Proof.
move=> hs; rewrite (big_nth (plc_of_var F 0%N, PbLc false 0%N [::])) size_zip size_map hs minnn.
apply: eq_big_nat => i /andP [_ hi]; rewrite nth_zip ?size_map //=.
by rewrite (nth_map 0%N) ?hs // lval_var.
Qed.

Lemma loose_mux_sound (g : loose_mux F) x : lm_shape g -> (size (lm_arr g) <= fp_order R)%N ->
  holds (loose_mux_constraints g) x ->
  (xval x (lm_success g) = 0 /\ xval x (lm_result g) = 0) \/
  (xval x (lm_success g) = 1 /\ exists i, [/\ (i < size (lm_arr g))%N, xval x (lm_index g) = i%:R &
      xval x (lm_result g) = lval x (lc_nth (lm_arr g) i)]).
Proof.
move=> hs hn /(loose_muxE _ hs) [h1 h2 h3 h4].
have ha := mux_alpha hs hn h1; rewrite h2 in ha.
have hr := inner_product_sound (lms_ip hs) h4.
rewrite (lms_res hs) (lms_A hs) (lms_B hs) zip_sum_nth ?(lms_alpha hs) // in hr.
have h0 : xval x (lm_success g) = 0 -> xval x (lm_result g) = 0.
  move=> e; rewrite hr big_nat big1 // => i /andP [_ hi]; rewrite ha // e.
  by case: ifP; rewrite mul0r.
case/orP: h3 => /eqP e; [left|right]; split=> //; first exact: h0.
have : has (fun i => xval x (lm_index g) == i%:R) (iota 0 (size (lm_arr g))).
  apply/negPn/negP => /hasPn hno; suff : (1 : F) == 0 by rewrite oner_eq0.
  rewrite -e -h2 (big_nth 0%N) (lms_alpha hs) big_nat big1 // => i /andP [_ hi].
  by rewrite ha // ifF //; apply/negbTE/hno; rewrite mem_iota.
case/hasP => i; rewrite mem_iota add0n /= => hi /eqP ei.
exists i; split=> //; rewrite hr (big_cat_nat _ (n := i)) //=; last by lia.
have hz j : (j < size (lm_arr g))%N -> j != i -> xval x (nth 0%N (lm_alpha g) j) = 0.
  move=> hj hji; rewrite ha // ei; case: eqP => // /(@natF_inj F R).
  by move=> /(_ (leq_trans hi hn) (leq_trans hj hn)) ee; rewrite ee eqxx in hji.
rewrite big_nat big1 ?add0r; last by move=> j /andP [_ hj]; rewrite hz ?mul0r //; lia.
rewrite big_ltn // big_nat big1 ?addr0; last by move=> j /andP [h5 h6]; rewrite hz ?mul0r //; lia.
by rewrite ha // ei eqxx e mul1r.
Qed.

Definition lm_mods (g : loose_mux F) : seq nat :=
  lm_alpha g ++ [:: lm_success g] ++ ip_mods (lm_compute_result g).

Lemma set_all_nth pb x k (vs : seq nat) (f : nat -> F) : assignable (size x) vs ->
  exists x', [/\ set_all (upd pb x k) [seq (nth 0%N vs i, f i) | i <- iota 0 (size vs)] = Ok (upd pb x' k),
                 changes_only vs x x' &
                 forall i, (i < size vs)%N -> xval x' (nth 0%N vs i) = f i].
Proof.
move=> hv; have e : map fst [seq (nth 0%N vs i, f i) | i <- iota 0 (size vs)] = vs.
  by rewrite -map_comp; apply: map_nth_iota.
have [|x' [h1 h2 h3]] := @set_all_ok F pb x k [seq (nth 0%N vs i, f i) | i <- iota 0 (size vs)]; first by rewrite e.
rewrite e in h2; exists x'; split=> // i hi; apply: h3.
apply/List.in_map_iff; exists i; split=> //; apply/In_iota; lia.
Qed.

Lemma loose_mux_ok pb x k slot (g : loose_mux F) : lm_shape g ->
  (forall l, List.In l (lm_arr g) -> lc_proper slot (size x) (size k) l /\ avoids (lm_mods g) (lc_terms l)) ->
  (lm_index g <= size x)%N -> lm_index g \notin lm_mods g ->
  assignable (size x) (lm_mods g) ->
  exists x' k', [/\ loose_mux_witness R g (upd pb x k) = Ok (upd pb x' k'),
    wstep slot (lm_mods g) x k x' k', holds (loose_mux_constraints g) x' &
    xval x' (lm_success g) = (as_bigint R (xval x (lm_index g)) < size (lm_arr g))%N%:R].
Proof.
move=> hs hl hi hni hm.
move/assignable_cat: (hm) => [ma mb mab]; move/assignable_cat: (mb) => [ms mi msi].
pose idx := as_bigint R (xval x (lm_index g)).
pose f i : F := if (size (lm_arr g) <= idx)%N then 0 else bit_val F (i == idx).
pose b : F := (idx < size (lm_arr g))%N%:R.
have [x1 [e1 c1 v1]] := @set_all_nth pb x k (lm_alpha g) f ma.
have s1 := changes_size c1.
have hsr : (0 < lm_success g <= size x1)%N by rewrite s1; apply/assignable1.
set x2 := put x1 (lm_success g) b.
have c2 : changes_only [:: lm_success g] x1 x2 by apply: changes_put; lia.
have c12 : changes_only (lm_alpha g ++ [:: lm_success g]) x x2 by exact: changes_trans c1 c2.
have hnsucc : lm_success g \notin lm_alpha g by apply: (allP mab); rewrite mem_cat inE eqxx.
have al2 i : (i < size (lm_alpha g))%N -> xval x2 (nth 0%N (lm_alpha g) i) = f i.
  move=> hia; rewrite -v1 //; case: c2 => _ -> //; rewrite inE; apply/eqP => e.
  by move: hnsucc; rewrite -e mem_nth.
have s2 : size x2 = size x by rewrite (changes_size c12).
have mdisj v : v \in ip_mods (lm_compute_result g) -> v \notin lm_alpha g ++ [:: lm_success g].
  move=> hv; rewrite mem_cat negb_or (allP mab) ?mem_cat ?hv ?orbT //=.
  exact: (allP msi).
have lm1 : {subset lm_alpha g ++ [:: lm_success g] <= lm_mods g}.
  by move=> v hv; rewrite /lm_mods catA mem_cat hv.
have lm2 : {subset ip_mods (lm_compute_result g) <= lm_mods g}.
  by move=> v hv; rewrite /lm_mods catA mem_cat hv orbT.
have w12 : wstep slot (lm_alpha g ++ [:: lm_success g]) x k x2 k by exact: wstep_changes.
have [||x3 [k3 [e3 w3 h3]]] := @inner_product_ok pb x2 k slot (lm_compute_result g) (lms_ip hs).
- rewrite (lms_A hs) (lms_B hs) => l [|hla]; last first.
    have [h1 h2] := hl l hla; split; first by rewrite s2.
    exact: avoids_subset lm2 h2.
  rewrite /plcs_of_vars => /List.in_map_iff [v [<- /In_mem hv]]; split.
    by apply: lc_proper_plc_var; rewrite s2; apply: (allP (assignable_range ma)).
  rewrite /= andbT; apply/negP => /mdisj; rewrite mem_cat hv //.
- by rewrite s2.
have w03 : wstep slot (lm_mods g) x k x3 k3 by apply: wstep_trans w12 w3.
have out3 v : v \in lm_alpha g ++ [:: lm_success g] -> xval x3 v = xval x2 v.
  by move=> hv; apply: (wstep_val w3); apply/negP => /mdisj; rewrite hv.
have suc3 : xval x3 (lm_success g) = b.
  by rewrite out3 ?mem_cat ?inE ?eqxx ?orbT // /x2 xval_put_eq.
have al3 i : (i < size (lm_alpha g))%N -> xval x3 (nth 0%N (lm_alpha g) i) = f i.
  by move=> hia; rewrite out3 ?al2 // mem_cat mem_nth.
exists x3, k3; split=> //.
- rewrite /loose_mux_witness pb_val_upd //= -/idx.
  have -> : (if (size (lm_arr g) <= idx)%N
     then let! pb0 := set_all (upd pb x k) [seq (nth 0%N (lm_alpha g) i, 0) | i <- iota 0 (size (lm_arr g))] in
          pb_set pb0 (lm_success g) 0
     else let! pb0 := set_all (upd pb x k)
                [seq (nth 0%N (lm_alpha g) i, bit_val F (i == idx)) | i <- iota 0 (size (lm_arr g))] in
          pb_set pb0 (lm_success g) 1) = Ok (upd pb x2 k); last exact: e3.
  rewrite /x2 /b ltnNge; move: e1; rewrite /f -(lms_alpha hs).
  by case: (size (lm_alpha g) <= idx)%N => -> /=; rewrite pb_set_upd.
- apply/loose_muxE => //; split=> //.
  + move=> i hia; rewrite al3 ?(lms_alpha hs) // (wstep_val w03) // /f.
    case: leqP => hlt; first by rewrite mul0r.
    case: eqP => [->|_] /=; last by rewrite mul0r.
    by rewrite mul1r /idx as_bigintK subrr.
  + rewrite suc3 /b; rewrite (big_nth 0%N); case: (ltnP idx (size (lm_arr g))) => hlt.
      rewrite (big_cat_nat _ (n := idx)) ?(lms_alpha hs) //=; last by lia.
      have fz j : (j < size (lm_arr g))%N -> xval x3 (nth 0%N (lm_alpha g) j) = (j == idx)%:R.
        by move=> hj; rewrite al3 ?(lms_alpha hs) // /f leqNgt hlt /= bit_valE.
      rewrite big_nat big1 ?add0r; last by move=> j /andP [_ hj]; rewrite fz; [case: eqP => //|]; lia.
      rewrite big_ltn // fz // eqxx big_nat big1 ?addr0 // => j /andP [h5 h6].
      by rewrite fz //; case: eqP => //; lia.
    by rewrite big_nat big1 // => j /andP [_ hj]; rewrite al3 // /f hlt.
  + by rewrite suc3; apply: isbit_nat.
Qed.

(** * Copying *)
Lemma field_vector_copyE (g : field_vector_copy F) x : size (fc_source g) = size (fc_target g) ->
  holds (field_vector_copy_constraints g) x <->
  (lval x (fc_do_copy g) = 0 \/ map (xval x) (fc_source g) = map (xval x) (fc_target g)).
Proof.
rewrite /field_vector_copy_constraints => hs; rewrite holds_map.
move: (fc_source g) (fc_target g) hs => s t; elim: s t => [|v s IH] [|w t] //=; first by split=> //; right.
move=> [/IH {}IH]; split=> [h|h [v' w']].
  have h1 : forall st, List.In st (zip s t) -> constraint_holds (R1csConstraint (lc_terms (fc_do_copy g))
     (var_sub_lc st.1 (lc_of_var F st.2)) (lc_of_int F 0)) x by move=> st hst; apply: h; right.
  case/IH: h1 => h1; first by left.
  have := h (v, w) (or_introl erefl); rewrite /constraint_holds [c_a _]/= [c_b _]/= [c_c _]/= !fsE.
  move/eqP; rewrite mulf_eq0 subr_eq0 => /orP [/eqP e|/eqP e]; first by left.
  by right; rewrite e h1.
case=> [[<- <-]|hin].
  rewrite /constraint_holds [c_a _]/= [c_b _]/= [c_c _]/= !fsE /=.
  case: h => [e|[-> _]]; last by rewrite subrr mulr0.
  by have -> : formal_sum (lc_terms (fc_do_copy g)) x = 0 by []; rewrite mul0r.
have /IH h1 : lval x (fc_do_copy g) = 0 \/ [seq xval x i | i <- s] = [seq xval x i | i <- t].
  by case: h => [|[_ ]]; [left|right].
exact: h1 hin.
Qed.

Lemma copy_vars_ok pb x k (s t : seq nat) : size s = size t -> assignable (size x) t ->
  all (fun v => v <= size x)%N s -> all (fun v => v \notin t) s ->
  exists x', [/\ copy_vars (upd pb x k) (zip s t) = Ok (upd pb x' k), changes_only t x x' &
                 map (xval x') t = map (xval x) s].
Proof.
elim: s t x => [|v s IH] [|w t] //= x; first by move=> *; exists x; split=> //; apply: changes_refl.
move=> [hs] [/= /andP [hw hu] /andP [hwr ht]] /andP [hv hsr] /andP [hvn hn].
set x1 := put x w (xval x v); have c1 : changes_only [:: w] x x1 by apply: changes_put; lia.
have s1 := changes_size c1.
have [|||x2 [e2 c2 v2]] := IH t x1 hs.
- by split=> //; rewrite s1.
- by rewrite s1.
- by apply: sub_all hn => u; rewrite inE negb_or => /andP [].
exists x2; split.
- by rewrite /copy_vars ofold_cons /= pb_val_upd //= pb_set_upd.
- by apply: (changes_trans_in (m1 := [:: w]) (m2 := t)) c1 c2; subset_tac.
- rewrite v2; congr cons; first by case: c2 => _ -> //; rewrite /x1 xval_put_eq.
  apply: changes_map c1 _; apply: sub_all hn => u; rewrite !inE negb_or => /andP [] //.
Qed.

Lemma field_vector_copy_ok pb x k slot (g : field_vector_copy F) :
  size (fc_source g) = size (fc_target g) -> assignable (size x) (fc_target g) ->
  all (fun v => v <= size x)%N (fc_source g) -> all (fun v => v \notin fc_target g) (fc_source g) ->
  lc_proper slot (size x) (size k) (fc_do_copy g) -> avoids (fc_target g) (lc_terms (fc_do_copy g)) ->
  isbit (lval x (fc_do_copy g)) ->
  exists x' k', [/\ field_vector_copy_witness g (upd pb x k) = Ok (upd pb x' k'),
    wstep slot (fc_target g) x k x' k', holds (field_vector_copy_constraints g) x' &
    lval x (fc_do_copy g) = 0 -> x' = x].
Proof.
move=> hs ht hr hn hp ha hb.
have [k1 [e1 w1 c1]] := @wstep_eval F pb slot x k _ hp.
have hrd := read_cached pb (wstep_proper w1 hp) c1.
have hass : (lval x (fc_do_copy g) == 1) || (lval x (fc_do_copy g) == 0) by rewrite orbC.
case: (@eqP _ (lval x (fc_do_copy g)) 0) => [h0|h0].
  exists x, k1; split=> //.
  - by rewrite /field_vector_copy_witness e1 /= hrd /= h0 eqxx orbT.
  - exact: wstep_sub w1.
  - by apply/field_vector_copyE => //; left.
have [x2 [e2 c2 v2]] := @copy_vars_ok pb x k1 _ _ hs ht hr hn.
exists x2, k1; split=> //.
- rewrite /field_vector_copy_witness e1 /= hrd /= hass /=.
  by rewrite ifT //; apply/eqP.
- by apply: wstep_trans w1 (wstep_changes slot k1 c2).
- by apply/field_vector_copyE => //; right; rewrite v2 (changes_map c2 hn).
Qed.

(** * Multipacking *)
Lemma chunk_slice_flatten (T : Type) (s : seq T) c n : (size s <= n * c)%N ->
  flatten [seq chunk_slice s c i | i <- iota 0 n] = s.
Proof.
move=> hn; have h m : flatten [seq chunk_slice s c i | i <- iota 0 m] = take (minn (m * c) (size s)) s.
  elim: m => [|m IH]; first by rewrite min0n take0.
  rewrite -addn1 iotaD map_cat flatten_cat IH /= cats0 /chunk_slice add0n addn1.
  set t := take (minn (m.+1 * c) (size s)) s.
  have -> : take (minn (m * c) (size s)) s = take (m * c) t.
    rewrite /t; case: (leqP (size s) (m * c)) => h1.
      have hm : minn (m.+1 * c) (size s) = size s by rewrite mulSn; lia.
      by rewrite hm take_size take_oversize.
    by rewrite take_take // leq_min (ltnW h1) mulSn leq_addl.
  exact: cat_take_drop.
by rewrite h take_oversize //; lia.
Qed.

Lemma div_ceil_bound n c : (0 < c)%N -> (n <= div_ceil n c * c)%N.
Proof.
move=> hc; rewrite /div_ceil; have := divn_eq (n + (c - 1)) c.
by have := ltn_pmod (n + (c - 1)) hc; lia.
Qed.
Lemma div_ceil_le n c m : (0 < c)%N -> (n <= m * c)%N -> (div_ceil n c <= m)%N.
Proof.
move=> hc h; rewrite /div_ceil -ltnS ltn_divLR //; lia.
Qed.

Lemma size_chunk_slice (T : Type) (s : seq T) c i : (size (chunk_slice s c i) <= c)%N.
Proof. by rewrite /chunk_slice size_drop size_take; case: ifP; lia. Qed.

(** The packers of a multipacking gadget, by chunk. *)
Lemma multipacking_newE (bits packed : pb_linear_combination_array F) c g :
  multipacking_new bits packed c = Ok g ->
  [/\ (0 < c)%N, size packed = div_ceil (size bits) c, size g = size packed &
      forall i, (i < size packed)%N ->
        nth (Packing [::] (PbLc false 0%N [::])) g i = Packing (chunk_slice bits c i) (lc_nth packed i)].
Proof.
rewrite /multipacking_new; case: (posnP c) => [->//|hc].
rewrite /oassert; case: eqP => //= hs [<-]; split=> //.
  by rewrite size_map size_zip size_iota hs minnn.
move=> i hi; rewrite (nth_map (0%N, PbLc false 0%N [::])); last by rewrite size_zip size_iota -hs minnn.
by rewrite nth_zip ?size_iota // nth_iota -?hs.
Qed.

Lemma chunk_slice_map (A B : Type) (f : A -> B) (s : seq A) c i :
  chunk_slice (map f s) c i = map f (chunk_slice s c i).
Proof. by rewrite /chunk_slice size_map -map_take -map_drop. Qed.

Lemma all_chunks (T : Type) (p : pred T) (s : seq T) c n : (size s <= n * c)%N ->
  all p s <-> forall i, (i < n)%N -> all p (chunk_slice s c i).
Proof.
move=> hn; rewrite -{1}(chunk_slice_flatten hn) all_flatten all_map; split=> h.
  by move=> i hi; apply: (allP h); rewrite mem_iota.
by apply/allP => i; rewrite mem_iota => hi; apply: h; lia.
Qed.

Lemma multipackingE (bits packed : pb_linear_combination_array F) c g e x :
  multipacking_new bits packed c = Ok g ->
  holds (multipacking_constraints g e) x <->
  (forall i, (i < div_ceil (size bits) c)%N ->
     lval x (lc_nth packed i) = pack (map (lval x) (chunk_slice bits c i))) /\
  (e -> all (fun b => isbit (lval x b)) bits).
Proof.
move=> hg; have [hc hp hs hn] := multipacking_newE hg.
rewrite /multipacking_constraints holds_flatten.
have hx : (forall t, List.In t g -> holds (packing_constraints t e) x) <->
  (forall i, (i < size packed)%N -> holds (packing_constraints (Packing (chunk_slice bits c i) (lc_nth packed i)) e) x).
  split=> h.
    by move=> i hi; rewrite -hn //; apply: h; apply: nth_In_seq; rewrite hs.
  move=> t /(@In_nth_seq _ (Packing [::] (PbLc false 0%N [::]))) [i hi <-].
  by rewrite hs in hi; rewrite hn //; apply: h.
rewrite hx hp; split=> [h|[h1 h2] i hi].
  split=> [i hi|he]; first by have /packing_constraintsE [] := h i hi.
  apply/(all_chunks _ (div_ceil_bound (size bits) hc)) => i hi.
  by have /packing_constraintsE /= [_ ->] := h i hi.
apply/packing_constraintsE; split; first exact: h1.
move=> /h2 /(all_chunks _ (div_ceil_bound (size bits) hc)); exact.
Qed.

Lemma changes_lvals m x x' (ls : pb_linear_combination_array F) : changes_only m x x' ->
  all (fun l => avoids m (lc_terms l)) ls -> map (lval x') ls = map (lval x) ls.
Proof.
move=> hc; elim: ls => [|l ls IH] //= /andP [h1 /IH ->].
by congr cons; apply: changes_fs hc h1.
Qed.

Lemma avoids_subset_all m1 m2 (ls : pb_linear_combination_array F) : {subset m1 <= m2} ->
  all (fun l => avoids m2 (lc_terms l)) ls -> all (fun l => avoids m1 (lc_terms l)) ls.
Proof. by move=> h; apply: sub_all => l; apply: avoids_subset. Qed.

Lemma In_flatten (T : Type) (a : T) (ss : seq (seq T)) :
  List.In a (flatten ss) <-> exists s, List.In s ss /\ List.In a s.
Proof.
elim: ss => [|s ss IH] /=; first by split=> // [[s []]].
rewrite List.in_app_iff IH; split=> [[h|[t [h1 h2]]]|[t [[<-|h1] h2]]].
- by exists s; split=> //; left.
- by exists t; split=> //; right.
- by left.
- by right; exists t.
Qed.
Lemma eq_map_In (T U : Type) (f h : T -> U) (s : seq T) : (forall a, List.In a s -> f a = h a) ->
  map f s = map h s.
Proof.
elim: s => [|a s IH] //= e; rewrite e; last by left.
by rewrite IH // => b hb; apply: e; right.
Qed.

Lemma multipacking_cons (p : packing F) g e :
  multipacking_constraints (p :: g) e = packing_constraints p e ++ multipacking_constraints g e.
Proof. by []. Qed.

Lemma multi_bits_ok pb x k slot (ps : seq (pb_linear_combination_array F * nat)) :
  (forall l, List.In l (flatten (map fst ps)) -> lc_proper slot (size x) (size k) l) ->
  assignable (size x) (map snd ps) ->
  all (fun l => avoids (map snd ps) (lc_terms l)) (flatten (map fst ps)) ->
  all (fun l => isbit (lval x l)) (flatten (map fst ps)) ->
  let g := [seq Packing p.1 (plc_of_var F p.2) | p <- ps] in
  exists x' k',
    [/\ multipacking_witness_from_bits g (upd pb x k) = Ok (upd pb x' k'),
        wstep slot (map snd ps) x k x' k',
        map (xval x') (map snd ps) = [seq pack (map (lval x) p.1) | p <- ps] &
        holds (multipacking_constraints g true) x'].
Proof.
elim: ps x k => [|[ls v] ps IH] x k /=.
  by move=> _ _ _ _; exists x, k; split=> //; [apply: wstep_refl].
move=> hp hv; rewrite !all_cat => /andP [ha1 ha2] /andP [hb1 hb2].
have [hv1 hv2] : (0 < v <= size x)%N /\ assignable (size x) (map snd ps).
  by case: hv => /= /andP [_ hu] /andP [hv1 hr].
have hvn : v \notin map snd ps by case: hv => /= /andP [].
have sub1 : {subset [:: v] <= v :: map snd ps} by move=> w; rewrite !inE => ->.
have sub2 : {subset map snd ps <= v :: map snd ps} by move=> w hw; rewrite inE hw orbT.
have [||x1 [k1 [e1 w1 p1 h1]]] := @packing_from_bits_ok F pb x k slot ls v _ hv1 _ hb1.
- by move=> l hl; apply: hp; apply/List.in_app_iff; left.
- exact: avoids_subset_all sub1 ha1.
have hl2 : map (lval x1) (flatten (map fst ps)) = map (lval x) (flatten (map fst ps)).
  exact: changes_lvals (wstep_changes_only w1) (avoids_subset_all sub1 ha2).
have [||||x2 [k2 [e2 w2 p2 h2]]] := IH x1 k1.
- by move=> l hl; apply: (wstep_proper w1); apply: hp; apply/List.in_app_iff; right.
- by rewrite (wstep_size w1).
- exact: avoids_subset_all sub2 ha2.
- have : all (@isbit F) (map (lval x1) (flatten (map fst ps))) by rewrite hl2 all_map.
  by rewrite all_map.
exists x2, k2; split.
- by rewrite /multipacking_witness_from_bits ofold_cons /= e1 /= -e2.
- exact: wstep_trans w1 w2.
- rewrite (wstep_val w2) // p1 p2; congr cons; apply: eq_map_In => p hin; congr pack.
  apply: changes_lvals (wstep_changes_only w1) _.
  apply: (avoids_subset_all sub1); apply/all_InP => l hl; move/all_InP: ha2; apply.
  by apply/In_flatten; exists p.1; split=> //; apply: List.in_map.
- rewrite multipacking_cons holds_cat; split=> //.
  apply/packing_constraintsE; move/packing_constraintsE: h1 => /=; rewrite !lval_var => h1.
  have e : map (lval x2) ls = map (lval x1) ls.
    exact: changes_lvals (wstep_changes_only w2) (avoids_subset_all sub2 ha1).
  rewrite (wstep_val w2) // e; split; first by case: h1.
  move=> _; have : all (@isbit F) (map (lval x1) ls) by rewrite all_map; apply: (proj2 h1).
  by rewrite -e all_map.
Qed.

Lemma multi_packed_ok pb x k slot (ps : seq (seq nat * pb_linear_combination F)) :
  assignable (size x) (flatten (map fst ps)) ->
  (forall l, List.In l (map snd ps) -> lc_proper slot (size x) (size k) l) ->
  all (fun l => avoids (flatten (map fst ps)) (lc_terms l)) (map snd ps) ->
  all (fun p => as_bigint R (lval x p.2) < 2 ^ size p.1)%N ps ->
  let g := [seq Packing (plcs_of_vars F p.1) p.2 | p <- ps] in
  exists x' k',
    [/\ multipacking_witness_from_packed R g (upd pb x k) = Ok (upd pb x' k'),
        wstep slot (flatten (map fst ps)) x k x' k' &
        holds (multipacking_constraints g true) x'].
Proof.
elim: ps x k => [|[vs o] ps IH] x k /=.
  by move=> _ _ _ _; exists x, k; split=> //; [apply: wstep_refl].
move=> /assignable_cat [hv1 hv2 hvd] hp; rewrite !avoids_mem => /andP [/andP [ha1 ha2] ha3] /andP [hb1 hb2].
have sub1 : {subset vs <= vs ++ flatten (map fst ps)} by move=> w hw; rewrite mem_cat hw.
have sub2 : {subset flatten (map fst ps) <= vs ++ flatten (map fst ps)} by move=> w hw; rewrite mem_cat hw orbT.
have [|x1 [k1 [e1 w1 p1 h1]]] := @packing_from_packed_ok F R pb x k slot vs o hv1 _ ha1 hb1.
  by apply: hp; left.
have hl2 : map (lval x1) (map snd ps) = map (lval x) (map snd ps).
  exact: changes_lvals (wstep_changes_only w1) (avoids_subset_all sub1 ha3).
have [||||x2 [k2 [e2 w2 h2]]] := IH x1 k1.
- by rewrite (wstep_size w1).
- by move=> l hl; apply: (wstep_proper w1); apply: hp; right.
- exact: avoids_subset_all sub2 ha3.
- move: hb2 hl2; elim: (ps) => [|p qs IH'] //= /andP [h3 h4] [h5 h6].
  by rewrite h5 h3 IH'.
exists x2, k2; split.
- by rewrite /multipacking_witness_from_packed ofold_cons /= e1 /= -e2.
- exact: wstep_trans w1 w2.
- rewrite multipacking_cons holds_cat; split=> //.
  apply/packing_constraintsE; move/packing_constraintsE: h1 => /=; rewrite !lval_vars => h1.
  have e : map (xval x2) vs = map (xval x1) vs.
    apply: changes_map (wstep_changes_only w2) _; apply/allP => v hv; apply/negP => hv'.
    by move: (allP hvd v hv'); rewrite hv.
  have -> : lval x2 o = lval x1 o by exact: changes_fs (wstep_changes_only w2) ha2.
  rewrite e; split; first by case: h1.
  move=> _; have : all (@isbit F) (map (xval x1) vs).
    by rewrite -lval_vars all_map; apply: (proj2 h1).
  by rewrite -e -lval_vars all_map.
Qed.

End More.
