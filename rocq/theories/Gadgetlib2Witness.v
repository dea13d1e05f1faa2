(** Proofs about the gadgets of gadgetlib2: the witnesses meet the constraints. *)
From Coq Require Import ZArith NArith.
From mathcomp Require Import all_ssreflect all_algebra zify ssrZ.
From Verif Require Import Outcome Fieldtac Lincomb LincombSpec R1CS R1CSSpec
  Protoboard GadgetSpec GadgetLogic Gadgetlib2 Gadgetlib2Spec Gadgetlib2Facts Gadgetlib2Gadgets.
Import GRing.Theory.
Set Implicit Arguments.
Unset Strict Implicit.
Unset Printing Implicit Defensive.
Local Open Scope ring_scope.
Delimit Scope Z_scope with ZZ.
Delimit Scope N_scope with num.

Section Witness.
Variable F : fieldType.
Variable R : bigint_repr F.
Add Field Ff : (Fth F).
Implicit Types (s : valuation F) (a : assignment F).
Local Notation V := (@valuation_of F).

Lemma val_ofV a v : fe_value (val_of a v) = V a v.
Proof. by rewrite /val_of /valuation_of; case: nth. Qed.
Lemma val_setV a v x w : V (val_set a v x) w = if w == v then fe_value x else V a w.
Proof. by rewrite /valuation_of nth_set_nth /=; case: eqP => //; rewrite fe_assignV. Qed.
Lemma val_touchV a v w : V (val_touch a v) w = V a w.
Proof. by rewrite {1}/valuation_of nth_set_nth /=; case: eqP => // ->; rewrite val_ofV. Qed.

Lemma lc_value_in s s' (l : lcomb F) : (forall v, v \in lc_vars l -> s v = s' v) ->
  lc_value s l = lc_value s' l.
Proof.
rewrite /lc_value /lc_vars => h; congr (_ + _); elim: (l_terms l) h => [|t ts IH] h; first by rewrite !big_nil.
rewrite !big_cons IH => [|v hv]; last by apply: h; rewrite inE hv orbT.
by rewrite h // inE eqxx.
Qed.
Lemma lc_value_set a v x (l : lcomb F) : v \notin lc_vars l ->
  lc_value (V (val_set a v x)) l = lc_value (V a) l.
Proof.
move=> h; apply: lc_value_in => w hw; rewrite val_setV; case: eqP => // e.
by rewrite -e hw in h.
Qed.
Lemma fe_subT (x y z : felem F) : fe_sub x y = Ok z -> fe_typed z.
Proof. by case: x => [u|u]; case: y => [v|v] /=; try (by case=> <-); move=> h0; case: (omap_Ok h0) => w h ->; case: (long_Ok h) => ->. Qed.

(** The equality tests of the witnesses, in a field of characteristic at least 2^64. *)
Lemma to_long_small n : (Z.of_nat n < 2 ^ 31)%ZZ -> to_long (Z.of_nat n) = Z.of_nat n.
Proof. by move=> h; rewrite /to_long Z.mod_small; lia. Qed.
Section Big.
Variable p : nat.
Hypotheses (hp : p \in [char F]) (hbig : (2 ^ 64 <= N.of_nat p)%num).

Lemma eqb1 (x : felem F) : fe_typed x -> fe_eqb x (FConst F 1) = (fe_value x == 1).
Proof. by move=> h; rewrite (fe_eqbE hp hbig). Qed.
Lemma eqb0 (x : felem F) : fe_typed x -> fe_eqb x (FConst F 0) = (fe_value x == 0).
Proof. by move=> h; rewrite (fe_eqbE hp hbig). Qed.

Lemma fe_bitV (b : bool) : fe_value (FConst F (if b then 1 else 0)) = (nat_of_bool b)%:R.
Proof. by case: b. Qed.

Lemma and2_complete a (x y : lcomb F) r a' cs :
  lc_typed x -> lc_typed y -> r \notin lc_vars x -> r \notin lc_vars y ->
  is_bit (lc_value (V a) x) -> is_bit (lc_value (V a) y) ->
  and2_constraints x y r = Ok cs -> and2_witness a x y r = Ok a' -> cs_hold (V a') cs.
Proof.
move=> tx ty nx ny bx bT hc; move=> /[ob] vx ex /[ob] b hb [<-].
apply/(and2_sound _ hc); rewrite !lc_value_set // val_setV eqxx fe_bitV.
have [_ vxE] := lc_evalV ex; move: hb; rewrite eqb1 ?(lc_evalT tx ex) // vxE.
case: bx => ->; first by rewrite eq_sym oner_eq0 => -[<-]; rewrite mul0r.
rewrite eqxx => /[ob] vy ey [<-]; have [_ vyE] := lc_evalV ey.
by rewrite eqb1 ?(lc_evalT ty ey) // vyE mul1r -is_bitE.
Qed.
Lemma or2_complete a (x y : lcomb F) r a' cs :
  lc_typed x -> lc_typed y -> r \notin lc_vars x -> r \notin lc_vars y ->
  is_bit (lc_value (V a) x) -> is_bit (lc_value (V a) y) ->
  or2_constraints x y r = Ok cs -> or2_witness a x y r = Ok a' -> cs_hold (V a') cs.
Proof.
move=> tx ty nx ny bx bT hc; move=> /[ob] vx ex /[ob] b hb [<-].
apply/(or2_sound _ hc); rewrite !lc_value_set // val_setV eqxx fe_bitV.
have [_ vxE] := lc_evalV ex; move: hb; rewrite eqb1 ?(lc_evalT tx ex) // vxE.
case: bx => ->; last by rewrite eqxx => -[<-]; rewrite mul1r addrK.
rewrite eq_sym oner_eq0 => /[ob] vy ey [<-]; have [_ vyE] := lc_evalV ey.
by rewrite eqb1 ?(lc_evalT ty ey) // vyE mul0r subr0 add0r -is_bitE.
Qed.

Lemma sum_valuesV a vs st : sum_values a vs = Ok st ->
  [/\ fe_value st.1 = \sum_(v <- vs) V a v, fe_typed st.1 & forall w, V st.2 w = V a w].
Proof.
rewrite /sum_values.
have -> : \sum_(v <- vs) V a v = fe_value (FConst F 0) + \sum_(v <- vs) V a v by rewrite add0r.
have : fe_typed (FConst F 0) by [].
move: (FConst F 0) => k; elim: vs a k => [|v vs IH] a k hk; first by case=> <-; rewrite big_nil addr0.
rewrite ofold_cons => /[ob] st1 /[ob] k' hk' [<-] /IH [|h1 h2 h3].
  exact: fe_addT hk'.
split=> // [|w]; last by rewrite h3 val_touchV.
rewrite h1 (fe_addV hk') val_ofV big_cons addrA; congr (_ + _).
by apply: eq_bigr => w _; rewrite val_touchV.
Qed.

Lemma inv_mul (x : F) : x != 0 -> x^-1 * x = 1. Proof. exact: mulVf. Qed.

Lemma and_complete a vs r inv a' cs : (Z.of_nat (size vs) < 2 ^ 31)%ZZ ->
  r \notin vs -> inv \notin vs -> r != inv ->
  and_constraints R vs r inv = Ok cs -> and_witness a vs r inv = Ok a' -> cs_hold (V a') cs.
Proof.
move=> hn nr ninv hne; move=> /[ob] u _ /[ob] l hl /[ob] m hm /[ob] nrl hnr [<-].
move=> /[ob] st /sum_valuesV [h1 h2 h3] /[ob] d hd; rewrite eqb0 ?(fe_subT hd) // (fe_subV hd).
have hsz : fe_value (fe_of_size F (size vs)) = (size vs)%:R.
  by rewrite /fe_of_size to_long_small // [LHS]zvaln.
rewrite hsz; set D := (_ - _); cbv zeta => ha'.
have hrest w : w \in vs -> V a' w = V a w.
  move=> hw; have [/negbTE hr /negbTE hi] : w != r /\ w != inv.
    by split; apply: contraTneq hw => ->.
  by move: ha'; case: ifP => _ [<-]; rewrite !val_setV hr hi h3.
have [hr hi] : V a' r = (nat_of_bool (D == 0))%:R /\ V a' inv = if D == 0 then 0 else D^-1.
  move: ha'; case: ifP => _ [<-]; rewrite !val_setV eqxx (eq_sym inv) (negbTE hne) eqxx //.
  by rewrite fe_inverseV (fe_subV hd) hsz.
rewrite !csE /= !lcvV lciV (lc_minus_intV _ hm) (lc_sumV _ hl) (int_minus_varV _ hnr).
rewrite to_int_small // zvaln zval1 zval0.
have -> : \sum_(v <- vs) V a' v = \sum_(v <- vs) V a v.
  by rewrite big_seq [RHS]big_seq; apply: eq_bigr => w /hrest.
rewrite -h1 -/D hr hi; case: eqP => [->|/eqP hD] /=; first by rewrite !mul0r subrr.
by rewrite mulr0 mulVf // subr0.
Qed.
Lemma or_complete a vs r inv a' cs :
  r \notin vs -> inv \notin vs -> r != inv ->
  or_constraints R vs r inv = Ok cs -> or_witness a vs r inv = Ok a' -> cs_hold (V a') cs.
Proof.
move=> nr ninv hne; move=> /[ob] u _ /[ob] l hl /[ob] nrl hnr [<-].
move=> /[ob] st /sum_valuesV [h1 h2 h3]; rewrite eqb0 //; set D := fe_value _; cbv zeta => ha'.
have hrest w : w \in vs -> V a' w = V a w.
  move=> hw; have [/negbTE hr /negbTE hi] : w != r /\ w != inv.
    by split; apply: contraTneq hw => ->.
  by move: ha'; case: ifP => _ [<-]; rewrite !val_setV hr hi h3.
have [hr hi] : V a' r = (nat_of_bool (D != 0))%:R /\ V a' inv = if D == 0 then 0 else D^-1.
  move: ha'; case: ifP => _ [<-]; rewrite !val_setV eqxx (eq_sym inv) (negbTE hne) eqxx //.
  by rewrite fe_inverseV.
rewrite !csE /= !lcvV lciV (lc_sumV _ hl) (int_minus_varV _ hnr) zval1 zval0.
have -> : \sum_(v <- vs) V a' v = \sum_(v <- vs) V a v.
  by rewrite big_seq [RHS]big_seq; apply: eq_bigr => w /hrest.
rewrite -h1 -/D hr hi; case: eqP => [->|/eqP hD] /=; first by rewrite !mul0r.
by rewrite subrr mulr0 mulVf.
Qed.

Lemma equals_complete a n (x : lcomb F) r aux a' cs :
  fe_typed n -> lc_typed x -> r \notin lc_vars x -> aux \notin lc_vars x -> r != aux ->
  equals_constraints n x r aux = Ok cs -> equals_witness a n x r aux = Ok a' -> cs_hold (V a') cs.
Proof.
move=> tn tx nr na hne; move=> /[ob] d hd /[ob] nrl hnr [<-].
move=> /[ob] v ev /[ob] i hi /[ob] w ew [<-].
have [_ vE] := lc_evalV ev; have [_ wE] := lc_evalV ew.
rewrite !csE /= !lcvV lciV (lc_minus_feV _ hd) (int_minus_varV _ hnr) zval1 zval0.
rewrite !(fe_eqbE hp hbig) ?(lc_evalT tx ev) ?(lc_evalT tx ew) // in hi *.
rewrite !lc_value_set // in wE *.
rewrite !val_setV eqxx (eq_sym aux) (negbTE hne) eqxx fe_bitV wE -vE.
move: hi; case: eqP => [->|/eqP hne2] /=; first by case=> <-; rewrite !subrr !mul0r.
move=> /[ob] e /fe_minusV he [<-]; rewrite fe_inverseV he mulr0 subr0 mulfV //.
by rewrite subr_eq0.
Qed.

Lemma toggle_complete a t (x0 x1 : lcomb F) r a' cs :
  r \notin lc_vars x0 -> r \notin lc_vars x1 -> t != r ->
  toggle_constraints t x0 x1 r = Ok cs -> toggle_witness a t x0 x1 r = Ok a' -> cs_hold (V a') cs.
Proof.
move=> n0 n1 hne hc; rewrite /toggle_witness.
case: ifP => [/fe_eqb_sound h|_].
  move=> /[ob] v /lc_evalV [_ hv] [<-]; apply/(toggle_sound _ hc).
  rewrite !lc_value_set // !val_setV eqxx (negbTE hne) val_touchV -val_ofV h mul0r addr0 hv.
  by [].
case: ifP => [/fe_eqb_sound h|_] //.
move=> /[ob] v /lc_evalV [_ hv] [<-]; apply/(toggle_sound _ hc).
rewrite !lc_value_set // !val_setV eqxx (negbTE hne) val_touchV -val_ofV h mul1r hv.
by rewrite addrC subrK.
Qed.

Lemma condflag_complete a (c : lcomb F) flag inv a' cs : lc_typed c ->
  flag \notin lc_vars c -> inv \notin lc_vars c -> flag != inv ->
  condflag_constraints c flag inv = Ok cs -> condflag_witness a c flag inv = Ok a' -> cs_hold (V a') cs.
Proof.
move=> tc nf ni hne; move=> /[ob] nfl hnf [<-] /[ob] v ev.
have [_ vE] := lc_evalV ev; rewrite eqb0 ?(lc_evalT tc ev) // vE.
rewrite !csE /= !lcvV lciV (lc_negateV _ hnf) zval0 lcvV.
case: eqP => [h [<-]|/eqP h /[ob] w /lc_evalV [_ wE] [<-]].
  by rewrite !lc_value_set // h !val_setV eqxx (negbTE hne) eqxx !mul0r.
rewrite !lc_value_set // in wE *.
by rewrite !val_setV eqxx (negbTE hne) eqxx /= subrr mulr0 fe_inverseV wE mulfV.
Qed.
Lemma implication_complete a (c : lcomb F) flag a' cs : lc_typed c -> flag \notin lc_vars c ->
  is_bit (lc_value (V a) c) ->
  implication_constraints c flag = Ok cs -> implication_witness a c flag = Ok a' -> cs_hold (V a') cs.
Proof.
move=> tc nf hb hc /[ob] v ev [<-]; have [_ vE] := lc_evalV ev.
apply/(implication_sound _ hc); rewrite eqb1 ?(lc_evalT tc ev) // vE.
case: hb => h; rewrite h; first by rewrite eq_sym oner_eq0 h.
by rewrite eqxx => _; rewrite val_setV eqxx.
Qed.
End Big.

(** ** Packing *)
Lemma bv_bits_nat bs : bv bs = bits_nat bs.
Proof. by elim: bs => [|b bs IH] //=; rewrite IH; lia. Qed.
Lemma fe_get_bitV (x : felem F) i : fe_get_bit R x i = test_bit (as_bigint R (fe_value x)) i.
Proof. by case: x => [z|x] //=; rewrite zvalE. Qed.
Lemma nat_bool_eq1 (b : bool) : ((nat_of_bool b)%:R == 1 :> F) = b.
Proof. by case: b; rewrite ?eqxx // eq_sym oner_eq0. Qed.

Lemma unpack_loop p (bits : seq var) k a a' : p \notin bits -> uniq bits ->
  ofold (fun a ib =>
           let bit := fe_get_bit R (val_of a p) ib.1 in
           let a := set_nth None a p (Some (promote (val_of a p))) in
           Ok (val_set a ib.2 (FConst F (if bit then 1 else 0))))
        a (zip (iota k (size bits)) bits) = Ok a' ->
  (forall w, w \notin bits -> V a' w = V a w) /\
  map (V a') bits = map (fun i => (nat_of_bool (test_bit (as_bigint R (V a p)) i))%:R) (iota k (size bits)).
Proof.
elim: bits k a => [|b bits IH] k a; first by move=> _ _ [<-].
rewrite inE negb_or => /andP[hpb hpn] /= /andP[hb hu] h.
have [h1 h2] := IH _ _ hpn hu h.
set a1 := val_set _ _ _ in h1 h2.
have ha1 w : V a1 w = if w == b then (nat_of_bool (test_bit (as_bigint R (V a p)) k))%:R else V a w.
  rewrite /a1 val_setV; case: eqP => _; first by rewrite fe_bitV fe_get_bitV val_ofV.
  by rewrite {1}/valuation_of nth_set_nth /=; case: eqP => // ->; rewrite promoteV val_ofV.
split=> [w|].
  by rewrite inE negb_or => /andP[/negbTE hwb hwn]; rewrite h1 // ha1 hwb.
by rewrite h2 h1 // ha1 eqxx ha1 (negbTE hpb).
Qed.

Lemma unpack_witnessV a bits p a' : p \notin bits -> uniq bits ->
  packing2_witness R true a bits [:: p] = Ok a' ->
  (forall w, w \notin bits -> V a' w = V a w) /\
  map (V a') bits = map (fun i => (nat_of_bool (test_bit (as_bigint R (V a p)) i))%:R) (iota 0 (size bits)).
Proof. by move=> hp hu /[ob] q /packing_checkV [_ [<-]]; exact: unpack_loop. Qed.

Lemma unpack_complete a bits p a' cs : p \notin bits -> uniq bits ->
  (as_bigint R (V a p) < 2 ^ size bits)%N ->
  packing2_constraints F true bits [:: p] = Ok cs -> packing2_witness R true a bits [:: p] = Ok a' ->
  cs_hold (V a') cs.
Proof.
move=> hp hu hlt hc /(unpack_witnessV hp hu) [h1 h2].
have [q [<-] hq] := packing2_sound (V a') hc; apply/hq.
have hb b : b \in bits -> is_bit (V a' b).
  move=> hb; have : V a' b \in map (V a') bits by apply: map_f.
  by rewrite h2 => /mapP [i _ ->]; exact: bit_is_bit.
split=> //; rewrite (bits_valueV hb) h1 // -{1}(as_bigintK R (V a p)); congr (_%:R).
have -> : map (fun v => V a' v == 1) bits = map (fun x => x == 1) (map (V a') bits) by rewrite -map_comp.
rewrite h2 -map_comp (eq_map (f2 := test_bit (as_bigint R (V a p)))) => [|i /=]; last exact: nat_bool_eq1.
by rewrite bv_bits_nat bits_nat_test_bit modn_small.
Qed.

Lemma as_longV (x : felem F) : is_bit (fe_value x) -> (fe_as_long R x =? 0)%ZZ || (fe_as_long R x =? 1)%ZZ ->
  zval F (fe_as_long R x) = fe_value x.
Proof.
case: x => [z|x] //= hb _.
suff -> : to_long (Z.of_N (as_ulong R x)) = Z.of_nat (x == 1) by rewrite zvaln -is_bitE.
have -> : as_ulong R x = N.of_nat (x == 1).
  rewrite /as_ulong; have -> : as_bigint R x = (x == 1) :> nat.
    rewrite (is_bitE hb) as_bigint_nat ?nat_bool_eq1 //.
    by apply: leq_ltn_trans (prime_gt1 (fp_prime R)); case: (x == 1).
  by case: (x == 1).
by case: (x == 1).
Qed.
Lemma pack_complete a bits p a' cs : p \notin bits -> (forall b, b \in bits -> is_bit (V a b)) ->
  packing2_constraints F false bits [:: p] = Ok cs -> packing2_witness R false a bits [:: p] = Ok a' ->
  cs_hold (V a') cs.
Proof.
move=> hp hb hc /[ob] q /packing_checkV [_ [<-]] /[ob] -[[pv w] a1] hf [<-].
have [q' [<-] hq] := packing2_sound (V (val_set a1 p pv)) hc; apply/hq; split=> //.
have gen (k : felem F) (u : felem F) a0 bs : (forall b, b \in bs -> is_bit (V a0 b)) ->
  ofold (fun st b =>
        let: (pv, two_i, a) := st in
        let x := fe_as_long R (val_of a b) in
        assert! ((x =? 0) || (x =? 1))%ZZ in
        let! t := fe_mul two_i (FConst F x) in
        let! pv := fe_add pv t in
        let! two_i := fe_add two_i two_i in
        Ok (pv, two_i, val_touch a b)) (k, u, a0) bs = Ok (pv, w, a1) ->
  fe_value pv = fe_value k + fe_value u * bits_value (map (V a0) bs) /\ forall v, V a1 v = V a0 v.
  elim: bs k u a0 {hf} => [|b bs IH] k u a0 hbs; first by case=> <- _ <-; rewrite mulr0 addr0.
  rewrite ofold_cons => /[ob] -[[k1 u1] a2]; cbv zeta => h0; have [hbit h1] := oassert_Ok h0.
  move: h1 => /[ob] t /fe_mulV ht /[ob] k2 /fe_addV hk /[ob] u2 /fe_addV hu [<- <- <-] /IH [|h2 h3].
    by move=> v hv; rewrite val_touchV; apply: hbs; rewrite inE hv orbT.
  split=> [|v]; last by rewrite h3 val_touchV.
  rewrite h2 hk ht hu [fe_value (FConst _ _)]/= as_longV ?val_ofV //; last by apply: hbs; rewrite inE eqxx.
  rewrite (eq_map (val_touchV a0 b)).
  have ring (K U x B : F) : K + U * x + (U + U) * B = K + U * (x + 2%:R * B).
    by rewrite mulr_natl mulr2n; fring F.
  exact: ring.
have [h1 h2] := gen _ _ _ _ hb hf.
rewrite val_setV eqxx h1 /= add0r mul1r; congr (bits_value _).
apply/eq_in_map => v hv; rewrite val_setV h2; case: eqP => // e.
by rewrite -e hv in hp.
Qed.

(** ** Inner product *)
Lemma omapm_hold_all (A : Type) s (f : A -> outcome (constraint2 F)) l cs : omapm f l = Ok cs ->
  (forall x, List.In x l -> forall c, f x = Ok c -> c_holds s c) -> cs_hold s cs.
Proof.
elim: l cs => [|x l IH] cs /=; first by case=> <- _; rewrite cs_hold_nil.
move=> /[ob] c hc h0; case: (omap_Ok h0) => cs' hcs -> h; rewrite cs_hold_cons; split.
  by apply: h hc; left.
by apply: IH => // y hy; apply: h; right.
Qed.
Definition dot (s : valuation F) (xs ys : seq var) n := \sum_(i < n) s (nth 0%N xs i) * s (nth 0%N ys i).
Lemma dotP s xs ys n : (0 < n)%N ->
  dot s xs ys n = dot s xs ys n.-1 + s (nth 0%N xs n.-1) * s (nth 0%N ys n.-1).
Proof. by case: n => // n _; rewrite /dot big_ord_recr. Qed.
Lemma inner_hold s xs ys r ps cs : inner_constraints F xs ys r ps = Ok cs ->
  (forall j, (j < (size xs).-1)%N -> s (nth 0%N ps j) = dot s xs ys j.+1) ->
  s r = dot s xs ys (size xs) -> cs_hold s cs.
Proof.
rewrite /inner_constraints => h; have [h0 h1] := oassert_Ok h; have [/eqP hs h2] := oassert_Ok h1.
move: h2 {h h1}; case: eqP => hn1.
  move=> /[ob] x hx /[ob] y hy [<-] _; rewrite hn1 /dot big_ord1 => hr.
  have [_ hx'] := oget0 hx; have [_ hy'] := oget0 hy.
  by rewrite !csE /= !lcvV hr hx' hy'.
move=> /[ob] x0 /oget0 [_ <-] /[ob] y0 /oget0 [_ <-] /[ob] p0 /oget0 [_ <-].
move=> /[ob] mid hmid /[ob] xl /oget0 [_ <-] /[ob] yl /oget0 [_ <-].
move=> /[ob] pl /oget0 [_ <-] /[ob] d /(var_minus_varV s) hd [<-] hps hr.
rewrite !csE; split; first by rewrite /= !lcvV hps ?/dot ?big_ord1 //; move: h0 hn1; clear; lia.
split; last first.
  split=> //; rewrite /= !lcvV hd hr hps; last by move: h0 hn1; clear; lia.
  have -> : ((size xs - 2).+1 = (size xs).-1)%N by move: h0 hn1; clear; lia.
  by rewrite (dotP s xs ys h0) addrAC subrr add0r.
apply: (omapm_hold_all hmid) => i /GadgetLogic.In_mem; rewrite mem_iota => hi c.
move=> /[ob] x /oget0 [_ <-] /[ob] y /oget0 [_ <-] /[ob] q /oget0 [_ <-].
move=> /[ob] q' /oget0 [_ <-] /[ob] e /(var_minus_varV s) he [<-] /=.
rewrite !lcvV he !hps; try (by move: hi; clear; lia).
case: i hi he => [|i] hi _; first by move: hi; clear; lia.
by rewrite /dot [\sum_(j < i.+2) _]big_ord_recr /= addrAC subrr add0r.
Qed.

(** [V a'] is [V a] but on [vs]. *)
Definition same_out (vs : seq var) a a' := forall w, w \notin vs -> V a' w = V a w.
Lemma inner_witnessV a xs ys r ps a' : (0 < size xs)%N -> size ys = size xs -> size ps = (size xs).-1 ->
  uniq (r :: ps) -> (forall w, w \in r :: ps -> (w \notin xs) && (w \notin ys)) ->
  inner_witness a xs ys r ps = Ok a' ->
  [/\ same_out (r :: ps) a a', V a' r = dot (V a) xs ys (size xs) &
     forall j, (j < (size xs).-1)%N -> V a' (nth 0%N ps j) = dot (V a) xs ys j.+1].
Proof.
move=> hn hys hps /= /andP[hr hu] hdisj.
have hx a1 i : same_out (r :: ps) a a1 -> (i < size xs)%N ->
    V a1 (nth 0%N xs i) = V a (nth 0%N xs i) /\ V a1 (nth 0%N ys i) = V a (nth 0%N ys i).
  move=> hs hi; split; apply: hs; apply/negP => /hdisj /andP [h1 h2].
    by rewrite mem_nth in h1.
  by rewrite mem_nth ?hys in h2.
rewrite /inner_witness; case: eqP => hn1.
  move=> /[ob] x /oget0 [_ <-] /[ob] y /oget0 [_ <-] /[ob] m /fe_mulV hm [<-].
  rewrite hn1; split=> [w||[]] //.
    by rewrite inE negb_or => /andP[/negbTE hw _]; rewrite val_setV hw !val_touchV.
  by rewrite val_setV eqxx hm !val_ofV /dot big_ord1.
move=> /[ob] x0 /oget0 [_ <-] /[ob] y0 /oget0 [_ <-] /[ob] p0 /oget0 [hp0 <-].
move=> /[ob] a1 h1 /[ob] a2 h2 /[ob] xl /oget0 [_ <-] /[ob] yl /oget0 [_ <-] /[ob] pl /oget0 [_ <-] h3.
have inP j : (j < size ps)%N -> nth 0%N ps j \in r :: ps by move=> hj; rewrite inE mem_nth ?orbT.
have nR j : (j < size ps)%N -> (nth 0%N ps j == r) = false.
  by move=> hj; apply/negbTE; apply: contraNneq hr => <-; exact: mem_nth.
have k1 : same_out (r :: ps) a a1 /\ (forall j, (j < 1)%N -> V a1 (nth 0%N ps j) = dot (V a) xs ys j.+1).
  move: h1 => /[ob] m /fe_mulV hm [<-]; split=> [w hw|[|//] _].
    by rewrite val_setV !val_touchV; case: eqP => // e; rewrite e inP in hw.
  by rewrite val_setV eqxx hm !val_ofV /dot big_ord1.
have step k m b b' : (0 < k)%N -> (k + m <= (size xs).-1)%N ->
    same_out (r :: ps) a b /\ (forall j, (j < k)%N -> V b (nth 0%N ps j) = dot (V a) xs ys j.+1) ->
    ofold (fun a i =>
      let! x := oget xs i in let! y := oget ys i in
      let! p := oget ps i in let! q := oget ps i.-1 in
      set_product_add a p q x y) b (iota k m) = Ok b' ->
    same_out (r :: ps) a b' /\ (forall j, (j < k + m)%N -> V b' (nth 0%N ps j) = dot (V a) xs ys j.+1).
  elim: m k b {h1 h2 h3 k1} => [|m IH] k b hk hkm; first by move=> hb [<-]; rewrite addn0.
  move=> [hb1 hb2]; rewrite [iota _ _]/= ofold_cons => /[ob] b1.
  move=> /[ob] x /oget0 [hkx <-] /[ob] y /oget0 [_ <-] /[ob] q /oget0 [hkp <-] /[ob] q' /oget0 [_ <-].
  move=> /[ob] u /fe_mulV hu' /[ob] v /fe_addV hv [<-] h4; rewrite addnS -addSn; apply: IH h4 => //.
    by rewrite addSn -addnS.
  have [hxk hyk] := hx _ _ hb1 hkx.
  split=> [w hw|j hj].
    by rewrite val_setV !val_touchV; case: eqP => [e|_]; [rewrite e inP in hw|exact: hb1].
  rewrite val_setV !val_touchV nth_uniq //; last by rewrite hps; move: hj hkm; clear; lia.
  case: eqP => [e|e]; last by apply: hb2; move: hj e; clear; lia.
  rewrite hv hu' !val_ofV hb2; last by move: hk; clear; lia.
  by rewrite hxk hyk e prednK // /dot big_ord_recr.
have hn2 : (1 < size xs)%N by rewrite ltn_neqAle eq_sym hn andbT; apply/eqP.
have hle : (1 + (size xs - 2) <= (size xs).-1)%N by move: hn2; clear; lia.
have [k2 k3] := step 1%N _ _ _ isT hle k1 h2.
have {hle}hE : (1 + (size xs - 2) = (size xs).-1)%N by move: hn2; clear; lia.
rewrite hE in k3; move: h3 => /[ob] u /fe_mulV hu' /[ob] v /fe_addV hv [<-].
split=> [w hw||j hj].
- rewrite val_setV !val_touchV k2 //; case: eqP => // e; by rewrite e inE eqxx in hw.
- have hlast : ((size xs).-1 < size xs)%N by move: hn; clear; lia.
  have [hxk hyk] := hx _ _ k2 hlast.
  rewrite val_setV eqxx hv hu' !val_ofV hxk hyk k3; last by rewrite -hE add1n.
  have -> : ((size xs - 2).+1 = (size xs).-1)%N by rewrite -hE add1n.
  by rewrite (dotP _ xs ys hn).
- by rewrite val_setV !val_touchV nR ?hps // k3.
Qed.

Lemma dot_ext s s' xs ys n : (n <= size xs)%N -> (n <= size ys)%N ->
  (forall w, (w \in xs) || (w \in ys) -> s w = s' w) -> dot s xs ys n = dot s' xs ys n.
Proof.
move=> hx hy h; apply: eq_bigr => i _.
by rewrite !h ?mem_nth ?orbT // (leq_trans (ltn_ord i)).
Qed.
Lemma inner_complete a xs ys r ps a' cs : size ps = (size xs).-1 ->
  uniq (r :: ps) -> (forall w, w \in r :: ps -> (w \notin xs) && (w \notin ys)) ->
  inner_constraints F xs ys r ps = Ok cs -> inner_witness a xs ys r ps = Ok a' -> cs_hold (V a') cs.
Proof.
move=> hps hu hdisj hc hw.
have [h0 hs] : (0 < size xs)%N /\ size ys = size xs.
  move: (hc); rewrite /inner_constraints => h; have [h0 h1] := oassert_Ok h.
  by have [/eqP hs _] := oassert_Ok h1.
have [h1 h2 h3] := inner_witnessV h0 hs hps hu hdisj hw.
have hE n : (n <= size xs)%N -> dot (V a) xs ys n = dot (V a') xs ys n.
  move=> hn; apply: dot_ext; rewrite ?hs // => w hwx; symmetry; apply: h1; apply/negP => /hdisj /andP[d1 d2].
  by rewrite (negbTE d1) (negbTE d2) in hwx.
apply: inner_hold hc _ _; last by rewrite h2 hE.
by move=> j hj; rewrite h3 // hE // (leq_trans hj) // leq_pred.
Qed.

(** ** Comparison *)
Lemma or_holdE s (vs : seq var) r inv cs : or_constraints R vs r inv = Ok cs ->
  cs_hold s cs <-> (\sum_(v <- vs) s v) * (1 - s r) = 0 /\ s inv * (\sum_(v <- vs) s v) = s r.
Proof.
move=> /[ob] u _ /[ob] l /(lc_sumV s) hl /[ob] nr /(int_minus_varV s) hnr [<-].
by rewrite !csE /= !lcvV hl lciV hnr zval1 zval0; tauto.
Qed.
Lemma or_witness_same a vs r inv a' : or_witness a vs r inv = Ok a' ->
  same_out [:: r; inv] a a' /\ (r != inv -> is_bit (V a' r)).
Proof.
move=> /[ob] st /sum_valuesV [_ _ h3]; cbv zeta; case: ifP => _ [<-]; split=> [w|hne].
- by rewrite !inE negb_or => /andP[/negbTE hr /negbTE hi]; rewrite !val_setV hr hi h3.
- by rewrite val_setV eqxx; left.
- by rewrite !inE negb_or => /andP[/negbTE hr /negbTE hi]; rewrite !val_setV hr hi h3.
- by rewrite val_setV eqxx; right.
Qed.

Section BigCompare.
Variable p : nat.
Hypotheses (hp : p \in [char F]) (hbig : (2 ^ 64 <= N.of_nat p)%num).
Lemma compare_complete a n lhs rhs less leq ap (alpha : seq var) nz nzinv a' cs (A B : nat) :
  size alpha = n -> (2 ^ n.+1 <= fp_order R)%N -> (A < 2 ^ n)%N -> (B < 2 ^ n)%N ->
  V a lhs = A%:R -> V a rhs = B%:R ->
  uniq (less :: leq :: ap :: nz :: nzinv :: alpha) ->
  (forall w, w \in less :: leq :: ap :: nz :: nzinv :: alpha -> (w != lhs) && (w != rhs)) ->
  compare_constraints R n lhs rhs less leq ap alpha nz nzinv = Ok cs ->
  compare_witness R a n lhs rhs less leq ap alpha nz nzinv = Ok a' -> cs_hold (V a') cs.
Proof.
move=> hsz h2p hA hB hl hr hu hd hc.
move=> /[ob] w /pow2_longV [_ hw] /[ob] s1 /fe_addV hs1 /[ob] s2 /fe_minusV hs2; cbv zeta.
set a1 := val_set _ ap s2; move=> /[ob] a2 hpk /[ob] a3 hor /[ob] top /oget0 [_ htop] /[ob] m /fe_mulV hm [<-].
have {}htop : top = leq by rewrite -htop nth_rcons hsz ltnn eqxx.
subst top; set a5 := val_set _ less m.
move: hu; rewrite /= !inE !negb_or -!andbA.
case/and5P=> l_leq l_ap l_nz l_inv /and5P[l_al q_ap q_nz q_inv].
case/and5P=> q_al p_nz p_inv p_al /and4P[z_inv z_al i_al u_al].
have v1 w' : V a1 w' = if w' == ap then (2 ^ n + B - A)%:R else V a w'.
  rewrite /a1 val_setV; case: eqP => _; last by rewrite !val_touchV.
  rewrite hs2 hs1 /= hw zvaln !val_ofV hl hr natrB ?natrD //; by move: hA; clear; lia.
have hub : uniq (rcons alpha leq) by rewrite rcons_uniq q_al.
have hap : ap \notin rcons alpha leq by rewrite mem_rcons inE negb_or eq_sym q_ap.
have [v2 _] := unpack_witnessV hap hub hpk.
have [v3 bz] := or_witness_same hor.
have v5 w' : V a5 w' = if w' == less then V a3 leq * V a3 nz else V a3 w'.
  rewrite /a5 val_setV; case: eqP => _.
    rewrite hm !val_ofV !val_setV eqxx val_ofV; congr (_ * _).
    by case: eqP => [->|_]; rewrite ?val_ofV ?val_touchV.
  rewrite !val_touchV val_setV val_touchV; case: eqP => // ->; by rewrite val_ofV.
have hin w' : w' \in alpha -> [/\ w' != less, w' != nz & w' != nzinv].
  by move=> h; split; apply: contraTneq h => ->.
have e5 w' : w' \in ap :: rcons alpha leq -> V a5 w' = V a2 w'.
  rewrite inE mem_rcons inE => h; rewrite v5.
  have [/negbTE -> h1 h2] : [/\ w' != less, w' != nz & w' != nzinv].
    case/or3P: h => [/eqP ->|/eqP ->|/hin //]; split=> //; by rewrite eq_sym.
  by apply: v3; rewrite !inE negb_or h1 h2.
have hval : as_bigint R (V a1 ap) = (2 ^ n + B - A)%N.
  rewrite v1 eqxx as_bigint_nat //; apply: leq_trans h2p; rewrite expnS.
  by move: hA hB; move: (2 ^ n)%N; clear; lia.
move: (hc) => /[ob] u hu /[ob] bzc hbz /[ob] w' /pow2_longV [_ hw'].
move=> /[ob] l1 /(lc_plusV (V a5)) hl1 /[ob] l2 /(lc_minus_varV (V a5)) hl2 /[ob] pk hpkc.
move=> /[ob] orc horc /[ob] top /oget0 [_ htop] [<-].
have {}htop : top = leq by rewrite -htop nth_rcons hsz ltnn eqxx.
subst top.
have nlr w0 : w0 \in [:: lhs; rhs] -> V a5 w0 = V a w0.
  move=> h; have hne w1 : w1 \in [:: less, leq, ap, nz, nzinv & alpha] -> w1 != w0.
    by move/hd/andP => [d1 d2]; move: h; rewrite !inE => /orP[]/eqP ->.
  rewrite v5 eq_sym (negbTE (hne less _)) ?inE ?eqxx // v3; last first.
    by rewrite !inE negb_or !(eq_sym w0) !hne // !inE eqxx ?orbT.
  rewrite v2; first by rewrite v1 eq_sym (negbTE (hne ap _)) // !inE eqxx ?orbT.
  apply/negP => hin'; have := hne w0; rewrite eqxx => /(_ _)/implyP.
  by move: hin'; rewrite mem_rcons !inE => /orP[] ->; rewrite ?orbT => /(_ isT).
rewrite !csE; split.
  by apply/(boolean2V _ hbz); rewrite v5 eq_sym (negbTE l_nz); exact: bz.
split.
  rewrite /= lciV zval1 mul1r lcvV hl2 hl1 lccV /= lcvV hw' zvaln (nlr lhs) ?(nlr rhs) ?inE ?eqxx ?orbT // hl hr.
  rewrite e5 ?inE ?eqxx // v2 // v1 eqxx natrB ?natrD //; by move: hA; clear; lia.
split.
  have hk := @unpack_complete a1 (rcons alpha leq) ap a2 pk hap hub _ hpkc hpk.
  have {}hk : cs_hold (V a2) pk.
    apply: hk; rewrite hval size_rcons hsz expnS; by move: hA hB; move: (2 ^ n)%N; clear; lia.
  have [q1 [<-] f1] := packing2_sound (V a2) hpkc; have [q2 [<-] f2] := packing2_sound (V a5) hpkc.
  move/f1: hk => [g1 g2]; apply/f2; split=> [_ b hb|].
    by rewrite e5 ?inE ?hb ?orbT //; apply: g1.
  rewrite e5 ?inE ?eqxx // g2; congr (bits_value _); apply/eq_in_map => b hb.
  by rewrite e5 // inE hb orbT.
split.
  have hk := or_complete hp hbig z_al i_al z_inv horc hor.
  move/(or_holdE _ horc): hk => [g1 g2]; apply/(or_holdE _ horc).
  have -> : \sum_(v <- alpha) V a5 v = \sum_(v <- alpha) V a3 v.
    rewrite big_seq [RHS]big_seq; apply: eq_bigr => v hv.
    by rewrite v5; case: (hin _ hv) => /negbTE ->.
  by rewrite !v5 !(eq_sym _ less) (negbTE l_nz) (negbTE l_inv).
by rewrite /= !lcvV lciV zval1 mul1r !v5 eqxx !(eq_sym _ less) (negbTE l_leq) (negbTE l_nz).
Qed.
End BigCompare.

(** ** The selector by index *)
Lemma mux_columnE (ins : seq (seq var)) j col : mux_column ins j = Ok col ->
  col = [seq nth 0%N w j | w <- ins] /\ all (fun w => j < size w)%N ins.
Proof.
elim: ins col => [|w ins IH] col /=; first by case=> <-.
move=> /[ob] x /oget0 [hj <-] h0; case: (omap_Ok h0) => col' /IH [-> ->] ->.
by rewrite hj.
Qed.
Lemma flatten_disj (T : eqType) (ps : seq (seq T)) j k x : uniq (flatten ps) -> j != k ->
  (j < size ps)%N -> x \in nth [::] ps j -> x \notin nth [::] ps k.
Proof.
elim: ps j k => [|q ps IH] [|j] [|k] //=; rewrite cat_uniq => /and3P[_ hd hu].
- move=> _ _ hx; apply/negP => hk; case/hasP: hd; exists x => //.
  by apply/flattenP; exists (nth [::] ps k) => //; apply: mem_nth; case: ltnP hk => // h; rewrite nth_default.
- move=> _ hj hx; apply/negP => hk; case/hasP: hd; exists x => //.
  by apply/flattenP; exists (nth [::] ps j) => //; exact: mem_nth.
- by move=> hne hj; apply: IH.
Qed.
Lemma nth_uniq_flatten (T : eqType) (ps : seq (seq T)) k : uniq (flatten ps) -> uniq (nth [::] ps k).
Proof.
elim: ps k => [|q ps IH] [|k] //=; rewrite cat_uniq => /and3P[hq _ hu] //; exact: IH.
Qed.
Lemma nth_in_flatten (T : eqType) (ps : seq (seq T)) k x : x \in nth [::] ps k -> x \in flatten ps.
Proof.
move=> hx; apply/flattenP; exists (nth [::] ps k) => //; apply: mem_nth.
by case: ltnP hx => // h; rewrite nth_default.
Qed.

Definition column (ins : seq (seq var)) j := [seq nth 0%N w j | w <- ins].
Lemma mux_loop (ins : seq (seq var)) out ind ps k m a b b' :
  (0 < size ins)%N -> size ind = size ins -> size ps = size out ->
  (forall j, (j < size out)%N -> size (nth [::] ps j) = (size ins).-1) ->
  uniq (out ++ flatten ps) ->
  (forall w, w \in out ++ flatten ps -> (w \notin ind) && (w \notin flatten ins)) ->
  (k + m <= size out)%N ->
  [/\ same_out (out ++ flatten ps) a b,
      forall j, (j < k)%N -> V b (nth 0%N out j) = dot (V a) ind (column ins j) (size ins) &
      forall j i, (j < k)%N -> (i < (size ins).-1)%N ->
        V b (nth 0%N (nth [::] ps j) i) = dot (V a) ind (column ins j) i.+1] ->
  ofold (fun a i =>
    let! col := mux_column ins i in
    let! o := oget out i in let! p := oget ps i in
    inner_witness a ind col o p) b (iota k m) = Ok b' ->
  [/\ same_out (out ++ flatten ps) a b',
      forall j, (j < k + m)%N -> V b' (nth 0%N out j) = dot (V a) ind (column ins j) (size ins) &
      forall j i, (j < k + m)%N -> (i < (size ins).-1)%N ->
        V b' (nth 0%N (nth [::] ps j) i) = dot (V a) ind (column ins j) i.+1].
Proof.
move=> hn hind hps hsz; rewrite cat_uniq => /and3P[uo hd up] hdisj.
have hop x : x \in out -> x \notin flatten ps.
  by move=> hx; apply/negP => hx'; case/hasP: hd; exists x.
elim: m k b => [|m IH] k b hkm; first by move=> hb [<-]; rewrite addn0.
case=> hb1 hb2 hb3; rewrite [iota _ _]/= ofold_cons => /[ob] b1.
move=> /[ob] col /mux_columnE [-> hcol] /[ob] o /oget0 [ho <-] /[ob] q hq hw.
have {hq}hqE : nth [::] ps k = q by have [_ ->] := proj1 (oget_Ok [::] _ _ _) hq.
have hin w : w \in nth 0%N out k :: q -> w \in out ++ flatten ps.
  rewrite inE mem_cat => /orP[/eqP ->|]; first by rewrite mem_nth.
  by rewrite -hqE => /nth_in_flatten ->; rewrite orbT.
have hcin w : w \in column ins k -> w \in flatten ins.
  move=> /mapP [ww hww ->]; apply/flattenP; exists ww => //; apply: mem_nth.
  by move/allP: hcol; apply.
have hu : uniq (nth 0%N out k :: q).
  rewrite /= -hqE nth_uniq_flatten // andbT; apply/negP => /nth_in_flatten h.
  by have := hop _ (mem_nth 0%N ho); rewrite h.
have hqs : size q = (size ind).-1 by rewrite -hqE hsz // hind.
have hds w : w \in nth 0%N out k :: q -> (w \notin ind) && (w \notin column ins k).
  move/hin/hdisj/andP => [-> h]; apply/negP => /hcin h'; by rewrite h' in h.
have hcs : size (column ins k) = size ind by rewrite size_map hind.
have hn' : (0 < size ind)%N by rewrite hind.
have [g1 g2 g3] := inner_witnessV hn' hcs hqs hu hds hw.
have hE n : (n <= size ins)%N -> dot (V b) ind (column ins k) n = dot (V a) ind (column ins k) n.
  move=> hle; apply: dot_ext; rewrite ?hcs ?hind // => w hw'; apply: hb1; apply/negP => h.
  have /andP[d1 d2] := hdisj w h; case/orP: hw' => [|/hcin] hw'.
    by rewrite hw' in d1.
  by rewrite hw' in d2.
rewrite addnS -addSn => hfold; apply: IH hfold; first by rewrite addSn -addnS.
split=> [w hw'|j|j i].
- rewrite g1 ?hb1 //; apply/negP => /hin h; by rewrite h in hw'.
- rewrite ltnS leq_eqVlt => /orP[/eqP ->|hj]; first by rewrite g2 hind hE.
  rewrite g1 ?hb2 //; rewrite inE negb_or nth_uniq ?(ltn_trans hj ho) // ltn_eqF //=.
  rewrite -hqE; apply/negP => /nth_in_flatten h.
  by have := hop _ (mem_nth 0%N (ltn_trans hj ho)); rewrite h.
- rewrite ltnS leq_eqVlt => /orP[/eqP -> hi|hj hi].
    by rewrite hqE g3 ?hind // hE // (leq_trans hi) // leq_pred.
  have hlt := ltn_trans hj ho.
  have hmem : nth 0%N (nth [::] ps j) i \in nth [::] ps j by apply: mem_nth; rewrite hsz.
  rewrite g1 ?hb3 // inE negb_or; apply/andP; split.
    apply/eqP => e; have := hop _ (mem_nth 0%N ho); by rewrite -e (nth_in_flatten hmem).
  rewrite -hqE; apply: flatten_disj hmem => //; rewrite ?hps // ltn_eqF //.
Qed.

Lemma set_zerosV a (ind : seq var) w :
  V (foldl (fun a v => val_set a v (FConst F 0)) a ind) w = if w \in ind then 0 else V a w.
Proof.
elim: ind a => [|v ind IH] a //=; rewrite IH val_setV inE.
by case: (w \in ind); case: (w == v).
Qed.

Lemma mux_indexV (y : felem F) : fe_typed y ->
  (forall x, y = R1P x -> (N.of_nat (as_bigint R x) < 2 ^ 64)%num) ->
  (fe_as_long R y mod 2 ^ 64 < 2 ^ 31)%ZZ -> fe_value y = (Z.to_nat (fe_as_long R y mod 2 ^ 64)%ZZ)%:R.
Proof.
case: y => [z|x] /=.
  rewrite /in_long => hz _ h; rewrite -zvaln; congr zval.
  have h0 : (0 <= z mod 2 ^ 64)%ZZ by case: (Z.mod_pos_bound z (2 ^ 64) erefl).
  rewrite Z2Nat.id //; move: hz h h0; have := Z.div_mod z (2 ^ 64); move: (Z.modulo _ _) (Z.div _ _).
  by clear; lia.
move=> _ /(_ _ erefl) h _.
rewrite /as_ulong N.mod_small // /to_long.
have -> : (((Z.of_N (N.of_nat (as_bigint R x)) + 2 ^ 63) mod 2 ^ 64 - 2 ^ 63) mod 2 ^ 64 =
           Z.of_nat (as_bigint R x))%ZZ.
  rewrite Zminus_mod_idemp_l Z.add_simpl_r nat_N_Z Z.mod_small //.
  by move: h; clear; lia.
by rewrite Nat2Z.id as_bigintK.
Qed.

Lemma mux_complete a (ins : seq (seq var)) index out flag ind ps a' cs :
  (0 < size ins)%N -> (Z.of_nat (size ins) < 2 ^ 31)%ZZ ->
  size ind = size ins -> size ps = size out ->
  (forall j, (j < size out)%N -> size (nth [::] ps j) = (size ins).-1) ->
  uniq (flag :: ind ++ out ++ flatten ps) ->
  (forall w, w \in flag :: ind ++ out ++ flatten ps -> (w != index) && (w \notin flatten ins)) ->
  fe_typed (val_of a index) ->
  (forall x, val_of a index = R1P x -> (N.of_nat (as_bigint R x) < 2 ^ 64)%num) ->
  mux_constraints R ins index out flag ind ps = Ok cs ->
  mux_witness R a ins index out flag ind ps = Ok a' -> cs_hold (V a') cs.
Proof.
move=> hn hn31 hind hps hsz hu hd ht hx hc.
rewrite /mux_witness; set idx := Z.modulo _ _; cbv zeta.
set a1 := foldl _ _ _ => /[ob] a2 h2 hloop.
have hidx0 : (0 <= idx)%ZZ by rewrite /idx; case: (Z.mod_pos_bound (fe_as_long R (val_of a index)) (2 ^ 64) erefl).
move: (hu); rewrite /= mem_cat negb_or cat_uniq -andbA => /and5P[f_ind f_op u_ind d_ind u_op].
have v1 w : V a1 w = if w \in ind then 0 else V a w by rewrite /a1 set_zerosV val_touchV.
have v2 : [/\ V a2 flag = (nat_of_bool (idx <? Z.of_nat (size ins))%ZZ)%:R,
    forall i, (i < size ins)%N -> V a2 (nth 0%N ind i) = (nat_of_bool (Z.of_nat i =? idx)%ZZ)%:R &
    forall w, w \notin flag :: ind -> V a2 w = V a w].
  have nf i : (i < size ins)%N -> (nth 0%N ind i == flag) = false.
    by move=> hi; apply/negbTE; apply: contraNneq f_ind => <-; rewrite mem_nth ?hind.
  move: h2; case: ifP => hle.
    case=> <-; split=> [|i hi|w].
    - by rewrite val_setV eqxx; have -> : (idx <? Z.of_nat (size ins))%ZZ = false by move: hle; clear; lia.
    - rewrite val_setV nf // v1 mem_nth ?hind //.
      by have -> : (Z.of_nat i =? idx)%ZZ = false by move: hle hi; clear; lia.
    - by rewrite inE negb_or => /andP[/negbTE h1 /negbTE h3]; rewrite val_setV h1 v1 h3.
  move=> /[ob] v /oget0 [hlt <-] [<-]; have hlt2 := hlt; rewrite hind in hlt2; split=> [|i hi|w].
  - by rewrite val_setV eqxx; have -> : (idx <? Z.of_nat (size ins))%ZZ = true by move: hle; clear; lia.
  - rewrite !val_setV nf // nth_uniq ?hind // v1 mem_nth ?hind //.
    have -> : (i == Z.to_nat idx) = (Z.of_nat i =? idx)%ZZ by move: hidx0; clear; lia.
    by case: Z.eqb.
  - rewrite inE negb_or => /andP[/negbTE h1 h3]; rewrite !val_setV h1 v1 (negbTE h3).
    by case: eqP => // e; rewrite e mem_nth in h3.
case: v2 => v2f v2i v2o.
have hd' w : w \in out ++ flatten ps -> (w \notin ind) && (w \notin flatten ins).
  move=> hw; apply/andP; split.
    by apply/negP => h; case/hasP: d_ind; exists w.
  have hin : w \in flag :: ind ++ out ++ flatten ps by rewrite inE (mem_cat w ind) hw !orbT.
  by case/andP: (hd w hin).
have hle0 : (0 + size out <= size out)%N by [].
have [|g1 g2 g3] := @mux_loop ins out ind ps 0%N (size out) a2 a2 a' hn hind hps hsz u_op hd' hle0 _ hloop.
  by split.
rewrite add0n in g2 g3.
have hfl : V a' flag = V a2 flag by apply: g1.
have hindE i : (i < size ins)%N -> V a' (nth 0%N ind i) = V a2 (nth 0%N ind i).
  move=> hi; apply: g1; apply/negP => /hd' /andP[]; by rewrite mem_nth ?hind.
have hix : V a' index = V a index.
  have nix w : w \in flag :: ind ++ out ++ flatten ps -> w != index by move/hd/andP=> [].
  have h : index \notin flag :: ind ++ out ++ flatten ps by apply/negP => /nix; rewrite eqxx.
  move: h; rewrite inE mem_cat !negb_or => /and3P[q1 q2 q3].
  by rewrite g1 // v2o // inE negb_or q1 q2.
have hidxv : (idx < Z.of_nat (size ins))%ZZ -> V a index = (Z.to_nat idx)%:R.
  move=> h; rewrite -val_ofV; apply: mux_indexV => //; exact: Z.lt_trans h hn31.
move: hc; rewrite /mux_constraints => h; have [hc1 h1] := oassert_Ok h; have [hws h3] := oassert_Ok h1.
move: h3 {h h1} => /[ob] inds hinds /[ob] l /(lc_sumV (V a')) hl /[ob] fb hfb /[ob] prods hprods [<-].
have hdot j m : (j < size out)%N -> (m <= size ins)%N ->
    dot (V a2) ind (column ins j) m = dot (V a') ind (column ins j) m.
  move=> hj hm; apply: eq_bigr => i _; have hi := leq_trans (ltn_ord i) hm.
  rewrite hindE //; congr (_ * _); symmetry; apply: g1; apply/negP => /hd' /andP[_] /flattenP; apply.
  exists (nth [::] ins i); first exact: mem_nth.
  rewrite (nth_map [::]) //; apply: mem_nth.
  by move/(all_nthP [::]): hws => /(_ i hi) /eqP ->.
rewrite !csE; split.
  apply: (omapm_hold_all hinds) => i /GadgetLogic.In_mem; rewrite mem_iota => hi c.
  move=> /[ob] v /oget0 [_ <-] /[ob] d /(var_minus_intV (V a')) hdd [<-] /=.
  rewrite lcvV hdd lciV zval0 hix hindE // v2i //.
  case: Z.eqb_spec => [e|_]; last by rewrite mul0r.
  rewrite to_int_small; last by move: hi hn31; clear; lia.
  rewrite hidxv; last by move: hi e; clear; lia.
  by rewrite -e zvaln Nat2Z.id subrr mulr0.
split.
  rewrite /= lciV zval1 mulr1 lcvV hl hfl v2f (big_nth 0%N) big_mkord hind.
  rewrite (eq_bigr (fun i : 'I_(size ins) => (nat_of_bool (Z.of_nat i =? idx)%ZZ)%:R)); last first.
    by move=> i _; rewrite hindE // v2i.
  case: Z.ltb_spec => hlt.
    have hlt' : (Z.to_nat idx < size ins)%N by move: hlt hidx0; clear; lia.
    rewrite (bigD1 (Ordinal hlt')) //= big1 ?addr0 => [|i hi].
      by rewrite Z2Nat.id // Z.eqb_refl.
    have -> // : (Z.of_nat i =? idx)%ZZ = false.
    by move: hi; rewrite -val_eqE /=; clear; lia.
  rewrite big1 // => i _; have -> // : (Z.of_nat i =? idx)%ZZ = false.
  by move: hlt (ltn_ord i); clear; lia.
split.
  by apply/(boolean2V _ hfb); rewrite hfl v2f; exact: bit_is_bit.
have [hps' hpn] := omapm_nth 0%N [::] hprods; rewrite size_iota in hps' hpn.
apply/flatten_hold => j; rewrite hps' => hj.
have := hpn j hj; rewrite nth_iota // add0n.
move=> /[ob] col /mux_columnE [-> hcol] /[ob] o /oget0 [_ <-] /[ob] q hq hin.
have {hq}hqE : nth [::] ps j = q by have [_ ->] := proj1 (oget_Ok [::] _ _ _) hq.
apply: inner_hold hin _ _; rewrite hind.
  by move=> i hi; rewrite -hqE g3 // hdot // (leq_trans hi) // leq_pred.
by rewrite g2 // hdot.
Qed.
End Witness.
