(** Proofs about the gadgets of gadgetlib2: what their constraints say. *)
From Coq Require Import ZArith NArith.
From mathcomp Require Import all_ssreflect all_algebra zify ssrZ.
From Verif Require Import Outcome Fieldtac Lincomb LincombSpec R1CS R1CSSpec
  Protoboard GadgetLogic Gadgetlib2 Gadgetlib2Spec Gadgetlib2Facts.
Import GRing.Theory.
Set Implicit Arguments.
Unset Strict Implicit.
Unset Printing Implicit Defensive.
Local Open Scope ring_scope.
Delimit Scope Z_scope with ZZ.
Delimit Scope N_scope with num.

Section Gadgets.
Variable F : fieldType.
Variable R : bigint_repr F.
Add Field Ff : (Fth F).
Implicit Types (s : valuation F) (a : assignment F).

Lemma oassert_Ok (A : Type) b (e : outcome A) x : (assert! b in e) = Ok x -> b /\ e = Ok x.
Proof. by case: b. Qed.
Lemma cs_hold_nil s : cs_hold s [::] <-> True.
Proof. by split=> // _ c []. Qed.
Lemma cs_hold_cons s c cs : cs_hold s (c :: cs) <-> c_holds s c /\ cs_hold s cs.
Proof.
split=> [h|[h1 h2] d [<-|hd]] //; last exact: h2.
by split=> [|d hd]; apply: h; [left|right].
Qed.
Lemma cs_hold_cat s cs ds : cs_hold s (cs ++ ds) <-> cs_hold s cs /\ cs_hold s ds.
Proof.
elim: cs => [|c cs IH] /=; first by rewrite cs_hold_nil; tauto.
by rewrite !cs_hold_cons IH; tauto.
Qed.
Lemma cs_hold_rcons s c cs : cs_hold s (rcons cs c) <-> cs_hold s cs /\ c_holds s c.
Proof. by rewrite -cats1 cs_hold_cat cs_hold_cons cs_hold_nil; tauto. Qed.

Definition csE := (cs_hold_cons, cs_hold_nil, cs_hold_cat, cs_hold_rcons).

Lemma boolean2V s v c : boolean2 F v = Ok c -> c_holds s c <-> is_bit (s v).
Proof.
move=> /[ob] w /(var_minus_intV s) hw [<-] /=; rewrite lcvV hw lciV zval1 zval0.
split=> [/eqP|[] ->]; last by rewrite subrr mulr0.
  by rewrite mulf_eq0 subr_eq0 => /orP[]/eqP ->; [left|right].
by rewrite mul0r.
Qed.

Lemma is_bitE (x : F) : is_bit x -> x = (nat_of_bool (x == 1))%:R.
Proof. by case=> ->; rewrite ?eqxx // eq_sym oner_eq0. Qed.
Lemma bit_is_bit (b : bool) : is_bit ((nat_of_bool b)%:R : F).
Proof. by case: b; [right|left]. Qed.

(** ** AND, OR of two *)
Lemma and2_sound s x y r cs : and2_constraints x y r = Ok cs ->
  cs_hold s cs <-> s r = lc_value s x * lc_value s y.
Proof. by case=> <-; rewrite !csE /= lcvV; split=> [[->]|->]. Qed.
Lemma or2_sound s x y r cs : or2_constraints x y r = Ok cs ->
  cs_hold s cs <-> s r = lc_value s x + lc_value s y - lc_value s x * lc_value s y.
Proof.
move=> /[ob] l /(lc_plusV s) hl /[ob] m /(lc_minus_varV s) hm [<-]; rewrite !csE /= hm hl.
split=> [[-> _]|->]; first by rewrite opprB addrC subrK.
by split=> //; rewrite opprB addrC subrK.
Qed.

(** ** AND, OR of an array *)
Lemma array_checkV (vs : seq var) u : array_check R vs = Ok u -> (0 < size vs < fp_order R)%N.
Proof.
rewrite /array_check => h; have [h0 h1] := oassert_Ok h; have [h2 _] := oassert_Ok h1.
rewrite h0 /=; have := as_bigint_lt R (Fp F (-1)).
move: h2; rewrite /as_ulong; have := N.mod_le (N.of_nat (as_bigint R (Fp F (-1)))) (2 ^ 64).
by move: (N.modulo _ _) => q; move: (as_bigint _ _) (fp_order R); clear; lia.
Qed.
Lemma sum_bits s (vs : seq var) : (forall v, v \in vs -> is_bit (s v)) ->
  \sum_(v <- vs) s v = (count (fun v => s v == 1) vs)%:R.
Proof.
elim: vs => [|v vs IH] h; first by rewrite big_nil.
rewrite big_cons /= natrD IH => [|w hw]; last by apply: h; rewrite inE hw orbT.
by congr (_ + _); apply: is_bitE; apply: h; rewrite inE eqxx.
Qed.
Lemma to_int_small n : (Z.of_nat n < 2 ^ 31)%ZZ -> to_int (Z.of_nat n) = Z.of_nat n.
Proof. by move=> h; rewrite /to_int Z.mod_small; lia. Qed.

(** The two constraints [d * r = 0], [i * d = 1 - r]. *)
Lemma zero_testP (d r i : F) : d * r = 0 -> i * d = 1 - r -> r = (nat_of_bool (d == 0))%:R.
Proof.
move=> h1 h2; case: eqP h1 h2 => [->|/eqP hd].
  by move=> _; rewrite mulr0 => /esym/eqP; rewrite subr_eq0 => /eqP <-.
by move/eqP; rewrite mulf_eq0 (negbTE hd) => /eqP ->.
Qed.
Lemma and_sound s (vs : seq var) r inv cs : (Z.of_nat (size vs) < 2 ^ 31)%ZZ ->
  and_constraints R vs r inv = Ok cs -> (forall v, v \in vs -> is_bit (s v)) ->
  cs_hold s cs -> s r = (nat_of_bool (all (fun v => s v == 1) vs))%:R.
Proof.
move=> hn /[ob] u /array_checkV /andP[_ hc] /[ob] l /(lc_sumV s) hl /[ob] m /(lc_minus_intV s) hm.
move=> /[ob] nr /(int_minus_varV s) hnr [<-] hb; rewrite !csE /= !lcvV hm hl lciV hnr zval1 zval0.
rewrite to_int_small // zvaln (sum_bits hb) => -[h1 [h2 _]].
rewrite (zero_testP h1 h2); congr (nat_of_bool _)%:R.
rewrite subr_eq0 all_count; apply/eqP/eqP => [|-> //].
by apply: (@natF_inj F R) => //; apply: leq_ltn_trans hc; exact: count_size.
Qed.
Lemma or_sound s (vs : seq var) r inv cs :
  or_constraints R vs r inv = Ok cs -> (forall v, v \in vs -> is_bit (s v)) ->
  cs_hold s cs -> s r = (nat_of_bool (has (fun v => s v == 1) vs))%:R.
Proof.
move=> /[ob] u /array_checkV /andP[_ hc] /[ob] l /(lc_sumV s) hl.
move=> /[ob] nr /(int_minus_varV s) hnr [<-] hb; rewrite !csE /= !lcvV hl lciV hnr zval1 zval0.
rewrite (sum_bits hb) => -[h1 [h2 _]].
have h3 := @zero_testP _ (1 - s r) (s inv) h1; rewrite subKr in h3.
rewrite has_count -(subKr 1 (s r)) h3 // (natF_eq0 R).
have hlt := leq_ltn_trans (count_size (fun v => s v == 1) vs) hc.
case: posnP => [->|hp]; first by rewrite dvdn0 subrr.
by rewrite gtnNdvd // subr0.
Qed.

(** ** The equality test *)
Lemma equals_sound s n x r aux cs : equals_constraints n x r aux = Ok cs ->
  cs_hold s cs -> s r = (nat_of_bool (lc_value s x == fe_value n))%:R.
Proof.
move=> /[ob] d /(lc_minus_feV s) hd /[ob] nr /(int_minus_varV s) hnr [<-].
rewrite !csE /= !lcvV hd hnr lciV zval1 zval0 => -[h1 [h2 _]].
by rewrite (zero_testP h1 (i := s aux)) ?subr_eq0 // mulrC.
Qed.

(** ** The selector, the flag, the implication *)
Lemma toggle_sound s t x0 x1 r cs : toggle_constraints t x0 x1 r = Ok cs ->
  cs_hold s cs <-> s r = lc_value s x0 + s t * (lc_value s x1 - lc_value s x0).
Proof.
move=> /[ob] d /(lc_minusV s) hd /[ob] e /(var_minus_lcV s) he [<-].
rewrite !csE /= lcvV hd he; split=> [[-> _]|->]; first by rewrite addrC subrK.
by split=> //; rewrite addrAC subrr add0r.
Qed.
Lemma condflag_sound s c flag inv cs : condflag_constraints c flag inv = Ok cs ->
  cs_hold s cs -> s flag = (nat_of_bool (lc_value s c != 0))%:R.
Proof.
move=> /[ob] nf /(lc_negateV s) hnf [<-]; rewrite !csE /= hnf !lcvV lciV zval0 => -[h1 [h2 _]].
case: eqP h1 h2 => [->|/eqP hc] h1 h2; first by rewrite -h2 mul0r.
by move/eqP: h1; rewrite mulf_eq0 (negbTE hc) subr_eq0 => /eqP <-.
Qed.
Lemma implication_sound s c flag cs : implication_constraints c flag = Ok cs ->
  cs_hold s cs <-> (lc_value s c <> 0 -> s flag = 1).
Proof.
move=> /[ob] nf /(lc_negateV s) hnf [<-]; rewrite !csE /= hnf !lcvV lciV zval0.
split=> [[/eqP h _] hc|h].
  by move: h; rewrite mulf_eq0 subr_eq0 => /orP[/eqP //|/eqP <-].
by split=> //; case: (lc_value s c =P 0) => [->|/h ->]; rewrite ?mul0r // subrr mulr0.
Qed.

(** ** Packing *)
Lemma packing_checkV (bits packed : seq var) p : packing_check bits packed = Ok p ->
  (0 < size bits)%N /\ packed = [:: p].
Proof.
rewrite /packing_check => h; have [h0 h1] := oassert_Ok h; have [/eqP h2 h3] := oassert_Ok h1.
by split=> //; case: packed h2 h3 {h h1} => [|q []] //= _ [->].
Qed.
Lemma packing2_loop s unpack (bits : seq var) l w cs l' w' cs' :
  ofold (fun st b =>
      let: (l, two_i, cs) := st in
      let! t := lt_mulby (lt_var F b) two_i in
      let! l := lc_plus l (lct t) in
      let! two_i := fe_add two_i two_i in
      if unpack then let! c := boolean2 F b in Ok (l, two_i, rcons cs c) else Ok (l, two_i, cs))
    (l, w, cs) bits = Ok (l', w', cs') ->
  lc_value s l' = lc_value s l + fe_value w * bits_value (map s bits) /\
  (cs_hold s cs' <-> cs_hold s cs /\ (unpack -> forall b, b \in bits -> is_bit (s b))).
Proof.
elim: bits l w cs => [|b bits IH] l w cs.
  by case=> <- _ <-; rewrite /= mulr0 addr0; split=> //; split=> [h|[]].
rewrite ofold_cons => /[ob] -[[l1 w1] cs1] /[ob] t ht /[ob] l2 /(lc_plusV s) hl /[ob] w2 /fe_addV hw h1 /IH [h2 h3].
have hc : [/\ l2 = l1, w2 = w1 & cs_hold s cs1 <-> cs_hold s cs /\ (unpack -> is_bit (s b))].
  case: unpack h1 {IH h2 h3} => [/[ob] c /(boolean2V s) hc [<- <- <-]|[<- <- <-]].
    by split=> //; rewrite cs_hold_rcons; split=> [[h /hc h']|[h h']]; split=> //; apply/hc; exact: h'.
  by split=> //; split=> [|[]].
case: hc => h4 h5 h6; split.
  rewrite h2 -h4 hl lctV -h5 hw.
  have [ht1 ht2] : t.1 = b /\ fe_value t.2 = fe_value w.
    by move: ht => /[ob] x /fe_mulV hx [<-]; rewrite hx /= mul1r.
  have gen (L W B x : F) : L + W * x + (W + W) * B = L + W * (x + 2%:R * B).
    by rewrite mulr_natl mulr2n; fring F.
  by rewrite ht1 ht2; exact: gen.
rewrite h3 h6; split=> [[[k1 k2] k3]|[k1 k2]].
  by split=> // hu c; rewrite inE => /orP[/eqP ->|]; [exact: k2|exact: k3].
by split=> [|hu c hc]; [split=> // hu|]; apply: k2 => //; rewrite inE ?eqxx ?hc ?orbT.
Qed.
Lemma packing2_sound s unpack bits packed cs : packing2_constraints F unpack bits packed = Ok cs ->
  exists2 p, packed = [:: p] &
  cs_hold s cs <-> (unpack -> forall b, b \in bits -> is_bit (s b)) /\ s p = bits_value (map s bits).
Proof.
move=> /[ob] p /packing_checkV [_ hp] /[ob] -[[l w] cs1] /(packing2_loop s) [h1 h2] [<-].
exists p => //; rewrite cs_hold_rcons h2 cs_hold_nil /= lcvV lciV zval1 mulr1 h1.
by rewrite /lc_value /= big_nil !add0r mul1r; tauto.
Qed.

(** ** Inner product *)
Lemma omapm_hold (A : Type) s (f : A -> outcome (constraint2 F)) l cs : omapm f l = Ok cs ->
  cs_hold s cs <-> (forall x, List.In x l -> exists2 c, f x = Ok c & c_holds s c).
Proof.
elim: l cs => [|x l IH] cs /=; first by case=> <-; rewrite cs_hold_nil; split.
move=> /[ob] c hc h0; case: (omap_Ok h0) => cs' hcs ->; rewrite cs_hold_cons (IH _ hcs).
split=> [[h1 h2] y [<-|hy]|h]; [by exists c|exact: h2|].
split=> [|y hy]; last by apply: h; right.
by have [|d] := h x; [left|rewrite hc => -[<-]].
Qed.

Lemma oget0 (v : seq nat) i x : oget v i = Ok x -> (i < size v)%N /\ nth 0%N v i = x.
Proof. by move/(oget_Ok 0%N) => [h ->]. Qed.
Lemma inner_sound s xs ys r ps cs : inner_constraints F xs ys r ps = Ok cs -> cs_hold s cs ->
  s r = \sum_(i < size xs) s (nth 0%N xs i) * s (nth 0%N ys i).
Proof.
rewrite /inner_constraints => h; have [h0 h1] := oassert_Ok h; have [/eqP hs h2] := oassert_Ok h1.
move: h2 {h h1}; case: eqP => hn1.
  move=> /[ob] x hx /[ob] y hy [<-]; rewrite !csE /= !lcvV => -[<- _].
  have [_ <-] := oget0 hx; have [_ <-] := oget0 hy.
  by rewrite hn1 big_ord1.
move=> /[ob] x0 /oget0 [_ <-] /[ob] y0 /oget0 [_ <-] /[ob] p0 /oget0 [_ <-].
move=> /[ob] mid hmid /[ob] xl /oget0 [_ <-] /[ob] yl /oget0 [_ <-].
move=> /[ob] pl /oget0 [_ <-] /[ob] d /(var_minus_varV s) hd [<-].
rewrite !csE => -[hf [/(proj1 (omapm_hold s hmid)) hm [hl _]]].
move: hf hl; rewrite /= !lcvV hd => hfirst hlast.
have step i : (i <= size xs - 2)%N ->
    s (nth 0%N ps i) = \sum_(j < i.+1) s (nth 0%N xs j) * s (nth 0%N ys j).
  elim: i => [|i IH] hi; first by rewrite big_ord1 hfirst.
  have [|c] := hm i.+1; first by apply/GadgetLogic.In_mem; rewrite mem_iota; lia.
  move=> /[ob] x /oget0 [_ <-] /[ob] y /oget0 [_ <-] /[ob] q /oget0 [_ <-].
  move=> /[ob] q' /oget0 [_ <-] /[ob] e /(var_minus_varV s) he [<-] /=; rewrite !lcvV he => hh.
  by rewrite big_ord_recr /= hh -IH 1?ltnW // addrC subrK.
have -> : size xs = (size xs).-2.+2 by lia.
rewrite big_ord_recr /=; have -> : ((size xs).-2.+1 = (size xs).-1)%N by lia.
rewrite hlast; have -> : (size xs - 2 = (size xs).-2)%N by lia.
rewrite step; last by lia.
have -> : ((size xs).-2.+1 = (size xs).-1)%N by lia.
by rewrite addrC subrK.
Qed.

(** ** The selector by index *)
Lemma omapm_nth (A B : Type) (f : A -> outcome B) (d : A) (e : B) l l' : omapm f l = Ok l' ->
  size l' = size l /\ forall i, (i < size l)%N -> f (nth d l i) = Ok (nth e l' i).
Proof.
elim: l l' => [|x l IH] l' /=; first by case=> <-.
move=> /[ob] y hy h0; case: (omap_Ok h0) => l1 /IH [hs hn] -> /=; rewrite hs.
by split=> // -[|i] //= hi; apply: hn.
Qed.
Lemma mux_columnV (ins : seq (seq var)) j col : mux_column ins j = Ok col ->
  size col = size ins /\ forall i, (i < size ins)%N -> nth 0%N col i = nth 0%N (nth [::] ins i) j.
Proof.
move/(omapm_nth [::] 0%N) => [hs hn]; split=> // i /hn /oget0 [_ <-] //.
Qed.
Lemma flatten_hold s (l : seq (seq (constraint2 F))) : cs_hold s (flatten l) <->
  forall i, (i < size l)%N -> cs_hold s (nth [::] l i).
Proof.
elim: l => [|c l IH] /=; first by rewrite cs_hold_nil; split.
rewrite cs_hold_cat IH; split=> [[h1 h2] [|i] hi|h] //; first exact: h2.
by split=> [|i hi]; [exact: (h 0%N)|exact: (h i.+1)].
Qed.
Lemma mux_sound s (ins : seq (seq var)) index out flag ind ps cs :
  (Z.of_nat (size ins) < 2 ^ 31)%ZZ -> size ind = size ins ->
  mux_constraints R ins index out flag ind ps = Ok cs -> cs_hold s cs ->
  (s flag = 0 /\ forall j, (j < size out)%N -> s (nth 0%N out j) = 0) \/
  (s flag = 1 /\ exists2 i, (i < size ins)%N & s index = i%:R /\
     forall j, (j < size out)%N -> s (nth 0%N out j) = s (nth 0%N (nth [::] ins i) j)).
Proof.
move=> hn hsz; rewrite /mux_constraints => h; have [hc h1] := oassert_Ok h; have [_ h2] := oassert_Ok h1.
have {h h1}hp : (size ins < fp_order R)%N.
  have := as_bigint_lt R (Fp F (-1)).
  move: hc; rewrite /as_ulong; have := N.mod_le (N.of_nat (as_bigint R (Fp F (-1)))) (2 ^ 64).
  by move: (N.modulo _ _) => q; move: (as_bigint _ _) (fp_order R); clear; lia.
move: h2 => /[ob] inds hinds /[ob] l /(lc_sumV s) hl /[ob] fb hfb /[ob] prods hprods [<-].
rewrite !csE => -[/(proj1 (omapm_hold s hinds)) hi [hs [hf /flatten_hold hout]]].
move/(boolean2V s hfb): hf => hf.
move: hs; rewrite /= lciV zval1 mulr1 lcvV hl => hs.
have hz i : (i < size ins)%N -> s (nth 0%N ind i) = 0 \/ s index = i%:R.
  move=> hlt; have [|c] := hi i; first by apply/GadgetLogic.In_mem; rewrite mem_iota.
  move=> /[ob] v /oget0 [_ <-] /[ob] d /(var_minus_intV s) hd [<-] /=.
  rewrite lcvV hd lciV zval0 to_int_small; last by move: hn hlt; clear; lia.
  by rewrite zvaln => /eqP; rewrite mulf_eq0 subr_eq0 => /orP[]/eqP ->; [left|right].
have [hps hpn] := omapm_nth 0%N [::] hprods; rewrite size_iota in hps hpn.
have ho j : (j < size out)%N ->
    s (nth 0%N out j) = \sum_(i < size ins) s (nth 0%N ind i) * s (nth 0%N (nth [::] ins i) j).
  move=> hj; have := hpn j hj; rewrite nth_iota // add0n.
  move=> /[ob] col /mux_columnV [hcs hcn] /[ob] o /oget0 [_ <-] /[ob] q hq hin.
  have := inner_sound hin (hout j _); rewrite hps => -> //; rewrite hsz.
  by apply: eq_bigr => i _; rewrite hcn.
have hsum : \sum_(v <- ind) s v = \sum_(i < size ins) s (nth 0%N ind i).
  by rewrite (big_nth 0%N) big_mkord hsz.
rewrite hsum in hs.
case: (altP (@existsP _ (fun i : 'I_(size ins) => s index == (i : nat)%:R))) => [[i0 /eqP hi0]|].
  have h0 (i : 'I_(size ins)) : i != i0 -> s (nth 0%N ind i) = 0.
    move=> hne; case: (hz i (ltn_ord i)) => // hii; case/negP: hne; apply/eqP/val_inj/(@natF_inj F R).
    + exact: ltn_trans (ltn_ord i) hp.
    + exact: ltn_trans (ltn_ord i0) hp.
    + by rewrite -hii.
  have hs0 : s (nth 0%N ind i0) = s flag.
    by rewrite -hs (bigD1 i0) //= big1 ?addr0.
  have ho0 j : (j < size out)%N -> s (nth 0%N out j) = s flag * s (nth 0%N (nth [::] ins i0) j).
    by move/ho => ->; rewrite (bigD1 i0) //= big1 ?addr0 ?hs0 // => i /h0 ->; rewrite mul0r.
  case: hf => hf; [left|right]; split=> //.
    by move=> j /ho0 ->; rewrite hf mul0r.
  by exists (i0 : nat) => //; split=> // j /ho0 ->; rewrite hf mul1r.
rewrite negb_exists => /forallP hne.
have h0 (i : 'I_(size ins)) : s (nth 0%N ind i) = 0.
  by case: (hz i (ltn_ord i)) => // hii; have := hne i; rewrite hii eqxx.
left; split; first by rewrite -hs big1.
by move=> j /ho ->; rewrite big1 // => i _; rewrite h0 mul0r.
Qed.

(** ** Comparison *)
Fixpoint bv (bs : seq bool) : nat := if bs is b :: bs' then (b + 2 * bv bs')%N else 0%N.
Lemma bv_lt bs : (bv bs < 2 ^ size bs)%N.
Proof. by elim: bs => [|b bs IH] //=; rewrite expnS; case: b; lia. Qed.
Lemma bv_rcons bs b : bv (rcons bs b) = (bv bs + b * 2 ^ size bs)%N.
Proof. by elim: bs => [|c bs IH] /=; [lia|rewrite IH expnS; nia]. Qed.
Lemma bv_has bs : (bv bs != 0)%N = has id bs.
Proof. by elim: bs => [|[] bs IH] //=; rewrite -IH; lia. Qed.
Lemma bits_valueV s (vs : seq var) : (forall v, v \in vs -> is_bit (s v)) ->
  bits_value (map s vs) = (bv (map (fun v => s v == 1) vs))%:R.
Proof.
elim: vs => [|v vs IH] h //=; rewrite natrD natrM IH => [|w hw]; last by apply: h; rewrite inE hw orbT.
by congr (_ + _); apply: is_bitE; apply: h; rewrite inE eqxx.
Qed.

Lemma Z_pow2 n : (2 ^ Z.of_nat n)%ZZ = Z.of_nat (2 ^ n).
Proof.
elim: n => // n IH; rewrite Nat2Z.inj_succ Z.pow_succ_r; last by lia.
by rewrite IH expnS; move: (2 ^ n)%N; clear; lia.
Qed.
Lemma pow2_longV n z : pow2_long n = Ok z -> (n < 63)%N /\ z = Z.of_nat (2 ^ n).
Proof. by rewrite /pow2_long; case: ltnP => // _ [<-]; rewrite Z_pow2. Qed.

Lemma compare_sound s n lhs rhs less leq ap (alpha : seq var) nz nzinv cs (A B : nat) :
  compare_constraints R n lhs rhs less leq ap alpha nz nzinv = Ok cs -> size alpha = n ->
  (2 ^ n.+1 <= fp_order R)%N -> (A < 2 ^ n)%N -> (B < 2 ^ n)%N ->
  s lhs = A%:R -> s rhs = B%:R -> cs_hold s cs ->
  s leq = (nat_of_bool (A <= B)%N)%:R /\ s less = (nat_of_bool (A < B)%N)%:R.
Proof.
move=> h hsz hp hA hB hl hr; move: h => /[ob] u hu /[ob] bz hbz /[ob] w /pow2_longV [_ hw].
move=> /[ob] l1 /(lc_plusV s) hl1 /[ob] l2 /(lc_minus_varV s) hl2 /[ob] pk /(packing2_sound s) [p [<-] hpk].
move=> /[ob] orc horc /[ob] top /oget0 [_ htop] [<-]; rewrite !csE.
have {}htop : top = leq by rewrite -htop nth_rcons hsz ltnn eqxx.
case=> _ [hap [/hpk [hbits hval] [hor [_ [hless _]]]]].
have {}hbits : forall v, v \in rcons alpha leq -> is_bit (s v) by exact: hbits.
have hba v : v \in alpha -> is_bit (s v) by move=> hv; apply: hbits; rewrite mem_rcons inE hv orbT.
have hnz := or_sound horc hba hor.
move: hless; rewrite /= !lcvV htop hnz => hless.
move: hap; rewrite /= !lcvV lciV zval1 mul1r hl2 hl1 lccV /= hw zvaln lcvV hl hr hval.
rewrite (bits_valueV hbits) map_rcons bv_rcons size_map hsz -natrD -natrB; last by move: hA; clear; lia.
set V := bv _; set t := (s leq == 1) => hE.
have hlt : (V < 2 ^ n)%N.
  by rewrite /V; have := bv_lt (map (fun v => s v == 1) alpha); rewrite size_map hsz.
have hV : (V + t * 2 ^ n = 2 ^ n + B - A)%N.
  apply: (@natF_inj F R) hE; move: hp hlt hA hB; rewrite expnS; move: (2 ^ n)%N (fp_order R).
    by clear; case: (t); lia.
  by clear; lia.
have hleq : s leq = (nat_of_bool t)%:R by apply: is_bitE; apply: hbits; rewrite mem_rcons inE eqxx.
have ht : t = (A <= B)%N.
  move: hV hlt hA hB; move: (2 ^ n)%N; clear; case: (t) => /= q; lia.
split; first by rewrite hleq ht.
have hhas : has (fun v => s v == 1) alpha = (V != 0%N) by rewrite /V bv_has has_map.
rewrite -hless hleq hhas ht -natrM mulnb; congr (nat_of_bool _)%:R.
by move: hV hlt hA hB; rewrite ht; move: (2 ^ n)%N; clear; case: leqP => /=; lia.
Qed.
End Gadgets.
