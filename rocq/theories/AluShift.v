(** The shift gadget of the ALU: what its constraints force (for C39).  Models nothing of /repo. *)
From mathcomp Require Import all_ssreflect all_algebra zify.
From Verif Require Import Outcome Lincomb LincombSpec LincombFacts R1CS R1CSSpec R1CSFacts Fieldtac.
From Verif Require Import Protoboard GadgetSpec GadgetLogic BasicGadgets BasicGadgetsFacts BasicGadgetsMore.
From Verif Require Import BasicGadgetsCopy GadgetNew GadgetSeq Benes Alu AluSpec AluFacts AluSound AluSound2.
Set Implicit Arguments.
Unset Strict Implicit.
Unset Printing Implicit Defensive.
Local Open Scope ring_scope.
Import GRing.Theory.

Section Sound.
Variable F : fieldType.
Variable R : bigint_repr F.
Add Field Ff : (Fth F).
Implicit Types (x : seq F) (pb : protoboard F).
Let bit (b : bool) : F := (nat_of_bool b)%:R.
Let inv1 (b : bool) : 1 - bit b = bit (~~ b).
Proof. by case: b; rewrite /bit /= ?subrr ?subr0. Qed.

Lemma allocate_outs_spec pb i n outs pb' : pb_wf pb -> allocate_outs pb i n = (outs, pb') ->
  pb_wf pb' /\ forall j, (j < n)%N -> size (nth [::] outs j) = (2 ^ (i + j))%N.
Proof.
elim: n pb i outs => [|n IH] pb i outs hw /=; first by case=> _ <-.
case e1: (allocate_array pb _) => [a b1]; have [h1 ea _] := allocate_array_new hw e1.
case e2: (allocate_outs b1 _ _) => [r b2] [<- eb]; rewrite eb in e2; have [h2 h3] := IH _ _ _ (allocates_wf h1) e2.
split=> // [[|j]] /= hj; first by rewrite ea size_iota addn0.
by rewrite h3 // addSnnS.
Qed.
Lemma shift_new_spec pb w arg2 g pb' : pb_wf pb -> alu_shift_new pb w arg2 = Ok (g, pb') ->
  [/\ forall i, (i < ceil_log2 w)%N -> size (nth [::] (sh_out_bits g) i) = (2 ^ i)%N,
      dj_inputs (sh_check g) = drop (ceil_log2 w) (dv_bits arg2), dj_output (sh_check g) = sh_oversize g &
      size (sh_result_bits g) = w].
Proof.
move=> hw; rewrite /alu_shift_new.
case e1: (allocate_var pb) => [v1 b1]; have [h1 _ _] := allocate_var_new hw e1.
case e2: (allocate_array b1 _) => [v2 b2]; have [h2 ea _] := allocate_array_new (allocates_wf h1) e2.
case e3: (allocate_outs b2 _ _) => [v3 b3]; have [w3 ho] := allocate_outs_spec (allocates_wf h2) e3.
case e4: (allocate_var b3) => [v4 b4]; have [h4 _ _] := allocate_var_new w3 e4.
case e5: (disjunction_new _ _ _) => [[c b5]| |] //; cbn [obind fst snd].
have [_ h5 ei eo _] := disjunction_new_spec (allocates_wf h4) e5.
case e6: (allocate_var b5) => [v6 b6]; have [h6 _ _] := allocate_var_new (allocates_wf h5) e6.
case e7: (allocate_array b6 _) => [v7 b7]; have [h7 er _] := allocate_array_new (allocates_wf h6) e7.
by case: (allocate_var b7) => ? ? [<- _] /=; split; rewrite ?ei ?eo // er size_iota.
Qed.

Lemma shifted_sum (out : seq nat) l0 x :
  formal_sum (foldl (fun l j => add_term l (lt_mk (nth ONE out j) (2%:R ^+ j))) l0 (iota 0 (size out))) x =
  formal_sum l0 x + pack (map (xval x) out).
Proof.
have gen : forall s k l, formal_sum (foldl (fun l j => add_term l (lt_mk (nth ONE s (j - k)) (2%:R ^+ j))) l (iota k (size s))) x =
    formal_sum l x + 2%:R ^+ k * pack (map (xval x) s).
  elim=> [|v s IH] k l /=; first by rewrite mulr0 addr0.
  have -> : foldl (fun l j => add_term l (lt_mk (nth ONE (v :: s) (j - k)) (2%:R ^+ j : F)))
      (add_term l (lt_mk (nth ONE (v :: s) (k - k)) (2%:R ^+ k : F))) (iota k.+1 (size s)) =
    foldl (fun l j => add_term l (lt_mk (nth ONE s (j - k.+1)) (2%:R ^+ j : F)))
      (add_term l (lt_mk v (2%:R ^+ k : F))) (iota k.+1 (size s)).
    rewrite subnn /=; move: (add_term l _) => l1.
    have : all (fun j => k < j)%N (iota k.+1 (size s)) by apply/allP => j; rewrite mem_iota => /andP[].
    elim: (iota _ _) l1 => [|j js IHj] l1 //= /andP[hj hjs].
    have -> : nth ONE (v :: s) (j - k) = nth ONE s (j - k.+1) by rewrite -[(j - k)%N]prednK ?subn_gt0 // subnS.
    exact: IHj.
  rewrite IH formal_sum_add_term exprS /=; move: (2%:R ^+ k) (pack _) (formal_sum l x) (xval x v) => p q u z.
  by rewrite mulrDr -addrA; congr (_ + (_ + _)); rewrite mulrCA !mulrA.
rewrite -[pack _]mul1r -[1](expr0 2%:R) -gen; congr (formal_sum _ x).
by elim: (iota _ _) l0 => [|j js IH] l0 //=; rewrite subn0 IH.
Qed.
Lemma holds_flatten (T : Type) (f : T -> seq (r1cs_constraint F)) (ts : seq T) x :
  holds (flatten (map f ts)) x <-> forall t, List.In t ts -> holds (f t) x.
Proof.
elim: ts => [|t ts IH] /=; first by rewrite holds_nil; split.
rewrite holds_cat IH; split=> [[h1 h2] u [<-|/h2]|h] //.
by split=> [|u hu]; apply: h; [left|right].
Qed.
Lemma In_iota i k n : List.In i (iota k n) <-> (k <= i < k + n)%N.
Proof.
elim: n k => [|n IH] k /=; first by split=> //; rewrite addn0; lia.
rewrite IH; split; last by case: (eqVneq k i) => [-> _|hk h]; [left|right; move: h hk; lia].
by case=> [->|]; lia.
Qed.
Lemma shift_step_iff arg2 (g : alu_shift) i x : size (nth [::] (sh_out_bits g) i) = (2 ^ i)%N ->
  holds (alu_shift_step F arg2 g i) x <->
  all (fun v => isbit (xval x v)) (nth [::] (sh_out_bits g) i) /\
  ((2%:R ^+ i.+1 - 1) * xval x (barrel_at g i.+1) + pack (map (xval x) (nth [::] (sh_out_bits g) i))) *
    xval x (nth ONE (dv_bits arg2) i) = xval x (barrel_at g i) - xval x (barrel_at g i.+1).
Proof.
move=> hs; rewrite /alu_shift_step holds_cat holds1 /constraint_holds; cbn [c_a c_b c_c].
rewrite -hs shifted_sum lc2E !lc1E !mul1r mulN1r.
have -> : holds [seq boolean_constraint (lc_terms (plc_of_var F b)) | b <- nth [::] (sh_out_bits g) i] x <->
  all (fun v => isbit (xval x v)) (nth [::] (sh_out_bits g) i).
  elim: (nth _ _ _) => [|v vs IH] /=; first by rewrite holds_nil.
  rewrite holds_cons IH boolean_constraintE -/(lval x (plc_of_var F v)) lval_var.
  by split=> [[-> ->]|/andP[]].
by [].
Qed.

(** The chain of shifts when only the shift amounts 1 and 2 are switched on. *)
Lemma barrel_chain (v : nat -> F) (out : nat -> seq bool) (cs : seq bool) L :
  (forall i, (i < L)%N -> size (out i) = (2 ^ i)%N) -> (L <= size cs)%N ->
  (forall i, (i < L)%N -> ((2%:R ^+ i.+1 - 1) * v i.+1 + (bits_nat (out i))%:R) * bit (nth false cs i) = v i - v i.+1) ->
  (forall i, (2 <= i < L)%N -> nth false cs i = false) ->
  exists O : nat, (O < 2 ^ bits_nat (take L cs))%N /\ v 0%N = (2 ^ bits_nat (take L cs))%:R * v L + O%:R.
Proof.
move=> ho hL hstep hz.
suff gen : forall d i, (i + d = L)%N -> exists O : nat,
    (O < 2 ^ (2 ^ i * bits_nat (drop i (take L cs))))%N /\
    v i = (2 ^ (2 ^ i * bits_nat (drop i (take L cs))))%:R * v L + O%:R.
  by have := gen L 0%N (erefl _); rewrite drop0 mul1n.
elim=> [|d IH] i; first by rewrite addn0 => ->; exists 0%N; rewrite drop_oversize ?size_take ?muln0 ?mul1r ?addr0 //; case: ltnP.
rewrite addnS -addSn => ei; have [O [hO eO]] := IH _ ei.
have hi : (i < L)%N by rewrite -ei; lia.
have ed : drop i (take L cs) = nth false cs i :: drop i.+1 (take L cs).
  by rewrite (drop_nth false) ?size_takel // nth_take.
rewrite ed /=; have := hstep i hi; have := hz i; case: (nth false cs i) => hz' hs; last first.
  have ev : v i = v i.+1 by apply/eqP; rewrite -subr_eq0 -hs /bit mulr0.
  by exists O; rewrite add0n ev mulnA -expnSr.
have hi2 : (i < 2)%N by rewrite ltnNge; apply/negP => h; have := hz'; rewrite h hi => /(_ isT).
have e2 : (2 ^ i.+1 = 2 ^ (2 ^ i))%N by case: i hi2 {hstep ei eO hO hi ed hz' hs} => [|[|]].
have lo := bits_nat_lt (out i); rewrite ho // -e2 in lo.
have ev : v i = (2 ^ i.+1)%:R * v i.+1 + (bits_nat (out i))%:R.
  move: hs; rewrite /bit mulr1 -natrX; move: (v i) (v i.+1) (2 ^ i.+1)%:R (bits_nat _)%:R; clear => a b c d h.
  by rewrite -[a](subrK b) -h; fring F.
exists (2 ^ i.+1 * O + bits_nat (out i))%N.
have ee : (2 ^ (2 ^ i * (1 + 2 * bits_nat (drop i.+1 (take L cs)))) =
    2 ^ i.+1 * 2 ^ (2 ^ i.+1 * bits_nat (drop i.+1 (take L cs))))%N.
  by rewrite e2 -expnD; congr (2 ^ _)%N; rewrite mulnDr muln1 mulnA -expnSr e2.
rewrite ee; split; first by move: hO lo; move: (2 ^ (2 ^ i.+1 * bits_nat (drop i.+1 (take L cs))))%N (2 ^ i.+1)%N (bits_nat (out i)); clear; nia.
by rewrite ev eO natrD !natrM mulrDr addrA mulrA.
Qed.

Lemma shift_sound pb0 pb1 w (shr : nat) arg1 arg2 o g x bs cs : pb_wf pb0 ->
  alu_shift_new pb0 w arg2 = Ok (g, pb1) -> (0 < w)%N ->
  size bs = w -> size cs = w -> (2 ^ (w + 3) <= fp_order R)%N -> is_word x arg1 bs -> is_word x arg2 cs ->
  xval x shr = 1 ->
  holds (alu_shift_constraints F w shr arg1 arg2 o g) x ->
  [/\ (2 ^ ceil_log2 w <= bits_nat cs)%N -> xval x (so_shr o) = 0,
      (bits_nat cs < 4)%N -> (bits_nat cs < 2 ^ ceil_log2 w)%N -> xval x (so_shr o) = (bits_nat bs %/ 2 ^ bits_nat cs)%N%:R,
      xval x (so_shr_flag o) = bit (head false bs) & xval x (so_shl_flag o) = bit (last false bs)].
Proof.
move=> hw hn w0 sb sc hp [b1 h1] [b2 h2] hshr; have [ho ei eo sr] := shift_new_spec hw hn.
rewrite /alu_shift_constraints; have : (ceil_log2 w <= w)%N by apply: up_log_min => //; apply: ltnW; exact: ltn_expl.
move: (ceil_log2 w) ho ei => L ho ei hLm.
rewrite !holds_cat !holds_rc !holds_nil; cbn [foldr]; rewrite !vrE !tmE !addr0 ?xone !mul1r !mulN1r hshr !mulr1.
case=> c1 [[c2 _] [c3 [c4 [[c5 _] [c6 [c7 [c8 [_ [c9 [c10 _]]]]]]]]]].
have {c8} e8 : xval x (so_shr o) = xval x (sh_result g) by move: c8 => /addIr.
have {c2} e0 : xval x (barrel_at g 0) = xval x (dv_packed arg1) by move: c2 => /addIr.
have f1 : xval x (so_shr_flag o) = bit (head false bs).
  by rewrite -c9; move: b1; rewrite /bits_are; case: (dv_bits arg1) bs sb {h1} => [|v vs] [|b bs] //=; [move=> e; rewrite -e in w0|move=> _ [->]].
have f2 : xval x (so_shl_flag o) = bit (last false bs).
  rewrite -c10 /top_bit; case/lastP: bs sb b1 {h1 f1} => [e|bs b _]; first by rewrite -e in w0.
  case/lastP: (dv_bits arg1) => [|vs v] b1; first by have := bits_size b1; rewrite size_rcons.
  by have [b' [cs' [e _ h3]]] := bits_rconsP b1; have [_ e2] := rcons_inj e; rewrite !last_rcons h3 e2.
have hov : xval x (sh_oversize g) = bit (bits_nat (drop L cs) != 0)%N.
  rewrite -eo (disj_are (R := R) (bs := drop L cs) c4) //; first by rewrite ei; exact: bits_drop.
  rewrite size_drop sc; apply: leq_trans hp; apply: leq_ltn_trans (ltn_expl (w + 3) (isT : 1 < 2)%N); clear; lia.
have hLw : (L <= size cs)%N by rewrite sc.
have [_ edrop] := bits_take_drop hLw.
split=> // hcs.
  rewrite e8 -c5 hov edrop (_ : _ != _) ?subrr ?mul0r //.
  by rewrite -lt0n divn_gt0 // expn_gt0.
move=> hL; have hd0 : bits_nat (drop L cs) = 0%N by rewrite edrop divn_small.
move: c5; rewrite hov hd0 eqxx /bit /= subr0 mul1r e8 => er; rewrite -er.
have [rb [hrb er']] := pv_true c6; rewrite er er'.
have hb i : (i < L)%N -> exists ob, bits_are x (nth [::] (sh_out_bits g) i) ob.
  move=> hi; apply: isbits_are.
  by have /holds_flatten/(_ i) := c3; rewrite In_iota => /(_ hi) /(shift_step_iff _ _ (ho i hi)) [].
pose out i := [seq bit_of (xval x v) | v <- nth [::] (sh_out_bits g) i].
have hout i : (i < L)%N -> bits_are x (nth [::] (sh_out_bits g) i) (out i).
  move=> /hb [ob h]; rewrite /out (_ : map _ _ = ob) //.
  move: h; rewrite /bits_are; move: (nth _ _ _); clear.
  by move=> vs; elim: vs ob => [|v vs IH] [|b ob] //= [-> /IH ->]; rewrite bit_of_nat.
have [||||O [hO e]] := @barrel_chain (fun i => xval x (barrel_at g i)) out cs L.
- by move=> i hi; rewrite size_map ho.
- by [].
- move=> i hi; have /holds_flatten/(_ i) := c3; rewrite In_iota => /(_ hi) /(shift_step_iff _ _ (ho i hi)) [_].
  have hic : (i < size cs)%N by exact: leq_trans hLw.
  by have := bits_nth b2 hic; rewrite (pack_are (hout i hi)) (set_nth_default 0%N) ?(bits_size b2) // => ->.
- move=> i /andP[h2i hi]; move: hcs; rewrite -(cat_take_drop 2 cs) bits_nat_cat; clear -h2i hi hLw.
  have s2 : size (take 2 cs) = 2%N by rewrite size_takel //; move: h2i hi hLw; clear; lia.
  rewrite s2 => h; have h0 : bits_nat (drop 2 cs) = 0%N by move: h; lia.
  rewrite nth_cat s2 ltnNge h2i /=; move/eqP: h0; rewrite bits_nat_eq0 => /hasPn h0.
  case: (ltnP (i - 2) (size (drop 2 cs))) => hs; last by rewrite nth_default.
  by apply/negbTE; apply: (h0 (nth false (drop 2 cs) (i - 2))); exact: mem_nth.
have et : bits_nat (take L cs) = bits_nat cs by have [-> _] := bits_take_drop hLw; rewrite modn_small.
rewrite et in hO e.
have srb : size rb = w by rewrite -(bits_size hrb).
have lr := bits_nat_lt rb; rewrite srb in lr.
have lb := bits_nat_lt bs; rewrite sb in lb.
have hk : (2 ^ bits_nat cs <= 2 ^ 3)%N by rewrite leq_pexp2l.
have ea : bits_nat bs = (2 ^ bits_nat cs * bits_nat rb + O)%N.
  apply: (natF_eq (R := R)).
  - apply: leq_trans hp; apply: leq_trans lb _; rewrite leq_pexp2l //; clear; lia.
  - apply: leq_trans hp; rewrite expnD; move: hO hk lr; move: (2 ^ bits_nat cs)%N (2 ^ 3)%N (2 ^ w)%N (bits_nat rb); clear; nia.
  by rewrite -h1 -e0 e er er' natrD natrM.
by rewrite ea mulnC divnMDl ?expn_gt0 // divn_small // addn0.
Qed.
End Sound.
