(** Facts about the gadgets of sha256_aux, continued: choice, majority and
    reduction modulo 2^32. *)
From Coq Require Import NArith.
From mathcomp Require Import all_ssreflect all_algebra zify.
From Verif Require Import Outcome Lincomb LincombSpec LincombFacts R1CS R1CSSpec R1CSFacts Fieldtac.
From Verif Require Import Protoboard GadgetSpec GadgetLogic BasicGadgets BasicGadgetsFacts BasicGadgetsMore GadgetNew.
From Verif Require Import Sha256Spec Sha256Bits Sha256Gadget GadgetSeq Sha256Facts Sha256Word.
Set Implicit Arguments.
Unset Strict Implicit.
Unset Printing Implicit Defensive.
Local Open Scope ring_scope.
Import GRing.Theory.
Delimit Scope N_scope with num.

Section Word2.
Variable F : fieldType.
Variable R : bigint_repr F.
Add Field Ff3 : (Fth F).
Implicit Types (x k : seq F) (pb : protoboard F) (P : pred nat).
Local Opaque allocate_array iota.

Lemma bitwise3_new_spec pb0 X Y Z res g pb1 : pb_wf pb0 -> bitwise3_new pb0 X Y Z res = (g, pb1) ->
  exists rb, [/\ allocates pb0 pb1, rb = fresh_vars pb0 pb1, size rb = 32%N &
    g = Bitwise3 X Y Z rb (Packing (plcs_of_vars F rb) (plc_of_var F res))].
Proof.
move=> hw; rewrite /bitwise3_new; case ea: (allocate_array pb0 32) => [rb pb2].
have [a2 erb sz2] := allocate_array_new hw ea; clear ea => -[<- <-].
by exists rb; split=> //; rewrite erb ?size_iota // /fresh_vars sz2 addKn.
Qed.

(** * Choice *)
Lemma choice_bit_sound (g : bitwise3 F) x i (a b c : bool) : holds (choice_bit g i) x ->
  lval x (lc_nth (b3_X g) i) = a%:R -> lval x (lc_nth (b3_Y g) i) = b%:R -> lval x (lc_nth (b3_Z g) i) = c%:R ->
  xval x (nth 0%N (b3_bits g) i) = (if a then b else c)%:R.
Proof.
rewrite /choice_bit holds_cons holds_nil /constraint_holds /= !fsE -!/(lval x _) => -[h _] ha hb hc.
move: h; rewrite ha hb hc; move: (xval x _) => r h.
have -> : r = r - c%:R + c%:R by fring F.
by rewrite -h; case: a {h ha} => /=; [fring F|fring F].
Qed.

Lemma choice_sound pb0 X Y Z res g pb1 x a b c :
  bitwise3_new pb0 X Y Z res = (g, pb1) -> pb_wf pb0 -> holds (choice_constraints g) x ->
  is_word x X a -> is_word x Y b -> is_word x Z c -> xval x res = wval F (Ch a b c).
Proof.
move=> e hw hc [sX hX <-] [sY hY <-] [sZ hZ <-]; have [rb [a1 erb srb eg]] := bitwise3_new_spec hw e; clear e.
move: hc; rewrite eg /choice_constraints holds_cat /= holds_flatten_iota => -[h1 h2].
have hv : forall i, (i < 32)%N -> xval x (nth 0%N rb i) =
   (if nth false (bools x X) i then nth false (bools x Y) i else nth false (bools x Z) i)%:R.
  move=> i hi; have := choice_bit_sound (h1 i hi); rewrite /= => H; apply: H.
  - by rewrite lval_nth_bit ?sX.
  - by rewrite lval_nth_bit ?sY.
  - by rewrite lval_nth_bit ?sZ.
have hword := is_word_bits srb hv; have := packing_word h2 hword.
by rewrite /= lval_var => ->; rewrite Ch_bits ?size_bools.
Qed.

(** * Majority *)
Lemma small_inj (a b : nat) : (3 < fp_order R)%N -> (a <= 3)%N -> (b <= 3)%N -> a%:R = b%:R :> F -> a = b.
Proof. by move=> h ha hb; apply: (natF_inj (R := R)); lia. Qed.

Lemma majority_bit_sound (g : bitwise3 F) x i (a b c : bool) : (3 < fp_order R)%N -> holds (majority_bit g i) x ->
  lval x (lc_nth (b3_X g) i) = a%:R -> lval x (lc_nth (b3_Y g) i) = b%:R -> lval x (lc_nth (b3_Z g) i) = c%:R ->
  xval x (nth 0%N (b3_bits g) i) = (2 <= a + b + c)%N%:R.
Proof.
move=> hR; rewrite /majority_bit 2!holds_cons holds_nil => -[/boolean_constraintE].
rewrite -/(lval x (plc_of_var F _)) lval_var => /isbitP hr [h _] ha hb hc; move: h.
rewrite /constraint_holds /= !fsE /= -!/(lval x _) ha hb hc; move: hr; move: (xval x _) => r -> {ha hb hc}.
set q := bit_of r; set u := _ - _; have -> : intr 0 = 0 :> F by [].
move/isbit_mul/isbitP; rewrite /u.
set p := bit_of _ => h; clearbody p q.
congr (_ : bool)%:R.
have {}h : (a + b + c)%:R = (p + 2 * q)%:R :> F.
  by rewrite [RHS]natrD natrM -h 2!natrD; fring F.
have {}h := small_inj hR _ _ h.
have e : (a + b + c = p + 2 * q)%N by apply: h; [case: (a); case: (b); case: (c)|case: (p); case: (q)].
by move: e; rewrite -/addn; case: (a); case: (b); case: (c); case: (p); case: (q).
Qed.

Lemma majority_sound pb0 X Y Z res g pb1 x a b c : (3 < fp_order R)%N ->
  bitwise3_new pb0 X Y Z res = (g, pb1) -> pb_wf pb0 -> holds (majority_constraints g) x ->
  is_word x X a -> is_word x Y b -> is_word x Z c -> xval x res = wval F (Maj a b c).
Proof.
move=> hR e hw hc [sX hX <-] [sY hY <-] [sZ hZ <-]; have [rb [a1 erb srb eg]] := bitwise3_new_spec hw e; clear e.
move: hc; rewrite eg /majority_constraints holds_cat /= holds_flatten_iota => -[h1 h2].
have hv : forall i, (i < 32)%N -> xval x (nth 0%N rb i) =
   (2 <= nth false (bools x X) i + nth false (bools x Y) i + nth false (bools x Z) i)%N%:R.
  move=> i hi; have := majority_bit_sound hR (h1 i hi); rewrite /= => H; apply: H.
  - by rewrite lval_nth_bit ?sX.
  - by rewrite lval_nth_bit ?sY.
  - by rewrite lval_nth_bit ?sZ.
have hword := is_word_bits srb hv; have := packing_word h2 hword.
by rewrite /= lval_var => ->; rewrite Maj_bits ?size_bools.
Qed.

Section Gok.
Variables (slot : nat -> linear_combination F) (N K : nat).
Local Notation gok := (gok slot N K).
Local Notation inp := (inp slot N K).
Local Notation inps := (inps slot N K).
Local Notation stable := (stable slot N K).

(** Both gadgets, with the constraints [con] and the value [val] of a bit. *)
Section Bitwise.
Variables (con : bitwise3 F -> nat -> seq (r1cs_constraint F)) (val : F -> F -> F -> F).
Variables (X Y Z : pb_linear_combination_array F) (res : nat) (rb : seq nat).
Let g := Bitwise3 X Y Z rb (Packing (plcs_of_vars F rb) (plc_of_var F res)).
Hypothesis con_ok : forall x i (a b c : bool), lval x (lc_nth X i) = a%:R -> lval x (lc_nth Y i) = b%:R ->
  lval x (lc_nth Z i) = c%:R -> xval x (nth 0%N rb i) = val a%:R b%:R c%:R -> holds (con g i) x.
Hypothesis val_bit : forall a b c : bool, isbit (val a%:R b%:R c%:R).
Hypothesis con_value : forall x i (a b c : bool), lval x (lc_nth X i) = a%:R -> lval x (lc_nth Y i) = b%:R ->
  lval x (lc_nth Z i) = c%:R -> holds (con g i) x -> xval x (nth 0%N rb i) = val a%:R b%:R c%:R.
Hypothesis con_within : forall P i, within P (lc_terms (lc_nth X i)) -> within P (lc_terms (lc_nth Y i)) ->
  within P (lc_terms (lc_nth Z i)) -> P (nth 0%N rb i) -> cs_within P (con g i).
Variables (sX : size X = 32%N) (sY : size Y = 32%N) (sZ : size Z = 32%N) (srb : size rb = 32%N).
Let bitw pb i : outcome (protoboard F) :=
  let! x := pb_lc_val pb (lc_nth X i) in
  let! y := pb_lc_val pb (lc_nth Y i) in
  let! z := pb_lc_val pb (lc_nth Z i) in
  pb_set pb (nth 0%N rb i) (val x y z).

Lemma bitwise_gok P : uniq (res :: rb) -> outside N P (res :: rb) -> inps P X -> inps P Y -> inps P Z ->
  gok P (res :: rb) (fun pb => let! pb := ofold bitw pb (iota 0 32) in packing_witness_from_bits (b3_pack g) pb)
   (flatten [seq con g i | i <- iota 0 32] ++ packing_constraints (b3_pack g) false)
   (fun x k => [/\ bits_ready X x k, bits_ready Y x k & bits_ready Z x k]).
Proof.
move=> /= /andP [hru hu] ho hX hY hZ.
set pre := fun x k => _.
have hst : stable P pre.
  move=> m x k x' k' sx sk hs hm [h1 h2 h3]; split.
  - exact: (stable_ready hX sx sk hs hm h1).
  - exact: (stable_ready hY sx sk hs hm h2).
  - exact: (stable_ready hZ sx sk hs hm h3).
have hbits x k i : pre x k -> (i < 32)%N -> exists a b c : bool,
    [/\ lval x (lc_nth X i) = a%:R, lval x (lc_nth Y i) = b%:R & lval x (lc_nth Z i) = c%:R].
  move=> [h1 h2 h3] hi.
  exists (bit_of (lval x (lc_nth X i))), (bit_of (lval x (lc_nth Y i))), (bit_of (lval x (lc_nth Z i))).
  by split; apply: isbitP; [apply: (proj1 (h1 _ _))|apply: (proj1 (h2 _ _))|apply: (proj1 (h3 _ _))];
     apply: lc_nth_In; rewrite ?sX ?sY ?sZ.
have hmap n : (n <= 32)%N -> flatten [seq [:: nth 0%N rb i] | i <- iota 0 n] = take n rb.
  move=> hn; rewrite -[RHS](map_nth_iota0 0%N) ?srb //.
  by elim: (iota 0 n) => [|j s IH] //=; rewrite IH.
have h1 : gok P (flatten [seq [:: nth 0%N rb i] | i <- iota 0 32]) (fun pb => ofold (fun pb i => bitw pb i) pb (iota 0 32))
    (flatten [seq con g i | i <- iota 0 32]) pre.
  apply: (@gok_loop F slot N K nat (fun i pb => bitw pb i) (con g) (fun i => [:: nth 0%N rb i])) => //.
  move=> ts1 i ts2 ets; have [ei [ei' hi]] := iota_split ets; rewrite add0n in ei'; clear ets.
  have hi32 : (i < 32)%N by rewrite ei'.
  have hr : nth 0%N rb i \in rb by apply: mem_nth; rewrite srb.
  have [hr1 hr2] : (0 < nth 0%N rb i <= N)%N /\ ~~ P (nth 0%N rb i) by apply: ho; rewrite inE hr orbT.
  have [pX wX] : inp P (lc_nth X i) by apply: hX; apply: lc_nth_In; rewrite sX.
  have [pY wY] : inp P (lc_nth Y i) by apply: hY; apply: lc_nth_In; rewrite sY.
  have [pZ wZ] : inp P (lc_nth Z i) by apply: hZ; apply: lc_nth_In; rewrite sZ.
  have ho1 : outside N P [:: nth 0%N rb i] by move=> v; rewrite inE => /eqP ->.
  apply: (@gok_set F slot N K _ _ _ _ _ (fun x => val (lval x (lc_nth X i)) (lval x (lc_nth Y i)) (lval x (lc_nth Z i)))).
  - exact: hr1.
  - rewrite /= negb_or hr2 /= ei hmap; last by lia.
    apply/negP => /(nthP 0%N) [j]; rewrite size_take srb => hj; rewrite nth_take; last by case: ifP hj; lia.
    move/eqP; rewrite nth_uniq ?srb //; [move/eqP|]; by case: ifP hj; lia.
  - apply: con_within; try by apply: within_sub; first exact: sub_predU.
    + by apply: within_sub wX => v h; do 2!(apply/orP; left).
    + by apply: within_sub wY => v h; do 2!(apply/orP; left).
    + by apply: within_sub wZ => v h; do 2!(apply/orP; left).
    + by apply/orP; right; rewrite /= inE.
  - move=> pb x k sx sk [[c1 c2 c3] _]; rewrite /bitw; rewrite -sx -sk in pX pY pZ.
    rewrite (read_cached pb pX) ?(read_cached pb pY) ?(read_cached pb pZ) //=.
    + by apply: (proj2 (c3 _ _)); apply: lc_nth_In; rewrite sZ.
    + by apply: (proj2 (c2 _ _)); apply: lc_nth_In; rewrite sY.
    + by apply: (proj2 (c1 _ _)); apply: lc_nth_In; rewrite sX.
  - move=> x k sx sk [hp _]; have [a [b [c [ea eb ec]]]] := hbits x k i hp hi32.
    have hs : (nth 0%N rb i <= size x)%N by rewrite sx; lia.
    apply: (con_ok (a := a) (b := b) (c := c)); rewrite ?(put_lval _ hs (avoids_within ho1 _)) //.
    by rewrite xval_put_eq ?sx // ea eb ec.
rewrite hmap // take_oversize ?srb // in h1.
have h2 : gok [predU P & mem rb] [:: res]
  (packing_witness_from_bits (Packing (plcs_of_vars F rb) (plc_of_var F res)))
  (packing_constraints (Packing (plcs_of_vars F rb) (plc_of_var F res)) false) (all_bits (plcs_of_vars F rb)).
  have [r1 r2] := ho res (mem_head _ _).
  apply: gok_pack => //; last by rewrite /= negb_or r2.
  apply: inps_vars; apply/allP => v hv; apply/andP; split; last by apply/orP; right.
  by have [|h _] := ho v; [rewrite inE hv orbT|lia].
apply: (gok_conv (gok_seq h1 hst (gok_pre h2 _))) => //; last by move=> v; rewrite mem_cat !inE orbC.
move=> x k sx sk [hp]; rewrite holds_flatten_iota => hc; apply: all_bits_nth => i; rewrite srb => hi.
have [a [b [c [ea eb ec]]]] := hbits x k i hp hi.
by rewrite (con_value ea eb ec (hc i hi)).
Qed.
End Bitwise.

Lemma choice_gok P pb0 X Y Z res g pb1 : bitwise3_new pb0 X Y Z res = (g, pb1) -> pb_wf pb0 ->
  size X = 32%N -> size Y = 32%N -> size Z = 32%N -> (size (pb_values pb1) <= N)%N ->
  below pb0 P -> outs pb0 P [:: res] -> inps P X -> inps P Y -> inps P Z ->
  allocates pb0 pb1 /\
  gok P (res :: fresh_vars pb0 pb1) (choice_witness g) (choice_constraints g)
    (fun x k => [/\ bits_ready X x k, bits_ready Y x k & bits_ready Z x k]).
Proof.
move=> e hw sX sY sZ hN hb ho hX hY hZ; have [rb [a1 erb srb eg]] := bitwise3_new_spec hw e; clear e.
have [ho1 hu1] := outs_fresh a1 hb ho hN; split=> //; rewrite -erb eg in ho1 hu1 *.
refine (@bitwise_gok (@choice_bit F) (fun x y z : F => x * y + (1 - x) * z) X Y Z res rb _ _ _ _ sX sY sZ srb P hu1 ho1 hX hY hZ).
- move=> x i a b c ea eb ec /= er; rewrite holds_cons holds_nil; split=> //.
  rewrite /constraint_holds /= !fsE -!/(lval x _) ea eb ec er; fring F.
- by move=> a b c; case: a => /=; [have -> : 1 * b%:R + (1 - 1) * c%:R = b%:R :> F by fring F
    |have -> : 0 * b%:R + (1 - 0) * c%:R = c%:R :> F by fring F]; apply: isbit_nat.
- move=> x i a b c ea eb ec h; have := choice_bit_sound h ea eb ec; rewrite /= => ->.
  by case: a {ea} => /=; rewrite ?mul1r ?subrr ?mul0r ?addr0 ?subr0 ?add0r ?mul1r.
- move=> Q i w1 w2 w3 w4; rewrite /cs_within /= /cwithin /= !wiE w1 w2 w3 w4 orbT //.
Qed.

Lemma majority_gok P pb0 X Y Z res g pb1 : (3 < fp_order R)%N ->
  bitwise3_new pb0 X Y Z res = (g, pb1) -> pb_wf pb0 ->
  size X = 32%N -> size Y = 32%N -> size Z = 32%N -> (size (pb_values pb1) <= N)%N ->
  below pb0 P -> outs pb0 P [:: res] -> inps P X -> inps P Y -> inps P Z ->
  allocates pb0 pb1 /\
  gok P (res :: fresh_vars pb0 pb1) (majority_witness R g) (majority_constraints g)
    (fun x k => [/\ bits_ready X x k, bits_ready Y x k & bits_ready Z x k]).
Proof.
move=> hR e hw sX sY sZ hN hb ho hX hY hZ; have [rb [a1 erb srb eg]] := bitwise3_new_spec hw e; clear e.
have [ho1 hu1] := outs_fresh a1 hb ho hN; split=> //; rewrite -erb eg in ho1 hu1 *.
have hval (a b c : bool) : (as_bigint R (a%:R + b%:R + c%:R) %/ 2)%:R = (2 <= a + b + c)%N%:R :> F.
  rewrite -!natrD as_bigint_nat; last by case: (a); case: (b); case: (c); lia.
  by case: a; case: b; case: c.
refine (@bitwise_gok (@majority_bit F) (fun x y z : F => (as_bigint R (x + y + z) %/ 2)%:R) X Y Z res rb _ _ _ _ sX sY sZ srb P hu1 ho1 hX hY hZ).
- move=> x i a b c ea eb ec /=; rewrite hval => er; rewrite 2!holds_cons holds_nil; split; last (split=> //).
    by apply/boolean_constraintE; rewrite -/(lval x (plc_of_var F _)) lval_var er isbit_nat.
  rewrite /constraint_holds /= !fsE -!/(lval x _) ea eb ec /= er.
  have -> : intr 0 = 0 :> F by [].
  apply/isbit_mul; rewrite -!natrD.
  have -> : (a + b + c)%:R - 2%:R * (2 <= a + b + c)%N%:R = (odd (a + b + c))%:R :> F.
    by case: (a); case: (b); case: (c) => /=; rewrite ?mulr0 ?subr0 ?mulr1 -?natrB.
  exact: isbit_nat.
- by move=> a b c; rewrite hval isbit_nat.
- by move=> x i a b c ea eb ec h; have := majority_bit_sound hR h ea eb ec; rewrite /= hval => ->.
- move=> Q i w1 w2 w3 w4; rewrite /cs_within /= /cwithin /= /within /= !w4 !orbT /= -!/(within _ _) !wiE w1 w2 w3 w4 !orbT //.
Qed.

(** * Reduction *)
Lemma lastbits_gok P pb0 X Xb res rb g pb1 :
  lastbits_new pb0 X Xb res rb = (g, pb1) -> pb_wf pb0 -> (size rb <= Xb)%N -> (2 ^ Xb <= fp_order R)%N ->
  (size (pb_values pb1) <= N)%N -> below pb0 P -> outs pb0 P (res :: rb) -> P X -> (0 < X)%N ->
  allocates pb0 pb1 /\
  gok P ((res :: rb) ++ fresh_vars pb0 pb1) (lastbits_witness R g) (lastbits_constraints g)
   (fun x k => exists2 n, xval x X = n%:R & (n < 2 ^ Xb)%N).
Proof.
rewrite /lastbits_new; case ea: (allocate_array pb0 _) => [ov pb2] [<- <-] hw hs hR hN hb ho hX hX0.
have [a1 eov sz] := allocate_array_new hw ea; clear ea; split=> //.
have eov' : ov = fresh_vars pb0 pb2 by rewrite eov /fresh_vars sz addKn.
have [ho1 hu1] := outs_fresh a1 hb ho hN; rewrite -eov' in ho1 hu1 *.
have hXN : (0 < X <= N)%N by have := hb X hX; have := allocates_size a1; lia.
have hu : uniq (rb ++ ov) by move: hu1; rewrite /= => /andP [].
have ho2 : outside N P (rb ++ ov) by move=> v hv; apply: ho1; rewrite /= inE hv orbT.
have hiX : inp P (plc_of_var F X) by apply: inp_var; [lia|rewrite hX orbT].
have h1 := gok_unpack R true hiX hu ho2.
have h2 : gok [predU P & mem (rb ++ ov)] [:: res]
  (packing_witness_from_bits (Packing (plcs_of_vars F rb) (plc_of_var F res)))
  (packing_constraints (Packing (plcs_of_vars F rb) (plc_of_var F res)) false) (all_bits (plcs_of_vars F rb)).
  have [r1 r2] := ho1 res (mem_head _ _).
  apply: gok_pack => //; last by rewrite /= negb_or r2; move: hu1 => /= /andP [].
  apply: inps_vars; apply/allP => v hv; apply/andP; split; last by apply/orP; right; rewrite /= mem_cat hv.
  by have [|h _] := ho2 v; [rewrite mem_cat hv|lia].
have hst : stable P (fun x k => exists2 n, xval x X = n%:R & (n < 2 ^ Xb)%N).
  move=> m x k x' k' sx sk hst hm [n e1 e2]; exists n => //; rewrite (wstep_val hst) //.
  by apply/negP => /hm []; rewrite hX.
have hsz : size (rb ++ ov) = Xb by rewrite size_cat eov size_iota; lia.
have h1' : gok P (rb ++ ov) (packing_witness_from_packed R (Packing (plcs_of_vars F (rb ++ ov)) (plc_of_var F X)))
  (packing_constraints (Packing (plcs_of_vars F (rb ++ ov)) (plc_of_var F X)) true)
  (fun x k => exists2 n, xval x X = n%:R & (n < 2 ^ Xb)%N).
  apply: (gok_pre h1) => x k sx sk [n e1 e2]; rewrite lval_var e1 as_bigint_nat ?hsz //; lia.
apply: (gok_conv (gok_seq h1' hst (gok_pre h2 _))) => //.
- move=> x k sx sk [_ /packing_constraintsE [_ /(_ isT)]] /=.
  by rewrite /plcs_of_vars map_cat all_cat => /andP [].
- by move=> v; rewrite /= mem_cat !inE orbC.
Qed.
End Gok.
End Word2.
