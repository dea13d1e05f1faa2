(** Soundness of the ALU gadgets (for C39).  Models nothing of /repo. *)
From mathcomp Require Import all_ssreflect all_algebra zify.
From Verif Require Import Outcome Lincomb LincombSpec LincombFacts R1CS R1CSSpec R1CSFacts Fieldtac.
From Verif Require Import Protoboard GadgetSpec GadgetLogic BasicGadgets BasicGadgetsFacts BasicGadgetsMore.
From Verif Require Import BasicGadgetsCopy GadgetNew GadgetSeq Benes Alu AluSpec AluFacts.
Set Implicit Arguments.
Unset Strict Implicit.
Unset Printing Implicit Defensive.
Local Open Scope ring_scope.
Import GRing.Theory.

Section Sound.
Variable F : fieldType.
Variable R : bigint_repr F.
Add Field Ff : (Fth F).
Implicit Types (x : seq F) (pb : protoboard F).

Let bit (b : bool) : F := (nat_of_bool b)%:R.
Let inv1 (b : bool) : 1 - bit b = bit (~~ b).
Proof. by case: b; rewrite /bit /= ?subrr ?subr0. Qed.

(** ** Bitwise operations *)
Lemma bitwise_new_spec pb w r rf g pb' : pb_wf pb -> alu_bitwise_new pb w r rf = Ok (g, pb') ->
  [/\ size (bw_res_word g) = w, dj_inputs (bw_not_all_zeros g) = bw_res_word g,
      dj_output (bw_not_all_zeros g) = bw_nz_result g, bw_result g = r & bw_result_flag g = rf].
Proof.
move=> hw; rewrite /alu_bitwise_new.
case e1: (allocate_array pb w) => [a pb1]; have [h1 ea s1] := allocate_array_new hw e1.
case e2: (allocate_var pb1) => [nz pb2]; have [h2 enz s2] := allocate_var_new (allocates_wf h1) e2.
case e3: (disjunction_new _ _ _) => [[d pb3]| |] //= [<- _] /=.
by have [_ _ -> -> _] := disjunction_new_spec (allocates_wf h2) e3; rewrite ea size_iota.
Qed.

Lemma bitwise_tail_iff (g : alu_bitwise) x bs :
  dj_inputs (bw_not_all_zeros g) = bw_res_word g -> dj_output (bw_not_all_zeros g) = bw_nz_result g ->
  bits_are x (bw_res_word g) bs ->
  holds (alu_bitwise_tail F g) x <->
  [/\ xval x (bw_result g) = (bits_nat bs)%:R,
      holds (disjunction_constraints F (bw_not_all_zeros g)) x &
      1 - xval x (bw_nz_result g) = xval x (bw_result_flag g)].
Proof.
move=> e1 e2 hb; rewrite /alu_bitwise_tail !holds_cat (holds1 (r1cs_constraint_of_lists _ _ _)) rcE; cbn [foldr]; rewrite !vrE !tmE !addr0 mulN1r mul1r.
rewrite (pv_false (bw_result g) hb) ?xone; split; last by case.
by case=> h1 [h2 h3]; split.
Qed.
Lemma bitwise_tail_sound (g : alu_bitwise) x bs :
  dj_inputs (bw_not_all_zeros g) = bw_res_word g -> dj_output (bw_not_all_zeros g) = bw_nz_result g ->
  bits_are x (bw_res_word g) bs -> (size bs < fp_order R)%N ->
  holds (alu_bitwise_tail F g) x ->
  xval x (bw_result g) = (bits_nat bs)%:R /\ xval x (bw_result_flag g) = bit (bits_nat bs == 0)%N.
Proof.
move=> e1 e2 hb hs /(bitwise_tail_iff e1 e2 hb) [h1 h2 h3]; split=> //.
rewrite -e1 in hb; have := disj_are h2 hb hs; rewrite e2 => h4.
by rewrite -h3 h4; move: (inv1 (bits_nat bs != 0)%N); rewrite /bit => ->; rewrite negbK.
Qed.
Lemma bitwise_are (op : bool -> bool -> bool) x v1 v2 res bs cs :
  bits_are x v1 bs -> bits_are x v2 cs -> size v1 = size v2 -> size res = size v1 ->
  (forall t, List.In t (zip (zip v1 v2) res) -> forall b c,
     xval x t.1.1 = bit b -> xval x t.1.2 = bit c -> xval x t.2 = bit (op b c)) ->
  bits_are x res (bitwise op bs cs).
Proof.
rewrite /bits_are /bitwise.
elim: v1 v2 res bs cs => [|a v1 IH] [|b v2] [|r res] [|p bs] [|q cs] //= [h1 h2] [h3 h4] [e1] [e2] h.
congr (_ :: _).
  by apply: (h (a, b, r)); [left|exact: h1|exact: h3].
by apply: IH h2 h4 e1 e2 _ => t ht; apply: h; right.
Qed.

(** The four constraints, and the values they force. *)
Lemma and_step x a b r (p q : bool) : xval x a = bit p -> xval x b = bit q ->
  constraint_holds (r1cs_constraint_of_lists [:: lc_of_var F a] [:: lc_of_var F b] [:: lc_of_var F r]) x <->
  xval x r = bit (p && q).
Proof.
move=> h1 h2; rewrite rcE /= !vrE !addr0 h1 h2.
have -> : bit p * bit q = bit (p && q) by rewrite /bit; case: p q {h1 h2} => [] []; rewrite ?mul1r ?mul0r.
by split=> ->.
Qed.
Lemma or_step x a b r (p q : bool) : xval x a = bit p -> xval x b = bit q ->
  constraint_holds (r1cs_constraint_of_lists [:: lc_of_var F ONE; lc_of_term (var_scale a (- 1 : F))]
    [:: lc_of_var F ONE; lc_of_term (var_scale b (- 1 : F))]
    [:: lc_of_var F ONE; lc_of_term (var_scale r (- 1 : F))]) x <->
  xval x r = bit (p || q).
Proof.
move=> h1 h2; rewrite rcE /= !vrE !tmE !addr0 !mulN1r h1 h2 ?xone !inv1.
have -> : bit (~~ p) * bit (~~ q) = 1 - bit (p || q).
  by rewrite /bit; case: p q {h1 h2} => [] []; rewrite /= ?mul1r ?mul0r ?subrr ?subr0.
split=> [h|-> //].
by apply: oppr_inj; apply: (addrI 1); rewrite -h.
Qed.
Lemma xor_step x a b r (p q : bool) : xval x a = bit p -> xval x b = bit q ->
  constraint_holds (r1cs_constraint_of_lists [:: lc_of_term (var_scale a (2%:R : F))]
    [:: lc_of_var F b] [:: lc_of_var F a; lc_of_var F b; lc_of_term (var_scale r (- 1 : F))]) x <->
  xval x r = bit (p (+) q).
Proof.
move=> h1 h2; rewrite rcE /= !vrE !tmE !addr0 !mulN1r h1 h2.
have -> : 2%:R * bit p * bit q = bit p + (bit q - bit (p (+) q)).
  rewrite /bit; case: p q {h1 h2} => [] []; rewrite /= ?mulr1 ?mulr0 ?mul0r ?subrr ?subr0 ?addr0 //.
  by rewrite add0r subrr.
split=> [|-> //] h.
by move: h => /addrI /addrI /oppr_inj.
Qed.
Lemma not_step x b r (q : bool) : xval x b = bit q ->
  constraint_holds (r1cs_constraint_of_lists [:: lc_of_var F ONE]
    [:: lc_of_var F ONE; lc_of_term (var_scale b (- 1 : F))] [:: lc_of_var F r]) x <->
  xval x r = bit (~~ q).
Proof.
move=> h2; rewrite rcE /= !vrE !tmE !addr0 !mulN1r h2 ?xone mul1r inv1.
by split=> ->.
Qed.

(** ** Constructors that only allocate *)
Lemma add_new_spec pb w r rf g pb' : pb_wf pb -> alu_add_new pb w r rf = (g, pb') ->
  [/\ size (ad_res_word g) = w, ad_result g = r & ad_result_flag g = rf].
Proof.
move=> hw; rewrite /alu_add_new.
case e1: (allocate_var pb) => [s pb1]; have [h1 es s1] := allocate_var_new hw e1.
case e2: (allocate_array pb1 w) => [a pb2]; have [h2 ea s2] := allocate_array_new (allocates_wf h1) e2.
by case=> <- _; rewrite /= ea size_iota.
Qed.
Lemma sub_new_spec pb w r rf g pb' : pb_wf pb -> alu_sub_new pb w r rf = (g, pb') ->
  [/\ size (sb_res_word g) = w, sb_result g = r & sb_result_flag g = rf].
Proof.
move=> hw; rewrite /alu_sub_new.
case e1: (allocate_var pb) => [s pb1]; have [h1 es s1] := allocate_var_new hw e1.
case e3: (allocate_var pb1) => [n pb3]; have [h3 en s3] := allocate_var_new (allocates_wf h1) e3.
case e2: (allocate_array pb3 w) => [a pb2]; have [h2 ea s2] := allocate_array_new (allocates_wf h3) e2.
by case=> <- _; rewrite /= ea size_iota.
Qed.

(** The value of [n + 1] bits, its low part and its top bit. *)
Lemma split_top (cs : seq bool) (b : bool) (v : nat) : bits_nat (rcons cs b) = v ->
  bits_nat cs = (v %% 2 ^ size cs)%N /\ b = (2 ^ size cs <= v)%N.
Proof.
rewrite bits_nat_rcons; have := bits_nat_lt cs; move: (bits_nat cs) => k hk <-.
have h0 : (0 < 2 ^ size cs)%N by rewrite expn_gt0.
split; first by rewrite addnC mulnC modnMDl modn_small.
case: b; rewrite ?muln1 ?muln0 ?addn0; first by rewrite leq_addl.
by rewrite leqNgt hk.
Qed.
Lemma lc3E x (a b c : nat) (p q r : F) :
  formal_sum (add_term (add_term (add_term (@lc_zero F) (lt_mk a p)) (lt_mk b q)) (lt_mk c r)) x =
  p * xval x a + q * xval x b + r * xval x c.
Proof. by rewrite !fsE /=; fring F. Qed.
Lemma lc2E x (a b : nat) (p q : F) :
  formal_sum (add_term (add_term (@lc_zero F) (lt_mk a p)) (lt_mk b q)) x = p * xval x a + q * xval x b.
Proof. by rewrite !fsE /=; fring F. Qed.
Lemma lc1E x (a : nat) (p : F) : formal_sum (add_term (@lc_zero F) (lt_mk a p)) x = p * xval x a.
Proof. by rewrite !fsE /=; fring F. Qed.

Lemma add_sound w arg1 arg2 g x bs cs :
  size (ad_res_word g) = w -> size bs = w -> size cs = w ->
  (2 ^ w.+1 <= fp_order R)%N -> is_word x arg1 bs -> is_word x arg2 cs ->
  holds (alu_add_constraints F arg1 arg2 g) x ->
  let s := (bits_nat bs + bits_nat cs)%N in
  xval x (ad_result g) = (s %% 2 ^ w)%N%:R /\ xval x (ad_result_flag g) = bit (2 ^ w <= s)%N.
Proof.
move=> sg sb sc hp [_ h1] [_ h2].
rewrite /alu_add_constraints holds_cons rcE holds_cat; cbn [foldr]; rewrite !vrE !addr0 ?xone mul1r h1 h2 -natrD.
case=> h3 [/pv_true [ds [h4 h5]]].
have [b [es [ed hd hb]]] := bits_rconsP h4.
have se : size es = w by rewrite -(bits_size hd).
move/(pv_false _ hd) => hr; rewrite hr hb.
have {h3 h5} e : bits_nat (rcons es b) = (bits_nat bs + bits_nat cs)%N.
  apply: (natF_eq (R := R)); last by rewrite h3 h5 ed.
    by apply: leq_trans hp; apply: leq_trans (bits_nat_lt _) _; rewrite size_rcons se.
  apply: leq_trans hp; have := bits_nat_lt bs; have := bits_nat_lt cs; rewrite sb sc expnS; lia.
by have [-> ->] := split_top e; rewrite se.
Qed.
Lemma sub_sound w arg1 arg2 g x bs cs :
  size (sb_res_word g) = w -> size bs = w -> size cs = w ->
  (2 ^ w.+1 <= fp_order R)%N -> is_word x arg1 bs -> is_word x arg2 cs ->
  holds (alu_sub_constraints F w arg1 arg2 g) x ->
  xval x (sb_result g) = ((2 ^ w + bits_nat bs - bits_nat cs) %% 2 ^ w)%N%:R /\
  xval x (sb_result_flag g) = bit (bits_nat bs < bits_nat cs)%N.
Proof.
move=> sg sb sc hp [_ h1] [_ h2].
rewrite /alu_sub_constraints holds_cons /constraint_holds [c_a _]/= [c_b _]/= [c_c _]/= lc3E !lc1E h1 h2.
rewrite ?xone !holds_cat (holds1 (r1cs_constraint_of_lists _ _ _)) rcE; cbn [foldr]; rewrite !vrE !tmE !addr0 ?xone !mul1r !mulr1 !mulN1r.
have lb := bits_nat_lt bs; have lc := bits_nat_lt cs; rewrite sb in lb; rewrite sc in lc.
case=> h3 [/pv_true [ds [h4 h5]]].
have [b [es [ed hd hb]]] := bits_rconsP h4.
have se : size es = w by rewrite -(bits_size hd).
case; move/(pv_false _ hd) => hr h6; rewrite hr -h6 hb.
have {h3 h5} e : bits_nat (rcons es b) = (2 ^ w + bits_nat bs - bits_nat cs)%N.
  apply: (natF_eq (R := R)).
  - by apply: leq_trans hp; apply: leq_trans (bits_nat_lt _) _; rewrite size_rcons se.
  - apply: leq_trans hp; rewrite expnS; move: lb lc; clear; lia.
  rewrite -ed -h5 -h3 natrB ?natrD ?natrX //; move: lb lc; clear; lia.
have [-> ->] := split_top e; rewrite se; split=> //.
rewrite -/(bit _) inv1 /bit; congr (nat_of_bool _)%:R; move: lb lc; clear; lia.
Qed.

(** ** Comparisons *)
Lemma cmp_sound pb0 pb1 w des arg1 arg2 o g x bs cs : pb_wf pb0 ->
  alu_cmp_new pb0 w arg1 arg2 o = Ok (g, pb1) ->
  size bs = w -> size cs = w -> (2 ^ w.+1 <= fp_order R)%N -> is_word x arg1 bs -> is_word x arg2 cs ->
  holds (alu_cmp_constraints des o g) x ->
  [/\ xval x (co_e_flag o) = bit (bits_nat bs == bits_nat cs)%N,
      xval x (co_a_flag o) = bit (bits_nat cs < bits_nat bs)%N,
      xval x (co_ae_flag o) = bit (bits_nat cs <= bits_nat bs)%N &
      all (fun v => xval x v == xval x (dv_packed des)) [:: co_e o; co_a o; co_ae o]].
Proof.
move=> hw /comparison_new_spec -/(_ hw) [a0 [_ hs _ [en eA eB el ele] _]] sb sc hp [_ h1] [_ h2].
rewrite /alu_cmp_constraints holds_cat !holds_rc; cbn [foldr]; rewrite !vrE !tmE !addr0 ?xone !mul1r !mulN1r.
case=> hc [h3 [h4 [h5 [h6 _]]]].
have lb := bits_nat_lt bs; have lc := bits_nat_lt cs; rewrite sb in lb; rewrite sc in lc.
have [|||||ha hae] := @comparison_sound F R g a0 x (bits_nat cs) (bits_nat bs) hs _ _ _ _ _ hc; rewrite ?en //.
  by rewrite eA lval_var.
  by rewrite eB lval_var.
rewrite el ele in ha hae.
split=> //; last by rewrite /= -h4 -h5 -h6 !eqxx.
rewrite -h3 ha hae -/(bit _) inv1 /bit; case: (ltngtP (bits_nat cs) (bits_nat bs)) => _; by rewrite /= ?mul1r ?mul0r ?mulr0 ?mulr1.
Qed.

Lemma last_negate (bs : seq bool) : (0 < size bs)%N -> exists cs b, bs = rcons cs b.
Proof. by case/lastP: bs => // cs b _; exists cs, b. Qed.
Lemma signed_shift cs b : ((bits_nat (rcons cs (~~ b)))%:Z = signed (rcons cs b) + (2 ^ size cs)%:Z)%R.
Proof.
rewrite /signed last_rcons !bits_nat_rcons size_rcons expnS.
by case: b; rewrite /= ?muln0 ?muln1 ?addn0; lia.
Qed.
Lemma but_last_rcons (vs : seq nat) v : but_last (rcons vs v) = vs.
Proof. by rewrite /but_last size_rcons -cats1 take_size_cat. Qed.
Lemma cmps_modified x (d : dual_variable) n p bs cs b : bs = rcons cs b -> is_word x d bs ->
  xval x n = 1 - xval x (top_bit d) ->
  holds (packing_constraints (pv F (rcons (but_last (dv_bits d)) n) p) false) x <->
  xval x p = (bits_nat (rcons cs (~~ b)))%:R.
Proof.
move=> -> [h1 _] hn; rewrite /top_bit in hn; case/lastP: (dv_bits d) hn h1 => [|vs v] hn h1; first by have := bits_size h1; rewrite size_rcons.
have [b' [cs' [e h2 h3]]] := bits_rconsP h1; have [e1 e2] := rcons_inj e; subst b' cs'.
rewrite but_last_rcons; apply: pv_false; apply: bits_rcons h2 _.
by rewrite hn last_rcons h3 -/(bit _) inv1.
Qed.

Lemma cmps_new_spec pb w o g pb' : pb_wf pb -> alu_cmps_new pb w o = Ok (g, pb') -> exists a0,
  [/\ cm_shape (cs_comparator g) a0, cm_n (cs_comparator g) = w,
      cm_A (cs_comparator g) = plc_of_var F (cs_packed2 g) /\ cm_B (cs_comparator g) = plc_of_var F (cs_packed1 g),
      cm_less (cs_comparator g) = cs_g_flag o & cm_less_or_eq (cs_comparator g) = cs_ge_flag o].
Proof.
move=> hw; rewrite /alu_cmps_new.
case e1: (allocate_var pb) => [v1 b1]; have [h1 _ _] := allocate_var_new hw e1.
case e2: (allocate_var b1) => [v2 b2]; have [h2 _ _] := allocate_var_new (allocates_wf h1) e2.
case e3: (allocate_var b2) => [v3 b3]; have [h3 _ _] := allocate_var_new (allocates_wf h2) e3.
case e4: (allocate_var b3) => [v4 b4]; have [h4 _ _] := allocate_var_new (allocates_wf h3) e4.
case e5: (comparison_new _ _ _ _ _ _) => [[c b5]| |] //= [<- _] /=.
by have [a0 [_ hs _ [en eA eB el ele] _]] := comparison_new_spec (allocates_wf h4) e5; exists a0.
Qed.
Lemma cmps_sound pb0 pb1 w des arg1 arg2 o g x bs cs : pb_wf pb0 ->
  alu_cmps_new pb0 w o = Ok (g, pb1) -> (0 < w)%N ->
  size bs = w -> size cs = w -> (2 ^ w.+1 <= fp_order R)%N -> is_word x arg1 bs -> is_word x arg2 cs ->
  holds (alu_cmps_constraints des arg1 arg2 o g) x ->
  [/\ xval x (cs_g_flag o) = bit (signed cs < signed bs)%R,
      xval x (cs_ge_flag o) = bit (signed cs <= signed bs)%R &
      all (fun v => xval x v == xval x (dv_packed des)) [:: cs_g o; cs_ge o]].
Proof.
move=> hw hn w0 sb sc hp h1 h2; have [a0 [hs en [eA eB] el ele]] := cmps_new_spec hw hn.
rewrite /alu_cmps_constraints 4!holds_cat !holds_rc; cbn [foldr]; rewrite !vrE !tmE !addr0 ?xone !mul1r !mulN1r.
case=> [[h3 [h4 _]]] [h5 [h6 [hc [h7 [h8 _]]]]].
have [bs' [b eb]] : exists cs b, bs = rcons cs b by apply: last_negate; rewrite sb.
have [cs' [c ec]] : exists cs' c, cs = rcons cs' c by apply: last_negate; rewrite sc.
move: h5 => /(cmps_modified _ eb h1 (esym h3)) h5; move: h6 => /(cmps_modified _ ec h2 (esym h4)) h6.
have lb := bits_nat_lt (rcons bs' (~~ b)); have lc := bits_nat_lt (rcons cs' (~~ c)).
have sb' : size bs' = w.-1 by rewrite -sb eb size_rcons.
have sc' : size cs' = w.-1 by rewrite -sc ec size_rcons.
rewrite size_rcons sb' prednK // in lb; rewrite size_rcons sc' prednK // in lc.
have [|||||ha hae] := @comparison_sound F R (cs_comparator g) a0 x (bits_nat (rcons cs' (~~ c))) (bits_nat (rcons bs' (~~ b))) hs _ _ _ _ _ hc; rewrite ?en //.
- by rewrite eA lval_var.
- by rewrite eB lval_var.
rewrite el ele in ha hae; split; last by rewrite /= -h7 -h8 !eqxx.
- rewrite ha /bit; congr (nat_of_bool _)%:R; have := signed_shift bs' b; have := signed_shift cs' c.
  by rewrite -eb -ec sb' sc'; move: (bits_nat _) (bits_nat _) => u v; clear; lia.
- rewrite hae /bit; congr (nat_of_bool _)%:R; have := signed_shift bs' b; have := signed_shift cs' c.
  by rewrite -eb -ec sb' sc'; move: (bits_nat _) (bits_nat _) => u v; clear; lia.
Qed.

(** ** Multiplication *)
Lemma umul_new_spec pb w g pb' : pb_wf pb -> alu_umul_new pb w = Ok (g, pb') ->
  [/\ size (dv_bits (um_mul g)) = (2 * w)%N, dj_inputs (um_compute_flag g) = drop w (dv_bits (um_mul g)) &
      dj_output (um_compute_flag g) = um_result_flag g].
Proof.
move=> hw; rewrite /alu_umul_new /dual_variable_new.
case e1: (allocate_var pb) => [v1 b1]; have [h1 _ _] := allocate_var_new hw e1.
case e2: (allocate_array b1 _) => [v2 b2]; have [h2 ea _] := allocate_array_new (allocates_wf h1) e2.
case e3: (allocate_var b2) => [v3 b3]; have [h3 _ _] := allocate_var_new (allocates_wf h2) e3.
case e5: (disjunction_new _ _ _) => [[c b5]| |] //= [<- _] /=.
by have [_ _ -> -> _] := disjunction_new_spec (allocates_wf h3) e5; rewrite ea size_iota.
Qed.
Lemma bits_take_drop bs n : (n <= size bs)%N ->
  bits_nat (take n bs) = (bits_nat bs %% 2 ^ n)%N /\ bits_nat (drop n bs) = (bits_nat bs %/ 2 ^ n)%N.
Proof.
move=> hn; rewrite -{2 4}(cat_take_drop n bs) bits_nat_cat size_takel //.
have h0 : (0 < 2 ^ n)%N by rewrite expn_gt0.
have hl : (bits_nat (take n bs) < 2 ^ n)%N by apply: leq_trans (bits_nat_lt _) _; rewrite size_takel.
by rewrite addnC mulnC modnMDl modn_small // divnMDl // divn_small // addn0.
Qed.
Lemma umul_sound pb0 pb1 w arg1 arg2 o g x bs cs : pb_wf pb0 ->
  alu_umul_new pb0 w = Ok (g, pb1) ->
  size bs = w -> size cs = w -> (2 ^ (2 * w) <= fp_order R)%N -> is_word x arg1 bs -> is_word x arg2 cs ->
  holds (alu_umul_constraints F w arg1 arg2 o g) x ->
  let m := (bits_nat bs * bits_nat cs)%N in
  [/\ xval x (um_mull o) = (m %% 2 ^ w)%N%:R, xval x (um_umulh o) = (m %/ 2 ^ w)%N%:R,
      xval x (um_mull_flag o) = bit (2 ^ w <= m)%N & xval x (um_umulh_flag o) = bit (2 ^ w <= m)%N].
Proof.
move=> hw hn sb sc hp [_ h1] [_ h2]; have [sg ei eo] := umul_new_spec hw hn.
rewrite /alu_umul_constraints holds_rc !holds_cat !holds_rc; cbn [foldr]; rewrite !vrE !addr0 ?xone !mul1r h1 h2 -natrM.
case=> h3 [/word_of_constraints [ds [h4 h5]]] [h6 [h7 [h8 [h9 [h10 _]]]]].
have lb := bits_nat_lt bs; have lc := bits_nat_lt cs; rewrite sb in lb; rewrite sc in lc.
have sd : size ds = (2 * w)%N by rewrite -(bits_size h4).
have hlt : (bits_nat bs * bits_nat cs < 2 ^ (2 * w))%N.
  by rewrite mul2n -addnn expnD; apply: ltn_mul.
have e : bits_nat ds = (bits_nat bs * bits_nat cs)%N.
  apply: (natF_eq (R := R)); last by rewrite h3 h5.
    by apply: leq_trans hp; rewrite -sd; exact: bits_nat_lt.
  exact: leq_trans hp.
have hw2 : (w <= size ds)%N by rewrite sd; clear; lia.
have [et ed] := bits_take_drop hw2.
move: h6 => /(pv_false _ (bits_take w h4)) h6; move: h7 => /(pv_false _ (bits_drop w h4)) h7.
have hf : xval x (um_result_flag g) = bit (2 ^ w <= bits_nat bs * bits_nat cs)%N.
  rewrite -eo (disj_are (R := R) (bs := drop w ds) h8).
  - by rewrite ed e /bit; congr (nat_of_bool _)%:R; rewrite -lt0n divn_gt0 // expn_gt0.
  - by rewrite ei; exact: bits_drop.
  - rewrite size_drop sd; apply: leq_trans hp; apply: leq_ltn_trans (ltn_expl (2 * w) (isT : 1 < 2)%N); clear; lia.
by split; rewrite ?h6 ?h7 -?h9 -?h10 ?et ?ed ?e.
Qed.

(** ** mov, cmov, jumps *)
Lemma mov_iff arg2 (f r rf : nat) x :
  holds (alu_mov_constraints F arg2 f r rf) x <-> xval x r = xval x (dv_packed arg2) /\ xval x rf = xval x f.
Proof.
rewrite /alu_mov_constraints !holds_rc; cbn [foldr]; rewrite !vrE !addr0 ?xone !mul1r holds_nil.
by split; [case=> <- [<- _]|case=> -> ->].
Qed.
Lemma cmov_iff des arg2 (f r rf : nat) (b : bool) x : xval x f = bit b ->
  holds (alu_cmov_constraints F des arg2 f r rf) x <->
  xval x r = xval x (dv_packed (if b then arg2 else des)) /\ xval x rf = xval x f.
Proof.
move=> hf; rewrite /alu_cmov_constraints !holds_rc; cbn [foldr]; rewrite !vrE !tmE !addr0 ?xone !mul1r !mulN1r holds_nil hf.
case: b {hf} => /=; rewrite /bit ?mul1r ?mul0r.
  by split; [case=> /addIr <- [<- _]|case=> -> ->].
by split; [case=> /esym/eqP; rewrite subr_eq0 => /eqP -> [<- _]|case=> -> ->; rewrite subrr].
Qed.
Lemma target_sumE s arg2 x bs : is_word x arg2 bs -> (s <= size bs)%N ->
  formal_sum (target_sum F s arg2) x = (bits_nat bs %/ 2 ^ s)%N%:R.
Proof.
move=> [h _] hs; rewrite /target_sum packing_sumE lval_vars (pack_are (bits_drop s h)).
by have [_ ->] := bits_take_drop hs.
Qed.
Lemma jmp_iff s arg2 (r : nat) x bs : is_word x arg2 bs -> (s <= size bs)%N ->
  holds (alu_jmp_constraints F s arg2 r) x <-> xval x r = (bits_nat bs %/ 2 ^ s)%N%:R.
Proof.
move=> h hs; rewrite /alu_jmp_constraints holds_rc; cbn [foldr].
rewrite !vrE (target_sumE h hs) !addr0 ?xone !mul1r holds_nil.
by split=> [[->]|->].
Qed.
Lemma cjmp_iff s pc arg2 (f r : nat) x bs (b : bool) : is_word x arg2 bs -> (s <= size bs)%N -> xval x f = bit b ->
  holds (alu_cjmp_constraints F s pc arg2 f r) x <->
  xval x r = if b then (bits_nat bs %/ 2 ^ s)%N%:R else xval x (dv_packed pc) + 1.
Proof.
move=> h hs hf; rewrite /alu_cjmp_constraints holds1 /constraint_holds; cbn [c_a c_b c_c].
rewrite !fsE (target_sumE h hs) hf ?mulr1z; move: (_ %/ _)%N%:R (xval x r) (xval x (dv_packed pc)) => t u v.
case: b {hf}; rewrite /bit ?mul1r ?mul0r.
  by split=> [/addIr/addIr->|->].
split=> [|->]; last by fring F.
by move=> e; apply/eqP; rewrite -subr_eq0 opprD addrA -e.
Qed.
Lemma cnjmp_iff s pc arg2 (f r : nat) x bs (b : bool) : is_word x arg2 bs -> (s <= size bs)%N -> xval x f = bit b ->
  holds (alu_cnjmp_constraints F s pc arg2 f r) x <->
  xval x r = if b then xval x (dv_packed pc) + 1 else (bits_nat bs %/ 2 ^ s)%N%:R.
Proof.
move=> h hs hf; rewrite /alu_cnjmp_constraints holds1 /constraint_holds; cbn [c_a c_b c_c].
rewrite !fsE (target_sumE h hs) hf ?mulr1z; move: (_ %/ _)%N%:R (xval x r) (xval x (dv_packed pc)) => t u v.
case: b {hf}; rewrite /bit ?mul1r ?mul0r.
  by split=> [/addIr->|->].
split=> [|->]; last by rewrite subrr.
by move/esym/eqP; rewrite subr_eq0 => /eqP.
Qed.
End Sound.
