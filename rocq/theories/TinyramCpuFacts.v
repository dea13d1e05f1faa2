(** What the constraints of the argument decoder and of the consistency enforcer force.
    Models nothing of /repo. *)
From mathcomp Require Import all_ssreflect all_algebra zify.
From Verif Require Import Outcome Lincomb LincombSpec LincombFacts R1CS R1CSSpec R1CSFacts Fieldtac.
From Verif Require Import Protoboard GadgetSpec GadgetLogic BasicGadgets BasicGadgetsFacts BasicGadgetsMore.
From Verif Require Import BasicGadgetsCopy GadgetNew GadgetSeq Benes Alu AluSpec AluFacts TinyramCpu.
Set Implicit Arguments.
Unset Strict Implicit.
Unset Printing Implicit Defensive.
Local Open Scope ring_scope.
Import GRing.Theory.

Section Facts.
Variable F : fieldType.
Variable R : bigint_repr F.
Add Field Ff : (Fth F).
Implicit Types (x : seq F) (pb : protoboard F).
Let bit (b : bool) : F := (nat_of_bool b)%:R.

Record ad_shape (g : arg_decoder F) (regs : seq nat) (des arg1 : nat) : Prop := AdShape {
  ads_m1 : lm_shape (ad_demux_des g);
  ads_m2 : lm_shape (ad_demux_arg1 g);
  ads_m3 : lm_shape (ad_demux_arg2 g);
  ads_1 : [/\ lm_arr (ad_demux_des g) = plcs_of_vars F regs, lm_index (ad_demux_des g) = ad_packed_desidx g,
              lm_result (ad_demux_des g) = des & lm_success (ad_demux_des g) = ONE];
  ads_2 : [/\ lm_arr (ad_demux_arg1 g) = plcs_of_vars F regs, lm_index (ad_demux_arg1 g) = ad_packed_arg1idx g,
              lm_result (ad_demux_arg1 g) = arg1 & lm_success (ad_demux_arg1 g) = ONE];
  ads_3 : [/\ lm_arr (ad_demux_arg2 g) = plcs_of_vars F regs, lm_index (ad_demux_arg2 g) = ad_packed_arg2idx g,
              lm_result (ad_demux_arg2 g) = ad_demux_result g & lm_success (ad_demux_arg2 g) = ad_demux_success g] }.

Lemma arg_decoder_new_spec pb rw iw imm dx a1x a2x regs dv a1v a2v g pb' : pb_wf pb ->
  arg_decoder_new pb rw iw imm dx a1x a2x regs dv a1v a2v = Ok (g, pb') ->
  [/\ ad_shape g regs dv a1v, [/\ size dx = rw, size a1x = rw & size a2x = iw],
      [/\ ad_desidx g = dx, ad_arg1idx g = a1x & ad_arg2idx g = a2x],
      ad_arg2_is_imm g = imm & ad_arg2val g = a2v].
Proof.
move=> hw; rewrite /arg_decoder_new.
case: eqP => [s1|]; last by []. cbn [obind oassert].
case: eqP => [s2|]; last by []. cbn [obind oassert].
case: eqP => [s3|]; last by []. cbn [obind oassert].
case e1: (allocate_var pb) => [p1 pb1]; have [h1 _ _] := allocate_var_new hw e1.
case e2: (allocate_var pb1) => [p2 pb2]; have [h2 _ _] := allocate_var_new (allocates_wf h1) e2.
case e3: (allocate_var pb2) => [p3 pb3]; have [h3 _ _] := allocate_var_new (allocates_wf h2) e3.
case e4: (allocate_var pb3) => [p4 pb4]; have [h4 _ _] := allocate_var_new (allocates_wf h3) e4.
case e5: (allocate_var pb4) => [p5 pb5]; have [h5 _ _] := allocate_var_new (allocates_wf h4) e5.
move=> hh; have [[m1 pb6] f1 {}hh] := obind_Ok hh; cbn [fst snd] in hh.
have [[m2 pb7] f2 {}hh] := obind_Ok hh; cbn [fst snd] in hh.
have [[m3 pb8] f3 {}hh] := obind_Ok hh; cbn [fst snd] in hh.
have [a1 b1 c1 _] := loose_mux_new_spec (allocates_wf h5) f1.
have [a2 b2 c2 _] := loose_mux_new_spec (allocates_wf a1) f2.
have [a3 b3 c3 _] := loose_mux_new_spec (allocates_wf a2) f3.
case: hh => <- _; split=> //; split=> //.
Qed.

Lemma size_plcs vs : size (plcs_of_vars F vs) = size vs. Proof. exact: size_map. Qed.
Lemma lval_plcs x vs i : (i < size vs)%N -> lval x (lc_nth (plcs_of_vars F vs) i) = xval x (nth 0%N vs i).
Proof. by move=> hi; rewrite /lc_nth (nth_map 0%N) // lval_var. Qed.

(** a multiplexer over variables whose index is a small number *)
Lemma mux_at (g : loose_mux F) x regs d : lm_shape g -> (size regs <= fp_order R)%N -> lm_arr g = plcs_of_vars F regs ->
  (d < fp_order R)%N -> xval x (lm_index g) = d%:R -> xval x (lm_success g) = 1 ->
  holds (loose_mux_constraints g) x ->
  (d < size regs)%N /\ xval x (lm_result g) = xval x (nth 0%N regs d).
Proof.
move=> hs hk ea hd hi h1 hh.
have hk' : (size (lm_arr g) <= fp_order R)%N by rewrite ea size_plcs.
case: (loose_mux_sound (R := R) hs hk' hh) => [[e0 _]|[_ [i [h2 h3 h4]]]].
  by move: h1; rewrite e0 => /eqP; rewrite eq_sym oner_eq0.
rewrite ea size_plcs in h2.
have ed : d = i by apply: (natF_eq (R := R)) => //; [exact: leq_trans h2 hk|rewrite -hi -h3].
by subst i; split=> //; rewrite h4 ea lval_plcs.
Qed.

Lemma arg2_sound (g : arg_decoder F) x imm : holds (arg2_constraints g) x -> xval x (ad_arg2_is_imm g) = bit imm ->
  xval x (ad_arg2val g) = (if imm then xval x (ad_packed_arg2idx g) else xval x (ad_demux_result g)) /\
  (~~ imm -> xval x (ad_demux_success g) = 1).
Proof.
rewrite /arg2_constraints holds_rc; cbn [foldr] => [[h1 /holds_rc]]; cbn [foldr] => [[h2 _]] hi.
move: h1 h2; rewrite !vrE !tmE xone hi /bit; case: imm {hi} => h1 h2; split=> //.
- have e : xval x (ad_arg2val g) = xval x (ad_packed_arg2idx g).
    transitivity (xval x (ad_arg2val g) + (-1 * xval x (ad_demux_result g) + 0) + xval x (ad_demux_result g)); first by fring F.
    by rewrite -h2 /= mulr1n; fring F.
  by [].
- transitivity (xval x (ad_arg2val g) + (-1 * xval x (ad_demux_result g) + 0) + xval x (ad_demux_result g)); first by fring F.
  by rewrite -h2 /= mulr0n; fring F.
- move=> _; apply/esym; transitivity ((1 + (-1 * 0 + 0)) * (1 + (-1 * xval x (ad_demux_success g) + 0)) + xval x (ad_demux_success g)); first by fring F.
  by move: h1; rewrite /= mulr0n => ->; fring F.
Qed.

Lemma lt_bits ws bs x : bits_are x ws bs -> (2 ^ size ws <= fp_order R)%N -> (bits_nat bs < fp_order R)%N.
Proof. by move=> hb h; apply: leq_trans h; rewrite (bits_size hb); exact: bits_nat_lt. Qed.

Theorem arg_decoder_sound pb rw iw imm dx a1x a2x regs dv a1v a2v g pb' x b :
  pb_wf pb -> arg_decoder_new pb rw iw imm dx a1x a2x regs dv a1v a2v = Ok (g, pb') ->
  (size regs <= fp_order R)%N -> (2 ^ rw <= fp_order R)%N -> (2 ^ iw <= fp_order R)%N ->
  xval x imm = bit b -> holds (arg_decoder_constraints g) x ->
  exists ds as_ bs, [/\ bits_are x dx ds, bits_are x a1x as_, bits_are x a2x bs,
    (bits_nat ds < size regs)%N /\ xval x dv = xval x (nth 0%N regs (bits_nat ds)) &
    [/\ (bits_nat as_ < size regs)%N, xval x a1v = xval x (nth 0%N regs (bits_nat as_)) &
     if b then xval x a2v = (bits_nat bs)%:R
     else (bits_nat bs < size regs)%N /\ xval x a2v = xval x (nth 0%N regs (bits_nat bs))]].
Proof.
move=> hw hg hk hrw hiw hi; have [[m1 m2 m3 [a1 a2 a3 a4] [b1 b2 b3 b4] [c1 c2 c3 c4]] [s1 s2 s3] [e1 e2 e3] e4 e5] := arg_decoder_new_spec hw hg.
rewrite /arg_decoder_constraints 6!holds_cat => [[p1 [p2 [p3 [q1 [q2 [q3 r]]]]]]].
have [ds [hds vds]] := pv_true p1; have [as_ [has_ vas]] := pv_true p2; have [bs [hbs vbs]] := pv_true p3.
rewrite e1 in hds; rewrite e2 in has_; rewrite e3 in hbs.
have one y : y = ONE -> xval x y = 1 by move=> ->; exact: xone.
have ld : (bits_nat ds < fp_order R)%N by apply: (lt_bits hds); rewrite s1.
have la : (bits_nat as_ < fp_order R)%N by apply: (lt_bits has_); rewrite s2.
have lb : (bits_nat bs < fp_order R)%N by apply: (lt_bits hbs); rewrite s3.
exists ds, as_, bs; split=> //.
  by rewrite -a3; apply: (mux_at m1 hk a1 ld _ (one _ a4) q1); rewrite a2.
have [t1 t2] : (bits_nat as_ < size regs)%N /\ xval x (lm_result (ad_demux_arg1 g)) = xval x (nth 0%N regs (bits_nat as_)).
  by apply: (mux_at m2 hk b1 la _ (one _ b4) q2); rewrite b2.
have [u1 u2] := arg2_sound r (etrans (congr1 (xval x) e4) hi).
split=> //; first by rewrite -b3.
rewrite -e5 u1; clear u1; case: b u2 {hi} => // /(_ isT) u2.
by rewrite -c3; apply: (mux_at m3 hk c1 lb _ _ q3); rewrite ?c2 ?c4.
Qed.

(** ** The enforcer *)
Record en_shape (g : enforcer F) (results flags : seq nat) : Prop := EnShape {
  ens_m : lm_shape (en_demux g);
  ens_1 : [/\ lm_arr (en_demux g) = plcs_of_vars F (en_out_registers g), lm_index (en_demux g) = en_packed_desidx g,
              lm_result (en_demux g) = en_out_desval g & lm_success (en_demux g) = ONE];
  ens_r : ip_shape (en_compute_result g);
  ens_2 : [/\ ip_A (en_compute_result g) = plcs_of_vars F (en_indicators g),
              ip_B (en_compute_result g) = plcs_of_vars F results & ip_result (en_compute_result g) = en_result g];
  ens_f : ip_shape (en_compute_flag g);
  ens_3 : [/\ ip_A (en_compute_flag g) = plcs_of_vars F (en_indicators g),
              ip_B (en_compute_flag g) = plcs_of_vars F flags & ip_result (en_compute_flag g) = en_comp_flag g] }.

Lemma enforcer_new_spec pb rw inds results flags dx pc regs dv fl opc oregs ofl g pb' : pb_wf pb ->
  enforcer_new pb rw inds results flags dx pc regs dv fl opc oregs ofl = Ok (g, pb') ->
  [/\ en_shape g results flags, size dx = rw,
      [/\ en_indicators g = inds, en_desidx g = dx & en_registers g = regs],
      [/\ en_pc g = pc, en_desval g = dv & en_flag g = fl] &
      [/\ en_out_pc g = opc, en_out_registers g = oregs & en_out_flag g = ofl]].
Proof.
move=> hw; rewrite /enforcer_new.
case: eqP => [s1|]; last by []. cbn [obind oassert].
case e1: (allocate_var pb) => [p1 pb1]; have [h1 _ _] := allocate_var_new hw e1.
case e2: (allocate_var pb1) => [p2 pb2]; have [h2 _ _] := allocate_var_new (allocates_wf h1) e2.
case e3: (allocate_var pb2) => [p3 pb3]; have [h3 _ _] := allocate_var_new (allocates_wf h2) e3.
case e4: (allocate_var pb3) => [p4 pb4]; have [h4 _ _] := allocate_var_new (allocates_wf h3) e4.
case e5: (allocate_var pb4) => [p5 pb5]; have [h5 _ _] := allocate_var_new (allocates_wf h4) e5.
case e6: (allocate_var pb5) => [p6 pb6]; have [h6 _ _] := allocate_var_new (allocates_wf h5) e6.
case e7: (allocate_var pb6) => [p7 pb7]; have [h7 _ _] := allocate_var_new (allocates_wf h6) e7.
move=> hh; have [[i1 pb8] f1 {}hh] := obind_Ok hh; cbn [fst snd] in hh.
have [[i2 pb9] f2 {}hh] := obind_Ok hh; cbn [fst snd] in hh.
have [a1 b1 c1 _] := inner_product_new_spec (allocates_wf h7) f1.
have [a2 b2 c2 _] := inner_product_new_spec (allocates_wf a1) f2.
case e8: (allocate_var pb9) hh => [p8 pb10] hh; have [h8 _ _] := allocate_var_new (allocates_wf a2) e8.
have [[m pb11] f3 {}hh] := obind_Ok hh; cbn [fst snd] in hh.
have [a3 b3 c3 _] := loose_mux_new_spec (allocates_wf h8) f3.
case: hh => <- _; split=> //; split=> //.
Qed.

(** sums of indicators *)
Definition one_hot x (inds : seq nat) (op : nat) : Prop :=
  forall j, (j < size inds)%N -> xval x (nth 0%N inds j) = bit (j == op).

Lemma sum_kind x inds op ops : one_hot x inds op -> uniq ops -> all (fun i => i < size inds)%N ops ->
  \sum_(v <- [seq nth 0%N inds i | i <- ops]) xval x v = bit (op \in ops).
Proof.
move=> h; rewrite big_map; elim: ops => [|i ops IH] /=; first by rewrite big_nil.
case/andP=> hi hu /andP [hs ha]; rewrite big_cons IH // h // in_cons /bit (eq_sym op).
case: eqP => [e|_] /=; last by rewrite mulr0n add0r.
by subst op; rewrite (negbTE hi) mulr0n addr0.
Qed.

Lemma kind_sound x inds op ops v : one_hot x inds op -> uniq ops -> all (fun i => i < size inds)%N ops ->
  holds [:: kind_constraint F inds ops v] x -> xval x v = bit (op \in ops).
Proof.
move=> h1 h2 h3 /holds1; rewrite /kind_constraint /constraint_holds [c_a _]/= [c_b _]/= [c_c _]/= add_varsE !fsE /= !mul1r !add0r.
by rewrite (sum_kind h1 h2 h3) => ->.
Qed.

Lemma select_sound (g : inner_product F) x inds vs op : ip_shape g -> ip_A g = plcs_of_vars F inds -> ip_B g = plcs_of_vars F vs ->
  one_hot x inds op -> (op < size inds)%N -> holds (inner_product_constraints g) x ->
  xval x (ip_result g) = xval x (nth 0%N vs op).
Proof.
move=> hs ea eb h hop hh; rewrite (inner_product_sound hs hh) ea eb.
have es : size inds = size vs by have := ips_B hs; rewrite ea eb !size_plcs => ->.
rewrite zip_sum_nth ?size_plcs // (big_cat_nat _ (n := op)) //=; last by rewrite -es ltnW.
rewrite big_nat big1 ?add0r; last first.
  move=> j /andP [_ hj]; rewrite h /bit; last exact: ltn_trans hj hop.
  by rewrite (ltn_eqF hj) mulr0n mul0r.
rewrite big_ltn -?es // big_nat big1 ?addr0; last first.
  move=> j /andP [hj hj']; rewrite h /bit; last exact: hj'.
  by rewrite (gtn_eqF hj) mulr0n mul0r.
by rewrite h // eqxx mul1r lval_plcs -?es.
Qed.

Lemma update_sound x new old out is_reg b : holds [:: update_constraint F new old out is_reg] x -> xval x is_reg = bit b ->
  xval x out = if b then xval x new else xval x old.
Proof.
rewrite /update_constraint => /holds_rc; cbn [foldr]; rewrite !vrE !tmE => [[h _]] e; move: h; rewrite e.
move=> h; transitivity (xval x out + (-1 * xval x old + 0) + xval x old); first by fring F.
rewrite -h; by case: b {e h}; rewrite /bit /= ?mulr1n ?mulr0n; fring F.
Qed.

Lemma pc_sound (g : enforcer F) x b c : holds (pc_constraints g) x -> xval x (en_is_cf g) = bit b -> xval x (en_is_stall g) = bit c ->
  ~~ (b && c) ->
  xval x (en_out_pc g) = if b then xval x (en_result g) else if c then xval x (en_pc g) else xval x (en_pc g) + 1.
Proof.
rewrite /pc_constraints holds_cons holds1 /constraint_holds.
rewrite [c_a _]/= [c_b _]/= [c_c _]/= [c_a _]/= [c_b _]/= [c_c _]/= !fsE => [[h1 h2]] e1 e2 hbc; move: h1 h2; rewrite e1 e2.
move=> h1; rewrite -h1.
set o := xval x (en_out_pc g); set r := xval x (en_result g); set p := xval x (en_pc g) => h2.
case: b c hbc h2 {e1 e2 h1} => [] [] // _; rewrite /bit /= ?mulr1n ?mulr0n ?mulr1z => h.
- transitivity (o - r * 1 - (1 - 1 - 0) + r); first by fring F.
  by rewrite -h; fring F.
- transitivity (o - r * 0 - (1 - 0 - 1)); first by fring F.
  by rewrite -h; fring F.
- transitivity (o - r * 0 - (1 - 0 - 0) + 1); first by fring F.
  by rewrite -h; fring F.
Qed.

Lemma carry_sound (g : enforcer F) x k i : holds (carryover_constraints g k) x -> (i < k)%N ->
  xval x (nth 0%N (lm_alpha (en_demux g)) i) = 0 ->
  xval x (nth 0%N (en_out_registers g) i) = xval x (nth 0%N (en_registers g) i).
Proof.
rewrite /carryover_constraints holds_iota => /(_ i) h hi e; move: (h hi); rewrite rcE; cbn [foldr].
rewrite !vrE !tmE xone e => h1.
apply/eqP; rewrite -subr_eq0; apply/eqP.
transitivity ((1 + (-1 * 0 + 0)) * (xval x (nth 0%N (en_out_registers g) i) + (-1 * xval x (nth 0%N (en_registers g) i) + 0))); first by fring F.
by rewrite h1; fring F.
Qed.

Theorem enforcer_sound pb rw inds results flags dx pc regs dv fl opc oregs ofl g pb' x op ds :
  pb_wf pb -> enforcer_new pb rw inds results flags dx pc regs dv fl opc oregs ofl = Ok (g, pb') ->
  size inds = 32%N -> size oregs = size regs -> (size regs <= fp_order R)%N -> (2 ^ rw <= fp_order R)%N ->
  one_hot x inds op -> (op < 32)%N -> bits_are x dx ds ->
  holds (enforcer_constraints g (size regs)) x ->
  let d := bits_nat ds in
  let reg := op \in opcodes_register in
  [/\ (d < size regs)%N,
      xval x (nth 0%N oregs d) = (if reg then xval x (nth 0%N results op) else xval x dv),
      forall i, (i < size regs)%N -> i != d -> xval x (nth 0%N oregs i) = xval x (nth 0%N regs i),
      xval x ofl = (if reg then xval x (nth 0%N flags op) else xval x fl) &
      xval x opc = if op \in opcodes_control_flow then xval x (nth 0%N results op)
                   else if op \in opcodes_stall then xval x pc else xval x pc + 1].
Proof.
move=> hw hg hn hsz hk hrw h1 hop hds.
have [[m [a1 a2 a3 a4] ir [b1 b2 b3] if_ [c1 c2 c3]] s1 [e1 e2 e3] [e4 e5 e6] [e7 e8 e9]] := enforcer_new_spec hw hg.
rewrite /enforcer_constraints 10!holds_cat => [[p1 [p2 [p3 [p4 [p5 [p6 [p7 [p8 [p9 [p10 p11]]]]]]]]]]].
set d := bits_nat ds.
rewrite e1 in p3 p4 p5 b1 c1.
have k1 := kind_sound h1 (isT : uniq opcodes_register) (_ : all (fun i => i < size inds)%N opcodes_register) p3.
have k2 := kind_sound h1 (isT : uniq opcodes_control_flow) (_ : all (fun i => i < size inds)%N opcodes_control_flow) p4.
have k3 := kind_sound h1 (isT : uniq opcodes_stall) (_ : all (fun i => i < size inds)%N opcodes_stall) p5.
rewrite !hn in k1 k2 k3; move: (k1 isT) (k2 isT) (k3 isT); clear k1 k2 k3 => k1 k2 k3.
have hop' : (op < size inds)%N by rewrite hn.
have vr := select_sound ir b1 b2 h1 hop' p6; rewrite b3 in vr.
have vf := select_sound if_ c1 c2 h1 hop' p7; rewrite c3 in vf.
rewrite e2 in p1; have vd := (pv_false (en_packed_desidx g) hds).1 p1.
have hd : (d < fp_order R)%N by apply: (lt_bits hds); rewrite s1.
have [hdr vo] : (d < size (en_out_registers g))%N /\ xval x (lm_result (en_demux g)) = xval x (nth 0%N (en_out_registers g) d).
  by apply: (mux_at m _ a1 hd _ _ p2); rewrite ?a2 ?a4 ?e8 ?hsz.
rewrite e8 hsz in hdr; rewrite a3 e8 in vo.
have u1 := update_sound p9 k1; have u2 := update_sound p11 k1.
split=> //.
- by rewrite -vo u2 vr e5.
- move=> i hi hid; rewrite -e8 -e3; apply: (carry_sound p10) => //.
  have hk' : (size (lm_arr (en_demux g)) <= fp_order R)%N by rewrite a1 size_plcs e8 hsz.
  have [q1 _ _ _] := (loose_muxE x m).1 p2.
  have := mux_alpha (R := R) m hk' q1 (i := i); rewrite a1 size_plcs e8 hsz a2 vd => /(_ hi) ->.
  rewrite ifF //; apply/negbTE/eqP => ee; move/eqP: hid; apply.
  by apply/esym/(natF_eq (R := R)) => //; exact: leq_trans hi hk.
- by rewrite -e9 u1 vf e6.
- rewrite -e7 (pc_sound p8 k2 k3) ?vr ?e4 //.
  by move: op hop {h1 p3 p4 p5 p6 p7 hop' vr vf k1 k2 k3 u1 u2}; do 32!case=> //.
Qed.
End Facts.
