(** Soundness of the ALU gadgets, continued (for C39).  Models nothing of /repo. *)
From mathcomp Require Import all_ssreflect all_algebra zify.
From Verif Require Import Outcome Lincomb LincombSpec LincombFacts R1CS R1CSSpec R1CSFacts Fieldtac.
From Verif Require Import Protoboard GadgetSpec GadgetLogic BasicGadgets BasicGadgetsFacts BasicGadgetsMore.
From Verif Require Import BasicGadgetsCopy GadgetNew GadgetSeq Benes Alu AluSpec AluFacts AluSound.
Set Implicit Arguments.
Unset Strict Implicit.
Unset Printing Implicit Defensive.
Local Open Scope ring_scope.
Import GRing.Theory.

Section Sound.
Variable F : fieldType.
Variable R : bigint_repr F.
Add Field Ff : (Fth F).
Implicit Types (x : seq F) (pb : protoboard F).
Let bit (b : bool) : F := (nat_of_bool b)%:R.
Let inv1 (b : bool) : 1 - bit b = bit (~~ b).
Proof. by case: b; rewrite /bit /= ?subrr ?subr0. Qed.

(** ** The four bitwise gadgets *)
Lemma holds_map (T : Type) (f : T -> r1cs_constraint F) (ts : seq T) x :
  holds (map f ts) x <-> forall t, List.In t ts -> constraint_holds (f t) x.
Proof.
elim: ts => [|t ts IH] /=; first by rewrite holds_nil; split.
rewrite holds_cons IH; split=> [[h1 h2] u [<-|/h2]|h] //.
by split=> [|u hu]; apply: h; [left|right].
Qed.
Lemma bitwise_final (op : bool -> bool -> bool) (f : nat * nat * nat -> r1cs_constraint F) pb w r rf g pb' arg1 arg2 x bs cs :
  (forall t p q, xval x t.1.1 = bit p -> xval x t.1.2 = bit q -> constraint_holds (f t) x <-> xval x t.2 = bit (op p q)) ->
  pb_wf pb -> alu_bitwise_new pb w r rf = Ok (g, pb') -> (w < fp_order R)%N ->
  size bs = w -> size cs = w -> is_word x arg1 bs -> is_word x arg2 cs ->
  holds (map f (alu_triples arg1 arg2 g) ++ alu_bitwise_tail F g) x ->
  let v := bits_nat (bitwise op bs cs) in xval x r = v%:R /\ xval x rf = bit (v == 0)%N.
Proof.
move=> hf hw hn hp sb sc [h1 _] [h2 _]; have [sr e1 e2 er erf] := bitwise_new_spec hw hn.
rewrite holds_cat => -[/holds_map h3 h4].
have hb : bits_are x (bw_res_word g) (bitwise op bs cs).
  apply: (bitwise_are h1 h2); rewrite ?(bits_size h1) ?(bits_size h2) ?sb ?sc //.
  by move=> t ht b c hb hc; apply/(hf _ _ _ hb hc); exact: h3.
have [|ha hb'] := bitwise_tail_sound (R := R) e1 e2 hb _ h4; first by rewrite -(bits_size hb) sr; exact: hp.
by rewrite -er -erf.
Qed.
Lemma not_final pb w r rf g pb' arg2 x cs :
  pb_wf pb -> alu_bitwise_new pb w r rf = Ok (g, pb') -> (w < fp_order R)%N -> size cs = w -> is_word x arg2 cs ->
  holds (alu_not_constraints F arg2 g) x ->
  let v := bits_nat (map negb cs) in xval x r = v%:R /\ xval x rf = bit (v == 0)%N.
Proof.
move=> hw hn hp sc [h2 _]; have [sr e1 e2 er erf] := bitwise_new_spec hw hn.
rewrite /alu_not_constraints holds_cat => -[/holds_map h3 h4].
have hb : bits_are x (bw_res_word g) (map negb cs).
  move: h3; have := bits_size h2; rewrite sc -{1}sr; move: (bw_res_word g) (dv_bits arg2) h2; clear.
  rewrite /bits_are; elim: cs => [|c cs IH] [|u us] [|v vs] //= [h1 h2] [es] h.
  congr (_ :: _); last by apply: IH h2 es _ => t ht; apply: h; right.
  by apply/(@not_step F x v u c h1); apply: (h (v, u)); left.
have [|ha hb'] := bitwise_tail_sound (R := R) e1 e2 hb _ h4; first by rewrite -(bits_size hb) sr; exact: hp.
by rewrite -er -erf.
Qed.

(** ** udiv, umod *)
Lemma divmod_new_spec pb w arg2 o g pb' : pb_wf pb -> alu_divmod_new pb w arg2 o = Ok (g, pb') -> exists a0,
  [/\ cm_shape (dm_r_less_B g) a0, cm_n (dm_r_less_B g) = w,
      cm_A (dm_r_less_B g) = plc_of_var F (dm_r o) /\ cm_B (dm_r_less_B g) = plc_of_var F (dv_packed arg2),
      cm_less (dm_r_less_B g) = dm_nonzero g & cm_less_or_eq (dm_r_less_B g) = ONE].
Proof.
move=> hw; rewrite /alu_divmod_new.
case e1: (allocate_var pb) => [v1 b1]; have [h1 _ _] := allocate_var_new hw e1.
case e2: (allocate_var b1) => [v2 b2]; have [h2 _ _] := allocate_var_new (allocates_wf h1) e2.
case e3: (allocate_var b2) => [v3 b3]; have [h3 _ _] := allocate_var_new (allocates_wf h2) e3.
case e5: (comparison_new _ _ _ _ _ _) => [[c b5]| |] //= [<- _] /=.
by have [a0 [_ hs _ [en eA eB el ele] _]] := comparison_new_spec (allocates_wf h3) e5; exists a0.
Qed.
Lemma divmod_sound pb0 pb1 w arg1 arg2 o g x bs cs (q r : nat) : pb_wf pb0 ->
  alu_divmod_new pb0 w arg2 o = Ok (g, pb1) ->
  size bs = w -> size cs = w -> (2 ^ w.+1 <= fp_order R)%N -> (2 ^ (2 * w) <= fp_order R)%N ->
  is_word x arg1 bs -> is_word x arg2 cs ->
  xval x (dm_q o) = q%:R -> (q < 2 ^ w)%N -> xval x (dm_r o) = r%:R -> (r < 2 ^ w)%N ->
  holds (alu_divmod_constraints arg1 arg2 o g) x ->
  if (bits_nat cs == 0)%N then q = 0%N /\ r = 0%N
  else q = (bits_nat bs %/ bits_nat cs)%N /\ r = (bits_nat bs %% bits_nat cs)%N.
Proof.
move=> hw hn sb sc hp hp2 [_ h1] [_ h2] hq lq hr lr; have [a0 [hs en [eA eB] el ele]] := divmod_new_spec hw hn.
rewrite /alu_divmod_constraints holds_cat => -[hd hc].
have lb := bits_nat_lt bs; have lc := bits_nat_lt cs; rewrite sb in lb; rewrite sc in lc.
have [|||||ha _] := @comparison_sound F R (dm_r_less_B g) a0 x r (bits_nat cs) hs _ _ _ _ _ hc; rewrite ?en //.
- by rewrite eA lval_var.
- by rewrite eB lval_var.
rewrite el in ha.
move: hd; rewrite !holds_cons holds_nil /constraint_holds; cbn [c_a c_b c_c]; rewrite !lc2E !lc1E h1 h2 hq hr ha ?xone !mul1r !mulN1r ?mul0r ?mulr1.
have lt0 n : (n < 2 ^ w)%N -> (n < fp_order R)%N.
  by move=> h; apply: leq_trans hp; rewrite expnS; move: h; clear; lia.
case=> c1 [c2 [c3 [c4 [c5 _]]]].
case: eqP => [e0|/eqP n0].
  rewrite e0 in c1 c3 c5; rewrite ltn0 mulr0 mul0r /= in c1 c3 c5; rewrite e0 /= mulr0 in c4.
  rewrite subr0 mulr1 in c5; rewrite -c4 sub0r in c3.
  split; apply: (natF_eq (R := R)); rewrite ?lt0 ?expn_gt0 //.
  by apply: oppr_inj; rewrite -c3 oppr0.
have hB : ((bits_nat cs)%:R : F) != 0.
  apply: contra n0 => /eqP e; apply/eqP; apply: (natF_eq (R := R)); rewrite ?lt0 ?expn_gt0 //.
have {c2} hrb : (r < bits_nat cs)%N.
  move/eqP: c2; rewrite mulf_eq0 (negbTE hB) orbF; case: (r < bits_nat cs)%N => //=.
  by rewrite subr0 oner_eq0.
rewrite hrb mulr1 in c4; rewrite -c4 -natrM in c3.
have e : (bits_nat cs * q + r = bits_nat bs)%N.
  apply: (natF_eq (R := R)).
  - apply: leq_trans hp2; rewrite mul2n -addnn expnD.
    apply: (@leq_trans (bits_nat cs * q + bits_nat cs)%N); first by rewrite ltn_add2l.
    by rewrite -mulnSr; apply: leq_mul => //; exact: ltnW.
  - exact: lt0.
  by rewrite natrD c3; move: (bits_nat bs)%:R r%:R; clear => u v; rewrite subrK.
have B0 : (0 < bits_nat cs)%N by rewrite lt0n.
by rewrite -e mulnC divnMDl // divn_small // addn0 modnMDl modn_small.
Qed.

(** ** smulh *)
Lemma signed_range bs w : size bs = w.+1 -> (- (2 ^ w)%:Z <= signed bs < (2 ^ w)%:Z)%R.
Proof.
move=> sb; have [cs [b e]] : exists cs b, bs = rcons cs b by apply: last_negate; rewrite sb.
have sc : size cs = w by move: sb; rewrite e size_rcons => -[].
have := signed_shift cs b; rewrite -e sc; have := bits_nat_lt (rcons cs (~~ b)); rewrite size_rcons sc expnS.
by move: (bits_nat _) (2 ^ w)%N (signed bs); clear; lia.
Qed.
Lemma signed_field x d bs : (0 < size bs)%N -> is_word x d bs ->
  (signed bs)%:~R = xval x (dv_packed d) - 2%:R ^+ size bs * xval x (top_bit d) :> F.
Proof.
move=> s0 [h1 h2]; rewrite h2 /top_bit /signed.
case/lastP: bs s0 h1 {h2} => // cs b _ h1.
case/lastP: (dv_bits d) h1 => [|vs v] h1; first by have := bits_size h1; rewrite size_rcons.
have [b' [cs' [e _ h3]]] := bits_rconsP h1; have [_ e2] := rcons_inj e; subst b'.
rewrite !last_rcons h3 rmorphB /=; case: b {h1 h3 e}; rewrite /= ?mulr1 ?mulr0 ?mulr0z //.
by rewrite -!pmulrn natrX.
Qed.
Lemma is_zero (a t e : F) : a * t = 1 - e -> e * t = 0 -> e = bit (t == 0).
Proof.
case: eqP => [->|/eqP n0] h1 h2.
  by move: h1; rewrite mulr0 => /esym/eqP; rewrite subr_eq0 => /eqP <-.
by move/eqP: h2; rewrite mulf_eq0 (negbTE n0) orbF => /eqP.
Qed.
Lemma top_range (K m : nat) (p : int) : (0 < K)%N -> m%:Z = p + (4 * K * K)%:Z -> - (K * K)%:Z <= p <= (K * K)%:Z ->
  let t := (m %/ K %% (4 * K))%N in
  ((t == 0) || (t == (4 * K).-1))%N = (- K%:Z <= p < K%:Z).
Proof.
move=> K0 hm hp t.
have ed := divn_eq m K; have le : (m %% K < K)%N by rewrite ltn_mod.
move: ed le; rewrite /t; move: (m %/ K)%N (m %% K)%N => d e ed le.
have h3 : (3 * K <= d)%N by move: hp hm ed le; clear; nia.
have h5 : (d <= 5 * K)%N by move: hp hm ed le K0; clear; nia.
have {t} : (d %% (4 * K) = if (d < 4 * K)%N then d else d - 4 * K)%N.
  case: ltnP => h; first by rewrite modn_small.
  rewrite -{1}(subnK h) modnDr modn_small //; move: h3 h5 K0 h; clear; lia.
move=> ->; case: ltnP => h.
  have -> : (d == 0)%N = false by apply/eqP; move: h3 K0; clear; lia.
  rewrite orFb; case: eqP => hd; apply/esym.
    have ? : d = (4 * K).-1 by exact: hd.
    apply/andP; split; move: hm ed le K0 hd; clear; nia.
  apply/negP => /andP[h6 h7]; have hd' : (d.+2 <= 4 * K)%N by move: h hd; clear; lia.
  move: hm ed le h6 hd'; clear; nia.
have -> : (d - 4 * K == (4 * K).-1)%N = false by apply/eqP; move: h5 K0 h; clear; lia.
rewrite orbF; case: eqP => hd; apply/esym.
  have hd' : d = (4 * K)%N by move: hd h; clear; lia.
  by rewrite hd' in ed; apply/andP; split; move: hm ed le K0; clear; nia.
apply/negP => /andP[h6 h7]; have hd' : (4 * K < d)%N by move: h hd; clear; lia.
move: hm ed le h7 hd'; clear; nia.
Qed.
Lemma high_word (W m : nat) (p : int) : (0 < W)%N -> m%:Z = p + (W * W)%:Z ->
  (m %/ W %% W)%N%:Z = modz (divz p W%:Z) W%:Z.
Proof.
move=> W0 hm; have -> : p = (- W%:Z) * W%:Z + m%:Z by move: hm; clear; nia.
have W1 : W%:Z != 0 by move: W0; clear; lia.
rewrite divzMDl // divz_nat -modz_nat.
by rewrite -[(- W%:Z)%R]mulN1r modzMDl.
Qed.
Lemma smul_new_size pb w g pb' : pb_wf pb -> alu_smul_new pb w = (g, pb') -> size (dv_bits (sm_mul g)) = (2 * w).+1.
Proof.
move=> hw; rewrite /alu_smul_new /dual_variable_new.
case e1: (allocate_var pb) => [v1 b1]; have [h1 _ _] := allocate_var_new hw e1.
case e2: (allocate_array b1 _) => [v2 b2]; have [h2 ea _] := allocate_array_new (allocates_wf h1) e2.
by do 6 case: (allocate_var _) => ? ?; case=> <- _; rewrite /= ea size_iota.
Qed.
Lemma smul_sound pb0 pb1 w arg1 arg2 result flag g c x bs cs : pb_wf pb0 ->
  alu_smul_new pb0 w.+1 = (g, pb1) -> alu_smul_constraints F w.+1 arg1 arg2 result flag g = Ok c ->
  size bs = w.+1 -> size cs = w.+1 -> (2 ^ (2 * w.+1).+1 <= fp_order R)%N -> is_word x arg1 bs -> is_word x arg2 cs ->
  holds c x ->
  let p := signed bs * signed cs in
  xval x result = (modz (divz p (2 ^ w.+1)%N) (2 ^ w.+1)%N)%:~R /\ xval x flag = bit (~~ (- (2 ^ w)%N%:Z <= p < (2 ^ w)%N%:Z)).
Proof.
move=> hw hn hc sb sc hp h1 h2.
have sg := smul_new_size hw hn; have hf1 := signed_field (x := x) (d := arg1) (bs := bs); have hf2 := signed_field (x := x) (d := arg2) (bs := cs).
rewrite sb in hf1; rewrite sc in hf2; have {}hf1 := hf1 isT h1; have {}hf2 := hf2 isT h2.
move: hc; rewrite /alu_smul_constraints; have oki (A : Type) (u v : A) : Ok u = Ok v -> u = v by case.
case: (leqP 64 w.+2) => // _ hc; rewrite -(oki _ _ _ hc) {hc}.
rewrite holds_cons !holds_cat !holds_rc /constraint_holds; cbn [c_a c_b c_c foldr]; rewrite !lc2E !vrE !tmE !addr0 ?xone !mul1r !mulN1r ?mulr1 ?mul0r.
rewrite !mulNr -hf1 -hf2 -rmorphM /=.
case=> c1 [/word_of_constraints [ds [h4 h5]]] [h6 [h7 [c2 [c3 [c4 [c5 [c6 _]]]]]]].
have r1 := signed_range sb; have r2 := signed_range sc.
have hpr : - (2 ^ w * 2 ^ w)%N%:Z <= signed bs * signed cs <= (2 ^ w * 2 ^ w)%N%:Z.
  by move: r1 r2; move: (signed bs) (signed cs) (2 ^ w)%N => u v K; clear; nia.
move: (signed bs * signed cs : int) c1 hpr => p c1 hpr.
have K0 : (0 < 2 ^ w)%N by rewrite expn_gt0.
have e22 : (2 ^ (2 * w.+1) = 4 * 2 ^ w * 2 ^ w)%N by rewrite mul2n -addnn expnD expnS; move: (2 ^ w)%N; clear; nia.
have [m hm] : exists m : nat, m%:Z = p + (4 * 2 ^ w * 2 ^ w)%:Z.
  exists (absz (p + (4 * 2 ^ w * 2 ^ w)%:Z)); move: hpr; move: (2 ^ w)%N; clear; nia.
have sd : size ds = (2 * w.+1).+1 by rewrite -(bits_size h4).
have e : bits_nat ds = m.
  apply: (natF_eq (R := R)).
  - by apply: leq_trans hp; rewrite -sd; exact: bits_nat_lt.
  - apply: leq_trans hp; rewrite expnS e22; move: hm hpr K0; move: (2 ^ w)%N; clear; nia.
  rewrite -h5 [RHS]pmulrn hm rmorphD /= c1 -e22 -pmulrn natrX.
  by rewrite subrK.
have hsz : (w.+1 <= size ds)%N by rewrite sd; clear; lia.
have hsz' : (w <= size ds)%N by rewrite sd; clear; lia.
move: h6 => /(pv_false _ (bits_take w.+1 (bits_drop w.+1 h4))) h6.
move: h7 => /(pv_false _ (bits_take w.+2 (bits_drop w h4))) h7.
rewrite (proj1 (bits_take_drop _)) ?(proj2 (bits_take_drop _)) // ?size_drop ?sd in h6; last by clear; lia.
rewrite (proj1 (bits_take_drop _)) ?(proj2 (bits_take_drop _)) // ?size_drop ?sd in h7; last by clear; lia.
rewrite e in h6 h7; split.
  rewrite h6 pmulrn; congr (_%:~R); apply: high_word; first by rewrite expn_gt0.
  by rewrite hm expnS; move: (2 ^ w)%N; clear; nia.
have e4 : (2 ^ w.+2 = 4 * 2 ^ w)%N by rewrite !expnS mulnA.
rewrite e4 in h7; have hr := top_range K0 hm hpr.
move: hr h7; rewrite /=; set t := (_ %% _)%N => hr h7.
have lt : (t < 4 * 2 ^ w)%N by rewrite ltn_mod; move: K0; clear; lia.
have le4 : (4 * 2 ^ w <= fp_order R)%N.
  by apply: leq_trans hp; rewrite expnS e22; move: K0; move: (2 ^ w)%N; clear; nia.
have E0 := is_zero c2 c3; have E1 := is_zero c4 c5.
have z0 : (xval x (sm_top g) == 0) = (t == 0)%N.
  rewrite h7; apply/eqP/eqP => [e0|->] //; apply: (natF_eq (R := R)) => //; [exact: leq_trans le4|].
  by apply: leq_trans le4; move: K0; clear; lia.
have z1 : (xval x (sm_top g) + (1 - 2%:R ^+ w.+2) == 0) = (t == (4 * 2 ^ w).-1)%N.
  have -> : 1 - 2%:R ^+ w.+2 = - ((4 * 2 ^ w).-1)%:R :> F.
    have hk4 : (0 < 4 * 2 ^ w)%N by move: K0; clear; lia.
    rewrite -natrX e4; move: (4 * 2 ^ w)%N hk4; clear => [[//|n] _].
    by rewrite [n.+1.-1]/= -addn1 natrD opprD addrCA subrr addr0.
  rewrite h7 subr_eq0; apply/eqP/eqP => [e0|->] //; apply: (natF_eq (R := R)) => //; [exact: leq_trans le4|].
  by apply: leq_trans le4; move: K0; clear; lia.
rewrite -c6 E0 E1 z0 z1 -hr.
have hne : ~~ ((t == 0) && (t == (4 * 2 ^ w).-1))%N by apply/negP => /andP[/eqP -> /eqP]; move: K0; clear; lia.
move: hne; clear; move: (t == _)%N (t == _)%N => u v; rewrite /bit.
by case: u v => [] [] // _; rewrite /= ?oppr0 ?subr0 ?sub0r ?addr0 ?subrr.
Qed.
End Sound.
