(** Witness generation of the ALU gadgets satisfies their constraints.  Models nothing of /repo. *)
From mathcomp Require Import all_ssreflect all_algebra zify.
From Verif Require Import Outcome Lincomb LincombSpec LincombFacts R1CS R1CSSpec R1CSFacts Fieldtac.
From Verif Require Import Protoboard GadgetSpec GadgetLogic BasicGadgets BasicGadgetsFacts BasicGadgetsMore.
From Verif Require Import BasicGadgetsCopy GadgetNew GadgetSeq Prop_Gadgets MemoryCheckerFacts Benes.
From Verif Require Import Alu AluSpec AluFacts AluSound AluSound2.
Set Implicit Arguments.
Unset Strict Implicit.
Unset Printing Implicit Defensive.
Local Open Scope ring_scope.
Import GRing.Theory.

Section Witness.
Variable F : fieldType.
Variable R : bigint_repr F.
Add Field Ff : (Fth F).
Implicit Types (x : seq F) (pb : protoboard F).
Let bit (b : bool) : F := (nat_of_bool b)%:R.
Let inv1 (b : bool) : 1 - bit b = bit (~~ b).
Proof. by case: b; rewrite /bit /= ?subrr ?subr0. Qed.
Let size_of pb := size (pb_values pb).
Let val pb := xval (pb_values pb).

(** ** Single steps *)
Lemma assigns_sz m pb pb' : assigns m pb pb' -> size (pb_values pb') = size (pb_values pb).
Proof. by case=> _ _ _ []. Qed.
Lemma assigns_wf m pb pb' : assigns m pb pb' -> pb_wf pb'.
Proof. by case. Qed.
Lemma assigns_bits m pb pb' vs bs : assigns m pb pb' -> all (fun v => v \notin m) vs ->
  bits_are (pb_values pb) vs bs -> bits_are (pb_values pb') vs bs.
Proof.
move=> h /allP hv; rewrite /bits_are => <-; apply/eq_in_map => v /hv hm; exact: assigns_val h hm.
Qed.
Lemma holds_same (P : pred nat) cs x x' : cs_within P cs -> (forall v, P v -> xval x' v = xval x v) ->
  holds cs x -> holds cs x'.
Proof.
move=> hw e; have fs l : within P l -> formal_sum l x' = formal_sum l x.
  elim: l => [|t l IH] /=; first by rewrite /formal_sum !big_nil.
  case/andP => ht hl; rewrite !formal_sum_cons IH //; congr (_ * _ + _).
  by case/orP: ht => [/eqP ->|/e].
elim: cs hw => [|c cs IH]; first by rewrite !holds_nil.
rewrite cs_within_cons !holds_cons => /andP [/and3P [h1 h2 h3] hcs] [hx hxs]; split; last exact: IH.
by move: hx; rewrite /constraint_holds !fs.
Qed.

Lemma step_set pb v a : pb_wf pb -> is_var pb v -> exists pb',
  [/\ pb_set pb v a = Ok pb', assigns [:: v] pb pb' & val pb' v = a].
Proof.
move=> hw hv; have [pb' [h1 h2 h3]] := pb_set_ok a hw hv; exists pb'; split=> //.
by rewrite /val h3 xval_put_eq.
Qed.
Lemma step_bits pb vs v bs : pb_wf pb -> is_var pb v -> all (fun u => u <= size_of pb)%N vs -> v \notin vs ->
  bits_are (pb_values pb) vs bs -> exists pb',
  [/\ packing_witness_from_bits (pv F vs v) pb = Ok pb', assigns [:: v] pb pb' & val pb' v = (bits_nat bs)%:R].
Proof.
move=> hw hv hs hn hb.
have hin : forall b, List.In b (plcs_of_vars F vs) ->
    [/\ lc_proper (fun=> [::]) (size (pb_values pb)) (size (pb_lc_values pb)) b,
     avoids [:: v] (lc_terms b) & isbit (lval (pb_values pb) b)].
  move=> b /List.in_map_iff [u [<- /In_mem hu]]; split.
  - by split=> //; move/allP: hs; apply.
  - by rewrite /avoids /= andbT inE; apply: contra hn => /eqP <-.
  by rewrite lval_var; move/allP: (bits_isbit hb); apply.
have [pb' [h1 h2 h3]] := C29_packing_from_bits hw hv hin; exists pb'; split=> //.
have hb' : bits_are (pb_values pb') vs bs.
  by apply: assigns_bits h2 _ hb; apply/allP => u hu; rewrite inE; apply: contra hn => /eqP <-.
by move/(pv_true_iff _ hb'): h3.
Qed.
Lemma step_packed pb vs v (n : nat) : pb_wf pb -> (v <= size_of pb)%N -> uniq vs -> all (is_var pb) vs -> v \notin vs ->
  val pb v = n%:R -> (n < 2 ^ size vs)%N -> (2 ^ size vs <= fp_order R)%N -> exists pb' bs,
  [/\ packing_witness_from_packed R (pv F vs v) pb = Ok pb', assigns vs pb pb',
      bits_are (pb_values pb') vs bs & bits_nat bs = n].
Proof.
move=> hw hv hu hvs hn en hlt hp.
have hpr : lc_proper (fun=> [::]) (size (pb_values pb)) (size (pb_lc_values pb)) (plc_of_var F v) by split.
have hav : avoids vs (lc_terms (plc_of_var F v)) by rewrite /avoids /= hn.
have := C29_packing_from_packed R hw hu hvs hpr hav; rewrite /= lval_var -/(val pb v) en as_bigint_nat; last exact: leq_trans hlt hp.
rewrite hlt => -[pb' [h1 h2 h3]]; have [bs [hb eb]] := pv_true h3.
exists pb', bs; split=> //.
have sb := bits_size hb; apply: (natF_eq (R := R)).
- by apply: leq_trans (bits_nat_lt _) _; rewrite -sb.
- exact: leq_trans hlt hp.
by rewrite -eb (assigns_val h2 hn) -/(val pb v) en.
Qed.
(** The disjunction of [vs], built before, computed now. *)
Lemma step_disj pb0 pb1 pb vs v g : pb_wf pb0 -> disjunction_new pb0 vs v = Ok (g, pb1) -> later pb1 pb ->
  is_var pb0 v -> all (fun u => u <= size_of pb0)%N vs -> v \notin vs -> exists pb',
  [/\ disjunction_witness g pb = Ok pb', assigns [:: v; (size_of pb0).+1] pb pb',
      size_of pb1 = (size_of pb0).+1 &
      forall x, (forall u, u \in v :: (size_of pb0).+1 :: vs -> xval x u = val pb' u) ->
        holds (disjunction_constraints F g) x].
Proof.
move=> hw hg hl hv hs hn; have [pb' [h1 h2 h3]] := C30_disjunction_complete hw hg hl hv hs hn.
have [_ ha ei eo ef] := disjunction_new_spec hw hg.
have [e1 e2] : dj_inv g = (size_of pb0).+1 /\ size_of pb1 = (size_of pb0).+1.
  have := congr1 size ef; rewrite size_iota => e; have hle := allocates_size ha.
  have es : size (pb_values pb1) = (size (pb_values pb0)).+1 by move: e hle; clear; rewrite /=; lia.
  by split=> //; move: ef; rewrite /fresh_vars es subSnn /= => -[<-].
exists pb'; split=> //; first by move: h2; rewrite ef e1.
move=> x hx; apply: (holds_same (P := mem (v :: (size_of pb0).+1 :: vs)) _ _ h3).
  apply: disjunction_within; rewrite ?e1 ?eo ?ei ?inE ?eqxx ?orbT //.
  by apply/allP => u hu; rewrite /= !inE hu !orbT.
by move=> u hu; exact: hx.
Qed.

(** ** mov, cmov, jumps *)
Lemma mov_ok arg2 (f r rf : nat) pb : pb_wf pb -> (dv_packed arg2 <= size_of pb)%N -> (f <= size_of pb)%N ->
  all (is_var pb) [:: r; rf] -> r != rf -> all (fun v => v \notin [:: r; rf]) [:: dv_packed arg2; f] ->
  exists pb', [/\ alu_mov_witness arg2 f r rf pb = Ok pb', assigns [:: r; rf] pb pb' &
    holds (alu_mov_constraints F arg2 f r rf) (pb_values pb')].
Proof.
move=> hw hs hf /= /and3P [h1 h2 _] hne /and3P [n1 n2 _]; rewrite /alu_mov_witness (pb_val_ok hw hs); cbn [obind].
have [b1 [-> a1 v1]] := step_set (xval (pb_values pb) (dv_packed arg2)) hw h1; cbn [obind].
rewrite (pb_val_ok (assigns_wf a1)) ?(assigns_sz a1) //; cbn [obind].
have h2' : is_var b1 rf by rewrite /is_var (assigns_sz a1).
have [b2 [-> a2 v2]] := step_set (xval (pb_values b1) f) (assigns_wf a1) h2'.
move: n1 n2; rewrite !inE !negb_or => /andP [n1 n1'] /andP [n2 n2'].
exists b2; split=> //.
  by apply: (assigns_trans _ _ a1 a2); subset_tac.
apply/mov_iff; rewrite -/(val b2 rf) v2 -/(val b1 r) !(assigns_val a2) ?inE // -/(val b1 r) v1.
by rewrite !(assigns_val a1) ?inE.
Qed.
Lemma cmov_ok des arg2 (f r rf : nat) (b : bool) pb : pb_wf pb -> val pb f = bit b ->
  all (fun v => v <= size_of pb)%N [:: dv_packed des; dv_packed arg2; f] ->
  all (is_var pb) [:: r; rf] -> r != rf -> all (fun v => v \notin [:: r; rf]) [:: dv_packed des; dv_packed arg2; f] ->
  exists pb', [/\ alu_cmov_witness des arg2 f r rf pb = Ok pb', assigns [:: r; rf] pb pb' &
    holds (alu_cmov_constraints F des arg2 f r rf) (pb_values pb')].
Proof.
move=> hw ef /= /and4P [hd hs hf _] /and3P [h1 h2 _] hne /and4P [n0 n1 n2 _]; rewrite /alu_cmov_witness (pb_val_ok hw hf) -/(val pb f) ef; cbn [obind].
have eb : (bit b == 1) = b by rewrite /bit; case: b {ef}; rewrite ?eqxx // eq_sym oner_eq0.
rewrite eb; set src := if b then arg2 else des.
have hsrc : (dv_packed src <= size_of pb)%N by rewrite /src; case: (b).
have nsrc : dv_packed src \notin [:: r; rf] by rewrite /src; case: (b).
rewrite (pb_val_ok hw hsrc); cbn [obind].
have [b1 [-> a1 v1]] := step_set (xval (pb_values pb) (dv_packed src)) hw h1; cbn [obind].
rewrite (pb_val_ok (assigns_wf a1)) ?(assigns_sz a1) //; cbn [obind].
have h2' : is_var b1 rf by rewrite /is_var (assigns_sz a1).
have [b2 [-> a2 v2]] := step_set (xval (pb_values b1) f) (assigns_wf a1) h2'.
have a12 : assigns [:: r; rf] pb b2 by apply: (assigns_trans _ _ a1 a2); subset_tac.
exists b2; split=> //.
have hf2 : xval (pb_values b2) f = bit b by rewrite (assigns_val a12).
apply/(cmov_iff _ _ _ _ hf2); rewrite -/src (assigns_val a12 nsrc).
have er : xval (pb_values b2) r = xval (pb_values pb) (dv_packed src) by rewrite (assigns_val a2) ?inE //; exact: v1.
have erf : xval (pb_values b2) rf = xval (pb_values b1) f by exact: v2.
split=> //; rewrite erf (assigns_val a12) // (assigns_val a1) //.
by move: n2; rewrite !inE negb_or => /andP [].
Qed.
Lemma target_ok s arg2 pb bs : pb_wf pb -> (dv_packed arg2 <= size_of pb)%N -> is_word (pb_values pb) arg2 bs ->
  (2 ^ size bs <= fp_order R)%N -> shifted_target R s arg2 pb = Ok (bits_nat bs %/ 2 ^ s)%N%:R.
Proof.
move=> hw hs [_ e] hp; rewrite /shifted_target (pb_val_ok hw hs); cbn [obind]; rewrite e as_bigint_nat //.
exact: leq_trans (bits_nat_lt _) hp.
Qed.
Lemma word_kept m pb pb' d bs : assigns m pb pb' -> all (fun v => v \notin m) (dv_packed d :: dv_bits d) ->
  is_word (pb_values pb) d bs -> is_word (pb_values pb') d bs.
Proof.
move=> h /andP [h1 h2] [e1 e2]; split; first exact: assigns_bits h h2 e1.
by rewrite (assigns_val h h1).
Qed.
Lemma jmp_ok s arg2 (r : nat) pb bs : pb_wf pb -> is_var pb r -> (dv_packed arg2 <= size_of pb)%N ->
  is_word (pb_values pb) arg2 bs -> (s <= size bs)%N -> (2 ^ size bs <= fp_order R)%N ->
  all (fun v => v \notin [:: r]) (dv_packed arg2 :: dv_bits arg2) ->
  exists pb', [/\ alu_jmp_witness R s arg2 r pb = Ok pb', assigns [:: r] pb pb' &
    holds (alu_jmp_constraints F s arg2 r) (pb_values pb')].
Proof.
move=> hw hr hs h2 hss hp hn; rewrite /alu_jmp_witness (target_ok s hw hs h2 hp); cbn [obind].
have [b1 [-> a1 v1]] := step_set (bits_nat bs %/ 2 ^ s)%N%:R hw hr; exists b1; split=> //.
by apply/(jmp_iff _ (word_kept a1 hn h2) hss).
Qed.
Lemma bit_eq1 (b : bool) : (bit b == 1) = b.
Proof. by rewrite /bit; case: b; rewrite ?eqxx // eq_sym oner_eq0. Qed.
Lemma cjmp_ok s pc arg2 (f r : nat) pb bs (b : bool) : pb_wf pb -> is_var pb r ->
  all (fun v => v <= size_of pb)%N [:: dv_packed pc; dv_packed arg2; f] -> val pb f = bit b ->
  is_word (pb_values pb) arg2 bs -> (s <= size bs)%N -> (2 ^ size bs <= fp_order R)%N ->
  all (fun v => v \notin [:: r]) (dv_packed pc :: f :: dv_packed arg2 :: dv_bits arg2) ->
  (exists pb', [/\ alu_cjmp_witness R s pc arg2 f r pb = Ok pb', assigns [:: r] pb pb' &
    holds (alu_cjmp_constraints F s pc arg2 f r) (pb_values pb')]) /\
  (exists pb', [/\ alu_cnjmp_witness R s pc arg2 f r pb = Ok pb', assigns [:: r] pb pb' &
    holds (alu_cnjmp_constraints F s pc arg2 f r) (pb_values pb')]).
Proof.
move=> hw hr /= /and4P [hpc hs hf _] ef h2 hss hp /and3P [npc nf hn].
rewrite /alu_cjmp_witness /alu_cnjmp_witness (pb_val_ok hw hf) -/(val pb f) ef; cbn [obind]; rewrite bit_eq1.
rewrite (target_ok s hw hs h2 hp) /next_pc (pb_val_ok hw hpc); cbn [obind].
set t := (_ %/ _)%N%:R; set n := _ + 1.
split.
  have -> : (if b then Ok t else Ok n) = Ok (if b then t else n) by case: (b).
  cbn [obind]; have [b1 [-> a1 v1]] := step_set (if b then t else n) hw hr; exists b1; split=> //.
  have ef1 : xval (pb_values b1) f = bit b by rewrite (assigns_val a1).
  by apply/(cjmp_iff _ _ (word_kept a1 hn h2) hss ef1); rewrite (assigns_val a1 npc); exact: v1.
have -> : (if b then Ok n else Ok t) = Ok (if b then n else t) by case: (b).
cbn [obind]; have [b1 [-> a1 v1]] := step_set (if b then n else t) hw hr; exists b1; split=> //.
have ef1 : xval (pb_values b1) f = bit b by rewrite (assigns_val a1).
by apply/(cnjmp_iff _ _ (word_kept a1 hn h2) hss ef1); rewrite (assigns_val a1 npc); exact: v1.
Qed.
End Witness.
