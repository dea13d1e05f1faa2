(** Facts about the gadgets of sha256_aux: the sigma functions, choice, majority
    and reduction modulo 2^32. *)
From Coq Require Import NArith.
From mathcomp Require Import all_ssreflect all_algebra zify.
From Verif Require Import Outcome Lincomb LincombSpec LincombFacts R1CS R1CSSpec R1CSFacts Fieldtac.
From Verif Require Import Protoboard GadgetSpec GadgetLogic BasicGadgets BasicGadgetsFacts BasicGadgetsMore GadgetNew.
From Verif Require Import Sha256Spec Sha256Bits Sha256Gadget GadgetSeq Sha256Facts.
Set Implicit Arguments.
Unset Strict Implicit.
Unset Printing Implicit Defensive.
Local Open Scope ring_scope.
Import GRing.Theory.
Delimit Scope N_scope with num.

Section Word.
Variable F : fieldType.
Variable R : bigint_repr F.
Add Field Ff2 : (Fth F).
Implicit Types (x k : seq F) (pb : protoboard F) (P : pred nat).
Local Opaque allocate_array iota.

Lemma xor_loop_sound A B C z o n pb0 gs pb1 x (a b c : nat -> bool) :
  pb_wf pb0 -> new_all (@xor_mk F A B C z o) (iota 0 n) pb0 = Ok (gs, pb1) ->
  holds (flatten (map (@xor3_constraints F) gs)) x ->
  (forall i, (i < n)%N -> [/\ lval x (A i) = (a i)%:R, lval x (B i) = (b i)%:R &
     ~~ z i -> lval x (C i) = (c i)%:R]) ->
  forall i, (i < n)%N -> xval x (o i) = (a i (+) b i (+) (~~ z i && c i))%:R.
Proof.
move=> hw e; have [_ hin] := xor_loop_spec hw e; rewrite holds_flatten => h hb i hi.
have [t ht] := hin i hi; have [h1 h2 h3] := hb i hi.
by have := xor3_sound (h _ ht) h1 h2 h3.
Qed.

Lemma size_allocate_array pb n : size (allocate_array pb n).1 = n.
Proof.
elim: n pb => [|n IH] pb //; rewrite allocate_arrayS; case: (allocate_var pb) => v pb1.
by have := IH pb1; case: (allocate_array pb1 n) => vs pb2 /= ->.
Qed.

(** Unfolding the constructors. *)
Lemma small_sigma_newE pb (W : seq nat) res r1 r2 s : size W = 32%N ->
  small_sigma_new pb W res r1 r2 s =
  let: (rb, pb) := allocate_array pb 32 in
  let! cp := new_all (xor_mk (fun i => plc_of_var F (nth 0%N W ((i + r1) %% 32)))
     (fun i => plc_of_var F (nth 0%N W ((i + r2) %% 32)))
     (fun i => plc_of_var F (if (i + s < 32)%N then nth 0%N W (i + s) else 0%N))
     (fun i => 32 <= i + s)%N (fun i => nth 0%N rb i)) (iota 0 32) pb in
  Ok (SigmaGadget rb cp.1 (Packing (plcs_of_vars F rb) (plc_of_var F res)), cp.2).
Proof.
move=> hW; rewrite /small_sigma_new.
case e: (allocate_array pb 32) => [rb pb'].
have hrb : size rb = 32%N by rewrite -(size_allocate_array pb 32) e.
have hL : forall i, i \in iota 0 32 -> (i < 32)%N by move=> i; rewrite mem_iota.
move: (iota 0 32) hL => L hL; congr obind; apply: new_all_eq => i q /hL hi.
have g1 j : oget W (j %% 32) = Ok (nth 0%N W (j %% 32)) by apply: oget_nth; rewrite hW ltn_mod.
have g2 : oget rb i = Ok (nth 0%N rb i) by apply: oget_nth; rewrite hrb.
rewrite !g1 g2 /xor_mk; case: ltnP => hs; last by [].
have g3 : oget W (i + s) = Ok (nth 0%N W (i + s)) by apply: oget_nth; rewrite hW.
by rewrite g3.
Qed.

Lemma big_sigma_newE pb (W : pb_linear_combination_array F) res r1 r2 r3 : size W = 32%N ->
  big_sigma_new pb W res r1 r2 r3 =
  let: (rb, pb) := allocate_array pb 32 in
  let! cp := new_all (xor_mk (fun i => lc_nth W ((i + r1) %% 32)) (fun i => lc_nth W ((i + r2) %% 32))
     (fun i => lc_nth W ((i + r3) %% 32)) (fun i => false) (fun i => nth 0%N rb i)) (iota 0 32) pb in
  Ok (SigmaGadget rb cp.1 (Packing (plcs_of_vars F rb) (plc_of_var F res)), cp.2).
Proof.
move=> hW; rewrite /big_sigma_new.
case e: (allocate_array pb 32) => [rb pb'].
have hrb : size rb = 32%N by rewrite -(size_allocate_array pb 32) e.
have hL : forall i, i \in iota 0 32 -> (i < 32)%N by move=> i; rewrite mem_iota.
move: (iota 0 32) hL => L hL; congr obind; apply: new_all_eq => i q /hL hi.
have g1 j : oget W (j %% 32) = Ok (lc_nth W (j %% 32)) by apply: oget_nth; rewrite hW ltn_mod.
have g2 : oget rb i = Ok (nth 0%N rb i) by apply: oget_nth; rewrite hrb.
by rewrite !g1 g2.
Qed.

(** * The sigma functions *)
Lemma small_sigma_inv pb0 W res r1 r2 s g pb1 : size W = 32%N -> small_sigma_new pb0 W res r1 r2 s = Ok (g, pb1) ->
  exists rb pb2 gs, [/\ allocate_array pb0 32 = (rb, pb2),
    hid (new_all (xor_mk (fun i => plc_of_var F (nth 0%N W ((i + r1) %% 32)))
     (fun i => plc_of_var F (nth 0%N W ((i + r2) %% 32)))
     (fun i => plc_of_var F (if (i + s < 32)%N then nth 0%N W (i + s) else 0%N))
     (fun i => 32 <= i + s)%N (fun i => nth 0%N rb i)) (iota 0 32) pb2 = Ok (gs, pb1)) &
    g = SigmaGadget rb gs (Packing (plcs_of_vars F rb) (plc_of_var F res))].
Proof.
move=> hs; rewrite (small_sigma_newE _ _ _ _ _ hs); case ea: (allocate_array pb0 32) => [rb pb2].
move=> h; have [[gs pb3] e1 [<- <-]] := obind_Ok h; exists rb, pb2, gs.
split; [reflexivity|exact (Hid e1)|reflexivity].
Qed.
Lemma big_sigma_inv pb0 W res r1 r2 r3 g pb1 : size W = 32%N -> big_sigma_new pb0 W res r1 r2 r3 = Ok (g, pb1) ->
  exists rb pb2 gs, [/\ allocate_array pb0 32 = (rb, pb2),
    hid (new_all (xor_mk (fun i => lc_nth W ((i + r1) %% 32)) (fun i => lc_nth W ((i + r2) %% 32))
     (fun i => lc_nth W ((i + r3) %% 32)) (fun i => false) (fun i => nth 0%N rb i)) (iota 0 32) pb2 = Ok (gs, pb1)) &
    g = SigmaGadget rb gs (Packing (plcs_of_vars F rb) (plc_of_var F res))].
Proof.
move=> hs; rewrite (big_sigma_newE _ _ _ _ _ hs); case ea: (allocate_array pb0 32) => [rb pb2].
move=> h; have [[gs pb3] e1 [<- <-]] := obind_Ok h; exists rb, pb2, gs.
split; [reflexivity|exact (Hid e1)|reflexivity].
Qed.
Lemma bools_nth_var x vs i : all_bits (plcs_of_vars F vs) x x -> (i < size vs)%N ->
  xval x (nth 0%N vs i) = (nth false (bools x (plcs_of_vars F vs)) i)%:R.
Proof.
move=> h hi; have hi' : (i < size (plcs_of_vars F vs))%N by rewrite size_map.
by rewrite -(lval_nth_bit h hi') /lc_nth (nth_map 0%N) // lval_var.
Qed.

Lemma small_sigma_sound pb0 W res r1 r2 s g pb1 x w :
  small_sigma_new pb0 W res r1 r2 s = Ok (g, pb1) -> pb_wf pb0 ->
  holds (sigma_constraints g) x -> is_word x (plcs_of_vars F W) w ->
  xval x res = wval F (bitsN (xor3_shift (bools x (plcs_of_vars F W)) r1 r2 s)).
Proof.
move=> e hw hc [hs hb _]; rewrite size_map in hs; have [rb [pb2 [gs [ea en eg]]]] := small_sigma_inv hs e.
rewrite eg in hc; clear e eg.
have [a2 erb sz2] := allocate_array_new hw ea; clear ea; have w2 := allocates_wf a2.
have hrb : size rb = 32%N by rewrite erb size_iota.
move: hc; rewrite /sigma_constraints holds_cat /= => -[h1 h2].
set bs := bools x (plcs_of_vars F W).
have hbs : size bs = 32%N by rewrite size_bools size_map.
have hv := xor_loop_sound (a := fun i => rot_bit bs r1 i) (b := fun i => rot_bit bs r2 i)
  (c := fun i => nth false bs (i + s)) w2 (unhid en) h1.
have {}hv : forall i, (i < 32)%N -> xval x (nth 0%N rb i) =
    (rot_bit bs r1 i (+) rot_bit bs r2 i (+) nth false bs (i + s))%:R.
  have ez i : ~~ (31 < i + s)%N && nth false bs (i + s) = nth false bs (i + s).
    case: (leqP 32 (i + s)) => hl /=; last by [].
    by rewrite nth_default // hbs.
  move=> i hi; rewrite (hv _ i hi) ?ez; [reflexivity|clear i hi => i hi].
  rewrite !lval_var !bools_nth_var ?hs ?ltn_mod; try by [].
  split; [reflexivity|reflexivity|rewrite -ltnNge => hl].
  by rewrite hl bools_nth_var // hs.
have hword := is_word_bits hrb hv; have := packing_word h2 hword.
by rewrite /= lval_var.
Qed.

Lemma big_sigma_sound pb0 W res r1 r2 r3 g pb1 x w :
  big_sigma_new pb0 W res r1 r2 r3 = Ok (g, pb1) -> pb_wf pb0 ->
  holds (sigma_constraints g) x -> is_word x W w ->
  xval x res = wval F (bitsN (xor3_bits (bools x W) r1 r2 r3)).
Proof.
move=> e hw hc [hs hb _]; have [rb [pb2 [gs [ea en eg]]]] := big_sigma_inv hs e.
rewrite eg in hc; clear e eg.
have [a2 erb sz2] := allocate_array_new hw ea; clear ea; have w2 := allocates_wf a2.
have hrb : size rb = 32%N by rewrite erb size_iota.
move: hc; rewrite /sigma_constraints holds_cat /= => -[h1 h2].
set bs := bools x W.
have hv := xor_loop_sound (a := fun i => rot_bit bs r1 i) (b := fun i => rot_bit bs r2 i)
  (c := fun i => rot_bit bs r3 i) w2 (unhid en) h1.
have {}hv : forall i, (i < 32)%N -> xval x (nth 0%N rb i) =
    (rot_bit bs r1 i (+) rot_bit bs r2 i (+) rot_bit bs r3 i)%:R.
  move=> i hi; rewrite hv // => j hj.
  by rewrite !lval_nth_bit ?hs ?ltn_mod.
have hword := is_word_bits hrb hv; have := packing_word h2 hword.
by rewrite /= lval_var.
Qed.

Section Gok.
Variables (slot : nat -> linear_combination F) (N K : nat).
Local Notation gok := (gok slot N K).
Local Notation inp := (inp slot N K).
Local Notation inps := (inps slot N K).
Local Notation stable := (stable slot N K).

Lemma outs1 pb P v : (0 < v <= size (pb_values pb))%N -> ~~ P v -> outs pb P [:: v].
Proof. by move=> h1 h2; split=> // w; rewrite inE => /eqP ->. Qed.
Lemma all_bits_nth vs x k : (forall i, (i < size vs)%N -> isbit (xval x (nth 0%N vs i))) -> all_bits (plcs_of_vars F vs) x k.
Proof.
move=> h; rewrite /all_bits all_map; apply/(all_nthP 0%N) => i hi; rewrite /= lval_var; exact: h.
Qed.

(** A loop of XOR3 gadgets whose outputs are then packed. *)
Lemma sigma_gok A B C z pb0 rb pb2 gs pb1 P res : pb_wf pb0 -> allocates pb0 pb2 ->
  rb = fresh_vars pb0 pb2 -> size rb = 32%N ->
  hid (new_all (@xor_mk F A B C z (fun i => nth 0%N rb i)) (iota 0 32) pb2 = Ok (gs, pb1)) ->
  (size (pb_values pb1) <= N)%N -> below pb0 P -> outs pb0 P [:: res] ->
  (forall i, (i < 32)%N -> inps P [:: A i; B i; C i]) ->
  allocates pb0 pb1 /\
  gok P (res :: fresh_vars pb0 pb1) (sigma_witness (SigmaGadget rb gs (Packing (plcs_of_vars F rb) (plc_of_var F res))))
   (sigma_constraints (SigmaGadget rb gs (Packing (plcs_of_vars F rb) (plc_of_var F res))))
   (fun x k => forall i, (i < 32)%N -> bits_ready [:: A i; B i; C i] x k).
Proof.
move=> hw a2 erb srb en hN hb [_ ho] hi; have w2 := allocates_wf a2.
have a3 := xor_all_mono w2 (unhid en).
have s2 := allocates_size a2; have s3 := allocates_size a3; have a13 := allocates_trans a2 a3; split=> //.
have [hr1 hr2] := ho res (mem_head _ _).
have erb' : [seq nth 0%N rb i | i <- iota 0 32] = rb by rewrite -srb map_nth_iota0 // take_size.
have ob : outs pb2 P rb.
  rewrite erb; split; first exact: fresh_uniq.
  move=> v; rewrite mem_fresh // => hv; split; first by lia.
  by apply/negP => /hb; lia.
have bb : below pb2 P by move=> v /hb; lia.
have h1 := xor_loop_gok w2 (unhid en) hN bb _ hi; rewrite erb' in h1.
have {}h1 := h1 ob.
have hst : stable P (fun x k => forall i, (i < 32)%N -> bits_ready [:: A i; B i; C i] x k).
  by move=> m x k x' k' sx sk hs hm h i hin; apply: (stable_ready (hi i hin) sx sk hs hm (h i hin)).
have hmem v : (v \in rb ++ fresh_vars pb2 pb1) = (v \in fresh_vars pb0 pb1).
  by rewrite mem_cat erb !mem_fresh //; lia.
have h2 : gok [predU P & mem (rb ++ fresh_vars pb2 pb1)] [:: res]
  (packing_witness_from_bits (Packing (plcs_of_vars F rb) (plc_of_var F res)))
  (packing_constraints (Packing (plcs_of_vars F rb) (plc_of_var F res)) false) (all_bits (plcs_of_vars F rb)).
  apply: gok_pack; [|by lia|].
    apply: inps_vars; apply/allP => v hv; apply/andP; split; last by apply/orP; right; rewrite /= mem_cat hv.
    by have [h _] := proj2 ob v hv; lia.
  rewrite /= negb_or hr2 /= hmem mem_fresh //; lia.
apply: (gok_conv (gok_seq h1 hst (gok_pre h2 _))) => //.
- move=> x k sx sk [hr hc]; apply: all_bits_nth => i; rewrite srb => hlt.
  have := xor_loop_sound (a := fun i => bit_of (lval x (A i))) (b := fun i => bit_of (lval x (B i)))
    (c := fun i => bit_of (lval x (C i))) w2 (unhid en) hc => -> //; first exact: isbit_nat.
  move=> j hj; have hrj := hr j hj.
  split; try (move=> _); apply: isbitP; apply: (proj1 (hrj _ _)); rewrite /=; tauto.
- move=> v; rewrite inE => /orP [/eqP ->|]; first by split=> //; lia.
  rewrite mem_fresh // => hv; split; first by lia.
  by apply/negP => /hb; lia.
- by move=> v; rewrite mem_cat hmem !inE orbC.
Qed.

Lemma small_sigma_gok P pb0 W res r1 r2 s g pb1 : small_sigma_new pb0 W res r1 r2 s = Ok (g, pb1) -> pb_wf pb0 ->
  size W = 32%N -> (size (pb_values pb1) <= N)%N -> below pb0 P -> outs pb0 P [:: res] -> inps P (plcs_of_vars F W) ->
  allocates pb0 pb1 /\
  gok P (res :: fresh_vars pb0 pb1) (sigma_witness g) (sigma_constraints g) (all_bits (plcs_of_vars F W)).
Proof.
move=> e hw hs hN hb ho hW; have [rb [pb2 [gs [ea en eg]]]] := small_sigma_inv hs e; clear e.
have [a2 erb sz2] := allocate_array_new hw ea; clear ea.
have srb : size rb = 32%N by rewrite erb size_iota.
have erb' : rb = fresh_vars pb0 pb2 by rewrite erb /fresh_vars sz2 addKn.
have hin i : (i < 32)%N -> List.In (plc_of_var F (nth 0%N W i)) (plcs_of_vars F W).
  move=> hi; rewrite -[plc_of_var F _](nth_map 0%N (PbLc false 0%N [::])) ?hs //.
  by apply: (@nth_In_seq (pb_linear_combination F)); rewrite size_map hs.
have h0 : inp P (plc_of_var F 0%N) by apply: inp_var.
have H := sigma_gok hw a2 erb' srb en hN hb ho; rewrite eg.
case: H => [i hi l|h1 h2].
  case=> [<-|[<-|[<-|//]]]; try by apply: hW; apply: hin; rewrite ltn_mod.
  by case: ifP => h; [apply: hW; apply: hin|].
split=> //; apply: (gok_pre h2) => x k sx sk hbits i hi l.
have hr := vars_ready hbits.
case=> [<-|[<-|[<-|//]]]; try by apply: hr; apply: hin; rewrite ltn_mod.
case: ifP => h; first by apply: hr; apply: hin.
split; last by left.
by rewrite lval_var /= /isbit eqxx orbT.
Qed.

Lemma big_sigma_gok P pb0 W res r1 r2 r3 g pb1 : big_sigma_new pb0 W res r1 r2 r3 = Ok (g, pb1) -> pb_wf pb0 ->
  size W = 32%N -> (size (pb_values pb1) <= N)%N -> below pb0 P -> outs pb0 P [:: res] -> inps P W ->
  allocates pb0 pb1 /\
  gok P (res :: fresh_vars pb0 pb1) (sigma_witness g) (sigma_constraints g) (bits_ready W).
Proof.
move=> e hw hs hN hb ho hW; have [rb [pb2 [gs [ea en eg]]]] := big_sigma_inv hs e; clear e.
have [a2 erb sz2] := allocate_array_new hw ea; clear ea.
have srb : size rb = 32%N by rewrite erb size_iota.
have erb' : rb = fresh_vars pb0 pb2 by rewrite erb /fresh_vars sz2 addKn.
have hin i : List.In (lc_nth W (i %% 32)) W by apply: lc_nth_In; rewrite hs ltn_mod.
have H := sigma_gok hw a2 erb' srb en hN hb ho; rewrite eg.
case: H => [i hi l|h1 h2].
  by case=> [<-|[<-|[<-|//]]]; apply: hW.
split=> //; apply: (gok_pre h2) => x k sx sk hr i hi l.
by case=> [<-|[<-|[<-|//]]]; apply: hr.
Qed.
End Gok.
End Word.
