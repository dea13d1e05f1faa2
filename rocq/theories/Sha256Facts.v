(** Facts about the building blocks of the SHA-256 gadget (Sha256Gadget.v). *)
From Coq Require Import NArith.
From mathcomp Require Import all_ssreflect all_algebra zify.
From Verif Require Import Outcome Lincomb LincombSpec LincombFacts R1CS R1CSSpec R1CSFacts Fieldtac.
From Verif Require Import Protoboard GadgetSpec GadgetLogic BasicGadgets BasicGadgetsFacts BasicGadgetsMore GadgetNew.
From Verif Require Import Sha256Spec Sha256Bits Sha256Gadget GadgetSeq.
Set Implicit Arguments.
Unset Strict Implicit.
Unset Printing Implicit Defensive.
Local Open Scope ring_scope.
Import GRing.Theory.
Delimit Scope N_scope with num.

Lemma sub_predU (P : pred nat) (m : seq nat) : subpred P [predU P & mem m].
Proof. by move=> v h; apply/orP; left. Qed.

Section Facts.
Variable F : fieldType.
Variable R : bigint_repr F.
Add Field Ff : (Fth F).
Implicit Types (x k : seq F) (pb : protoboard F) (slot : nat -> linear_combination F).

(** The 32 combinations [ls] hold the word [w]. *)
Definition bools x (ls : pb_linear_combination_array F) : seq bool := [seq bit_of (lval x l) | l <- ls].
Definition is_word x (ls : pb_linear_combination_array F) (w : N) : Prop :=
  [/\ size ls = 32%N, all (fun l => isbit (lval x l)) ls & bitsN (bools x ls) = w].
(** The field element that represents a word. *)
Definition wval (w : N) : F := (N.to_nat w)%:R.

Lemma boolsE x ls : bools x ls = map (@bit_of F) (map (lval x) ls).
Proof. by rewrite /bools -map_comp. Qed.
Lemma size_bools x ls : size (bools x ls) = size ls. Proof. exact: size_map. Qed.
Lemma lval_nth_bit x ls i : all (fun l => isbit (lval x l)) ls -> (i < size ls)%N ->
  lval x (lc_nth ls i) = (nth false (bools x ls) i)%:R.
Proof.
move=> h hi; rewrite (nth_map (PbLc false 0%N [::])) // -/(lc_nth ls i).
by apply: isbitP; move/all_InP: h; apply; apply: lc_nth_In.
Qed.
Lemma pack_word x ls : all (fun l => isbit (lval x l)) ls -> pack (map (lval x) ls) = wval (bitsN (bools x ls)).
Proof.
move=> h; rewrite /wval bitsN_to_nat boolsE pack_bits // all_map; exact: h.
Qed.
Lemma packing_word (g : packing F) x e w :
  holds (packing_constraints g e) x -> is_word x (pk_bits g) w -> lval x (pk_packed g) = wval w.
Proof. by case/packing_constraintsE => -> _ [_ hb <-]; rewrite pack_word. Qed.

(** Bits given one by one. *)
Lemma is_word_bits x vs (f : nat -> bool) : size vs = 32%N ->
  (forall i, (i < 32)%N -> xval x (nth 0%N vs i) = (f i)%:R) ->
  is_word x (plcs_of_vars F vs) (bitsN (map f (iota 0 32))).
Proof.
move=> hs hf.
have e : map (xval x) vs = [seq (f i)%:R | i <- iota 0 32].
  apply: (@eq_from_nth _ 0); first by rewrite !size_map size_iota.
  move=> i; rewrite size_map hs => hi; rewrite (nth_map 0%N) ?hs // hf //.
  by rewrite (nth_map 0%N) ?size_iota // nth_iota.
split.
- by rewrite size_map.
- rewrite -(all_map (lval x) (@isbit F)) lval_vars e all_map; apply/allP => i _ /=; exact: isbit_nat.
rewrite boolsE lval_vars e -map_comp; congr bitsN.
by apply: eq_map => i /=; rewrite bit_of_nat.
Qed.

(** * lastbits *)
Lemma pow32 : (2 ^ 32 = 2 ^ size (nseq 32 true))%N. Proof. by rewrite size_nseq. Qed.

Lemma lastbits_sound pb0 pb1 X Xb res rbits g x n :
  lastbits_new pb0 X Xb res rbits = (g, pb1) -> pb_wf pb0 -> size rbits = 32%N -> (32 <= Xb)%N ->
  (2 ^ Xb <= fp_order R)%N -> xval x X = n%:R -> (n < 2 ^ Xb)%N ->
  holds (lastbits_constraints g) x ->
  is_word x (plcs_of_vars F rbits) (N.of_nat (n %% 2 ^ 32)) /\ xval x res = wval (N.of_nat (n %% 2 ^ 32)).
Proof.
rewrite /lastbits_new; case e: (allocate_array pb0 _) => [ov pb] [<- _] hw hs hX hp hn hlt.
have [_ eov _] := allocate_array_new hw e.
rewrite /lastbits_constraints holds_cat /= => -[/packing_constraintsE [h1 /(_ isT) h2] h3].
rewrite /= in h1 h2; rewrite lval_var in h1.
have hsz : size (rbits ++ ov) = Xb by rewrite size_cat eov size_iota hs; lia.
have hb : all (fun l => isbit (lval x l)) (plcs_of_vars F rbits).
  by move: h2; rewrite /plcs_of_vars map_cat all_cat => /andP [].
have hnat : bits_nat (bools x (plcs_of_vars F (rbits ++ ov))) = n.
  apply: (@natF_inj F R); last 1 first.
  - by rewrite -hn h1 pack_bits ?boolsE // all_map; apply: h2.
  - apply: leq_trans hp; apply: leq_trans (bits_nat_lt _) _; rewrite size_bools size_map hsz //.
  - exact: leq_trans hlt hp.
have hmod : bits_nat (bools x (plcs_of_vars F rbits)) = (n %% 2 ^ 32)%N.
  rewrite -hnat -bits_nat_mod; last by rewrite size_bools size_map hsz.
  by congr bits_nat; rewrite /bools /plcs_of_vars !map_cat take_size_cat // !size_map.
have hwd : is_word x (plcs_of_vars F rbits) (N.of_nat (n %% 2 ^ 32)).
  by split; rewrite ?size_map // bitsN_nat hmod.
by split=> //; have := packing_word h3 hwd; rewrite /= lval_var.
Qed.

(** * XOR3 *)
Lemma xor_field (a b : bool) : (a%:R + b%:R - 2%:R * a%:R * b%:R : F) = (a (+) b)%:R.
Proof. by case: a; case: b => /=; fring F. Qed.

Lemma xor3_sound (g : xor3 F) x (a b c : bool) :
  holds (xor3_constraints g) x -> lval x (x3_A g) = a%:R -> lval x (x3_B g) = b%:R ->
  (~~ x3_zero g -> lval x (x3_C g) = c%:R) ->
  xval x (x3_out g) = (a (+) b (+) (~~ x3_zero g && c))%:R.
Proof.
rewrite /xor3_constraints /lval; case: (x3_zero g) => /=.
  rewrite holds_cons holds_nil /constraint_holds /= !fsE /= => -[h _] ha hb _.
  rewrite addbF -xor_field; move: h; rewrite ha hb; move: (xval x _) => o h.
  have -> : o = a%:R + b%:R - (a%:R + b%:R - o) by fring F.
  by rewrite -h; fring F.
rewrite !holds_cons holds_nil /constraint_holds /= !fsE /= => -[h1 [h2 _]] ha hb hc.
rewrite -!xor_field; move: h1 h2; rewrite ha hb (hc isT).
move: (xval x (x3_tmp g)) (xval x (x3_out g)) => t o h1 h2.
have et : t = a%:R + b%:R - 2%:R * a%:R * b%:R.
  have -> : t = a%:R + b%:R - (a%:R + b%:R - t) by fring F.
  by rewrite -h1; fring F.
rewrite -et; have -> : o = t + c%:R - (t + c%:R - o) by fring F.
by rewrite -h2; fring F.
Qed.

Section Gok.
Variables (slot : nat -> linear_combination F) (N K : nat).
Local Notation gok := (gok slot N K).
Local Notation inp := (inp slot N K).
Local Notation inps := (inps slot N K).
Local Notation stable := (stable slot N K).
Implicit Types (P : pred nat).

Definition x3_mods (g : xor3 F) : seq nat := if x3_zero g then [:: x3_out g] else [:: x3_tmp g; x3_out g].

(** All inputs have up-to-date values. *)
Definition up_to_date (ls : pb_linear_combination_array F) x k : Prop := forall l, List.In l ls -> cached x k l.

Lemma put_lval x v a l : (v <= size x)%N -> avoids [:: v] (lc_terms l) -> lval (put x v a) l = lval x l.
Proof. by move=> hv ha; rewrite /lval (changes_fs (changes_put a hv) ha). Qed.

Lemma xor3_gok P (g : xor3 F) : inp P (x3_A g) -> inp P (x3_B g) -> inp P (x3_C g) ->
  outside N P (x3_mods g) -> uniq (x3_mods g) ->
  gok P (x3_mods g) (xor3_witness g) (xor3_constraints g) (up_to_date [:: x3_A g; x3_B g; x3_C g]).
Proof.
case: g => A B C z t o; rewrite /x3_mods /= => -[pA wA] [pB wB] [pC wC]; case: z => /= ho hu.
- have [hv hP] := ho o (mem_head _ _).
  have sub : subpred P [predU P & mem [:: o]] by exact: sub_predU.
  apply: (@gok_set F slot N K P o _ _ _ (fun x => lval x A + lval x B - 2%:R * lval x A * lval x B)) => //.
  + by rewrite /cs_within /= /cwithin /= !wiE !(within_sub sub) //= !inE eqxx !orbT.
  + move=> pb x k sx sk hc; rewrite /xor3_witness /=; rewrite -sx -sk in pA pB.
    rewrite (read_cached pb pA) ?(read_cached pb pB) //; apply: hc; rewrite /=; tauto.
  + move=> x k sx sk hc; rewrite /xor3_constraints /= holds_cons holds_nil; split=> //.
    rewrite /constraint_holds /= !fsE /= xval_put_eq ?sx //.
    have hm : outside N P [:: o] by [].
    have hs : (o <= size x)%N by rewrite sx; lia.
    rewrite -!/(lval _ A) -!/(lval _ B) !put_lval ?(avoids_within hm) //; fring F.
have [hv1 hP1] := ho t (mem_head _ _).
have [hv2 hP2] : (0 < o <= N)%N /\ ~~ P o by apply: ho; rewrite !inE eqxx orbT.
have hne : t != o by move: hu; rewrite inE => /andP [].
split=> //.
  have sub : subpred P [predU P & mem [:: t; o]] by exact: sub_predU.
  by rewrite /cs_within /= /cwithin /= !wiE !(within_sub sub) //= !inE !eqxx !orbT.
move=> pb x k sx sk hc.
set u := lval x A + lval x B - 2%:R * lval x A * lval x B.
set w := u + lval x C - 2%:R * u * lval x C.
have hv1' : (0 < t <= size x)%N by rewrite sx.
have hv2' : (0 < o <= size x)%N by rewrite sx.
have [cc vt vo] := @put2 F x t o u w hv1' hv2' hne.
have hm1 : outside N P [:: t] by move=> v; rewrite inE => /eqP ->.
have st : size (put x t u) = size x by apply: size_put; lia.
exists (put (put x t u) o w), k; rewrite -sx -sk in pA pB pC; split.
- rewrite /xor3_witness /= (read_cached pb pA); last by apply: hc; rewrite /=; tauto.
  rewrite /= (read_cached pb pB) /=; last by apply: hc; rewrite /=; tauto.
  rewrite pb_set_upd //= pb_val_upd ?st /=; last by lia.
  have w1 : wstep slot [:: t] x k (put x t u) k by apply: wstep_put; lia.
  rewrite (read_cached pb (wstep_proper w1 pC)); last first.
    apply: (wstep_cached w1 pC); first exact: (avoids_within hm1 wC).
    by apply: hc; rewrite /=; tauto.
  rewrite /= pb_set_upd ?st // xval_put_eq // put_lval ?(avoids_within hm1) //; lia.
- exact: wstep_changes.
rewrite /xor3_constraints /= !holds_cons holds_nil /constraint_holds /= !fsE /=.
rewrite vt vo !(changes_fs cc (avoids_within ho _)) // -!/(lval x _).
by rewrite /w /u; split; [fring F|split=> //; fring F].
Qed.


(** ** Loops of XOR3 gadgets *)
Section XorLoop.
Variables (A B C : nat -> pb_linear_combination F) (z : nat -> bool) (o : nat -> nat).
Definition xor_mk (i : nat) pb : outcome (xor3 F * protoboard F) := Ok (xor3_new pb (A i) (B i) (C i) (z i) (o i)).

Lemma xor3_new_spec pb0 i g pb1 : pb_wf pb0 -> xor_mk i pb0 = Ok (g, pb1) ->
  [/\ allocates pb0 pb1, exists t, g = Xor3 (A i) (B i) (C i) (z i) t (o i) &
      x3_mods g =i o i :: fresh_vars pb0 pb1 /\
      (uniq (o i :: fresh_vars pb0 pb1) -> uniq (x3_mods g))].
Proof.
move=> hw; rewrite /xor_mk /xor3_new; case e: (allocate_var pb0) => [t pb].
case: ifP => hz.
  case=> <- <-; split; first exact: allocates_refl.
    by exists 0%N.
  by rewrite /x3_mods /= /fresh_vars subnn.
case=> <- <-; have [h1 h2 h3] := allocate_var_new hw e; split=> //; first by exists t.
rewrite /x3_mods /= /fresh_vars h3 subSnn /= h2; split; first by move=> v; rewrite !inE orbC.
by rewrite !inE eq_sym.
Qed.

Lemma xor_loop_spec pb0 n gs pb1 : pb_wf pb0 -> new_all xor_mk (iota 0 n) pb0 = Ok (gs, pb1) ->
  allocates pb0 pb1 /\
  forall i, (i < n)%N -> exists t, List.In (Xor3 (A i) (B i) (C i) (z i) t (o i)) gs.
Proof.
move=> hw e; have := new_all_ind (Inv := fun ts gs s => allocates pb0 s /\
  forall i, i \in ts -> exists t, List.In (Xor3 (A i) (B i) (C i) (z i) t (o i)) gs) _ _ e.
case=> [||h1 h2]; last by split=> // i hi; apply: h2; rewrite mem_iota.
  by split=> //; apply: allocates_refl.
move=> ts1 i ts2 gs1 s g s' _ _ [ha hi] e1.
have [a1 [t eg] _] := xor3_new_spec (allocates_wf ha) e1; split; first exact: allocates_trans ha a1.
move=> j; rewrite mem_rcons inE => /orP [/eqP ->|/hi [u hu]].
  by exists t; rewrite -cats1 List.in_app_iff -eg; right; left.
by exists u; rewrite -cats1 List.in_app_iff; left.
Qed.

Lemma xor_all_mono ts pb0 gs pb1 : pb_wf pb0 -> new_all xor_mk ts pb0 = Ok (gs, pb1) -> allocates pb0 pb1.
Proof.
move=> hw; apply: (new_all_ind (Inv := fun ts gs s => allocates pb0 s)); first exact: allocates_refl.
move=> ts1 i ts2 gs1 s g s' _ _ ha e1; have [a1 _ _] := xor3_new_spec (allocates_wf ha) e1.
exact: allocates_trans ha a1.
Qed.

Lemma xor_loop_gok P pb0 n gs pb1 : pb_wf pb0 -> new_all xor_mk (iota 0 n) pb0 = Ok (gs, pb1) ->
  (size (pb_values pb1) <= N)%N -> below pb0 P -> outs pb0 P (map o (iota 0 n)) ->
  (forall i, (i < n)%N -> inps P [:: A i; B i; C i]) ->
  gok P (map o (iota 0 n) ++ fresh_vars pb0 pb1) (fun pb => ofold (fun pb g => xor3_witness g pb) pb gs)
    (flatten (map (@xor3_constraints F) gs)) (fun x k => forall i, (i < n)%N -> bits_ready [:: A i; B i; C i] x k).
Proof.
move=> hw e hN hb ho hi.
apply: (@gok_new_all F slot N K _ _ _ xor_mk _ _ (fun ts s => map o ts ++ fresh_vars pb0 s)) e.
- move=> m x k x' k' sx sk hs hm h i hin; apply: (stable_ready (hi i hin) sx sk hs hm (h i hin)).
- by rewrite /fresh_vars subnn.
move=> ts1 i ts2 gs1 s g s' gs2 ets e1 e2 e3 _.
have a1 := xor_all_mono hw e1; have w1 := allocates_wf a1.
have [a2 [t eg] [hm hu]] := xor3_new_spec w1 e2.
have a3 := xor_all_mono (allocates_wf a2) e3.
have s2 := allocates_size a2; have s3 := allocates_size a3; have s1 := allocates_size a1.
have [ei [ei' hlt]] := iota_split ets; rewrite add0n in ei'.
have hin : i \in iota 0 n by rewrite mem_iota; lia.
have hni : i \notin ts1 by rewrite ei mem_iota; lia.
have [hi1 hi2] : (0 < o i <= size (pb_values pb0))%N /\ ~~ P (o i) by apply: (proj2 ho); apply: map_f.
have hoi : o i \notin map o ts1.
  have := proj1 ho; rewrite ets map_cat cat_uniq /= => /and3P [_ /norP [h _] _]; exact: h.
have hun : uniq (x3_mods g).
  by apply: hu; rewrite /= fresh_uniq andbT mem_fresh //; lia.
have hout : outside N [predU P & mem (map o ts1 ++ fresh_vars pb0 s)] (x3_mods g).
  move=> v; rewrite hm inE => /orP [/eqP ->|].
    split; first by lia.
    rewrite /= negb_or hi2 /= mem_cat negb_or hoi mem_fresh //; lia.
  rewrite mem_fresh // => hv; split; first by lia.
  rewrite /= negb_or; apply/andP; split; first by apply/negP => /hb; lia.
  rewrite mem_cat mem_fresh // negb_or; apply/andP; split; last by lia.
  apply/negP => /mapP [j hj ev]; have : o j \in map o (iota 0 n).
    by apply: map_f; rewrite ets mem_cat hj.
  by move/(proj2 ho) => []; rewrite -ev; lia.
have hlt' : (i < n)%N by lia.
have hsub := @sub_predU P (map o ts1 ++ fresh_vars pb0 s).
exists (x3_mods g); split; last first.
  move=> v; rewrite map_rcons mem_cat mem_rcons inE mem_cat hm mem_cat inE (fresh_cat a1 a2) mem_cat.
  by case: (v == o i); case: (v \in map o ts1); rewrite /= ?orbT.
have hA : forall l, List.In l [:: x3_A g; x3_B g; x3_C g] -> inp [predU P & mem (map o ts1 ++ fresh_vars pb0 s)] l.
  by rewrite eg /= => l hl; apply: (inp_sub hsub); apply: (hi i hlt').
apply: gok_pre (xor3_gok _ _ _ hout hun) _; try by apply: hA; rewrite /=; tauto.
move=> x k sx sk [h _] l; rewrite eg => hl; by case: (h i hlt' l hl).
Qed.
End XorLoop.
End Gok.
End Facts.
