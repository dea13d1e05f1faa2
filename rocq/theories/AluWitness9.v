(** Witness generation of the shift gadget.  Models nothing of /repo. *)
From mathcomp Require Import all_ssreflect all_algebra zify.
From Verif Require Import Outcome Lincomb LincombSpec LincombFacts R1CS R1CSSpec R1CSFacts Fieldtac.
From Verif Require Import Protoboard GadgetSpec GadgetLogic BasicGadgets BasicGadgetsFacts BasicGadgetsMore.
From Verif Require Import BasicGadgetsCopy GadgetNew GadgetSeq Prop_Gadgets MemoryCheckerFacts Benes.
From Verif Require Import Alu AluSpec AluFacts AluSound AluSound2 AluShift.
From Verif Require Import AluWitness AluWitness2 AluWitness3 AluWitness4 AluWitness5 AluWitness6 AluWitness7 AluWitness8.
Set Implicit Arguments.
Unset Strict Implicit.
Unset Printing Implicit Defensive.
Local Open Scope ring_scope.
Import GRing.Theory.

Section Witness.
Variable F : fieldType.
Variable R : bigint_repr F.
Add Field Ff : (Fth F).
Implicit Types (x : seq F) (pb : protoboard F).
Let bit (b : bool) : F := (nat_of_bool b)%:R.
Let size_of pb := size (pb_values pb).

Lemma step_fill pb vs (n : nat) : pb_wf pb -> uniq vs -> all (is_var pb) vs -> (n < 2 ^ size vs)%N ->
  exists pb' bs, [/\ fill_with_bits_of pb vs n = Ok pb', assigns vs pb pb',
    bits_are (pb_values pb') vs bs & bits_nat bs = n].
Proof.
move=> hw hu hvs hn.
have [x' [h1 h2 h3]] := @fill_bits_ok F pb (pb_values pb) (pb_lc_values pb) vs n (conj hu hvs).
rewrite (board_of hw) in h1; set q := upd pb x' (pb_lc_values pb) in h1.
have hq : assigns vs pb q by apply: (assigns_upd (slot := fun=> [::]) hw); exact: wstep_changes h2.
exists q, [seq test_bit n i | i <- iota 0 (size vs)]; split=> //.
- rewrite -h1 /fill_with_bits_of /lcs_fill_with_bits_of /plcs_of_vars size_map.
  elim: vs (iota 0 (size vs)) pb {hw hu hvs hn x' h1 h2 h3 q hq} => [|v vs IH] [|i js] pb //=.
  by rewrite /pb_lc_set /=; case: (pb_set pb v _) => //= pb'.
- by rewrite /bits_are -map_comp; exact: h3.
by rewrite bits_nat_test_bit modn_small.
Qed.

Lemma allocate_outs_new pb i n outs pb' : pb_wf pb -> allocate_outs pb i n = (outs, pb') ->
  [/\ pb_wf pb', size (pb_values pb') = (size (pb_values pb) + (2 ^ (i + n) - 2 ^ i))%N &
      forall j, (j < n)%N -> nth [::] outs j = iota (size (pb_values pb) + (2 ^ (i + j) - 2 ^ i)).+1 (2 ^ (i + j))].
Proof.
elim: n pb i outs => [|n IH] pb i outs hw /=; first by case=> _ <-; rewrite addn0 subnn addn0.
case e1: (allocate_array pb _) => [a b1]; have [h1 ea s1] := allocate_array_new hw e1.
case e2: (allocate_outs b1 _ _) => [r b2] [<- eb]; rewrite eb in e2; have [h2 h3 h4] := IH _ _ _ (allocates_wf h1) e2.
have hle m : (2 ^ i.+1 <= 2 ^ (i.+1 + m))%N by rewrite leq_pexp2l // leq_addr.
have e2i : (2 ^ i.+1 = 2 ^ i + 2 ^ i)%N by rewrite expnS mul2n addnn.
split=> //.
  rewrite h3 s1 -addSnnS; have := hle n; rewrite e2i; move: (2 ^ (_ + n))%N (2 ^ i)%N; clear; lia.
case=> [|j] /= hj; first by rewrite addn0 subnn addn0.
rewrite h4 // s1 -addSnnS; congr (iota _.+1 _); have := hle j; rewrite e2i; move: (2 ^ (_ + j))%N (2 ^ i)%N; clear; lia.
Qed.

(** The barrel: stage [i] reads barrel variable [i] and writes barrel variable [i+1] and the bits shifted out. *)
(** The body of the loop in [alu_shift_witness] *)
Definition barrel_step arg2 (g : alu_shift) (pb : protoboard F) (i : nat) : outcome (protoboard F) :=
  let! b := pb_val pb (nth ONE (dv_bits arg2) i) in
  let! v := pb_val pb (barrel_at g i) in
  let! pb := pb_set pb (barrel_at g i.+1) (if b == 0 then v else (as_bigint R v %/ 2 ^ i.+1)%:R) in
  fill_with_bits_of pb (nth [::] (sh_out_bits g) i) (as_bigint R v %% 2 ^ i.+1).
Lemma barrel_ok pb arg2 g B L cs (v0 : nat) : pb_wf pb ->
  (forall i, (i <= L)%N -> barrel_at g i = (B + i)%N) ->
  (forall i, (i < L)%N -> nth [::] (sh_out_bits g) i = iota (B + L + 2 ^ i) (2 ^ i)) ->
  (0 < B)%N -> (B + L + 2 ^ L <= (size (pb_values pb)).+1)%N ->
  (L <= size (dv_bits arg2))%N -> all (fun v => v < B)%N (dv_bits arg2) ->
  bits_are (pb_values pb) (dv_bits arg2) cs -> xval (pb_values pb) B = v0%:R -> (v0 < fp_order R)%N ->
  exists pb' (v : nat), [/\ ofold (barrel_step arg2 g) pb (iota 0 L) = Ok pb',
    assigns (iota B.+1 (L + 2 ^ L)%N.-1) pb pb', xval (pb_values pb') (B + L)%N = v%:R, (v <= v0)%N &
    forall i, (i < L)%N -> holds (alu_shift_step F arg2 g i) (pb_values pb')].
Proof.
move=> hw hB hO B0 hsz hL ha hb e0 hv0.
have hpw i : (i < L)%N -> (2 ^ i + 2 ^ i <= 2 ^ L)%N.
  by move=> hi; rewrite addnn -mul2n -expnS leq_pexp2l.
have hp1 i : (i < 2 ^ i)%N by exact: ltn_expl.
suff gen : forall k, (k <= L)%N -> exists pb' (v : nat), [/\ ofold (barrel_step arg2 g) pb (iota 0 k) = Ok pb',
    assigns (iota B.+1 (L + 2 ^ L)%N.-1) pb pb', xval (pb_values pb') (B + k)%N = v%:R, (v <= v0)%N &
    forall i, (i < k)%N -> holds (alu_shift_step F arg2 g i) (pb_values pb')] by exact: gen.
elim=> [|k IH] hk.
  exists pb, v0; split=> //; last by rewrite addn0.
have [pb1 [v [E A V Vle H]]] := IH (ltnW hk).
have z := assigns_sz A; have hw1 := assigns_wf A.
have hkL : (k <= L)%N := ltnW hk.
have P2 := hpw _ hk; have Pk := hp1 k.
have hin : nth ONE (dv_bits arg2) k \in dv_bits arg2 by apply: mem_nth; exact: leq_trans hk hL.
have hlt := allP ha _ hin.
have kcs : (k < size cs)%N by rewrite -(bits_size hb); exact: leq_trans hk hL.
have eb : xval (pb_values pb1) (nth ONE (dv_bits arg2) k) = bit (nth false cs k).
  rewrite (assigns_val A); last by rewrite mem_iota; move: hlt; clear; lia.
  by have := bits_nth hb kcs; rewrite (set_nth_default 0%N) ?(bits_size hb).
rewrite -addn1 iotaD ofold_cat E; cbn [obind iota ofold]; rewrite add0n.
rewrite {1}/barrel_step (pb_val_ok hw1); last by rewrite z; move: hlt hsz; move: (2 ^ L)%N; clear; lia.
cbn [obind]; rewrite (hB k) // (hB k.+1) // (pb_val_ok hw1); last by rewrite z; move: hsz hk P2 Pk; move: (2 ^ L)%N (2 ^ k)%N; clear; lia.
cbn [obind]; rewrite eb V as_bigint_nat; last by exact: leq_ltn_trans Vle hv0.
have eb0 : (bit (nth false cs k) == 0 :> F) = ~~ nth false cs k by case: (nth _ _ _); rewrite /bit /= ?oner_eq0 ?eqxx.
rewrite eb0.
set q := (v %/ 2 ^ k.+1)%N; set r := (v %% 2 ^ k.+1)%N; set c := nth false cs k.
have [|pc [-> a1 x1]] := step_set (pb := pb1) (v := (B + k.+1)%N) (if ~~ c then v%:R else q%:R) hw1.
  by rewrite /is_var z; move: hsz hk P2 Pk; move: (2 ^ L)%N (2 ^ k)%N; clear; lia.
cbn [obind]; have z1 := assigns_sz a1; rewrite z in z1.
rewrite hO //; set out := iota _ _.
have hr : (r < 2 ^ size out)%N.
  rewrite size_iota; apply: (@leq_trans (2 ^ k.+1)); first by rewrite ltn_mod expn_gt0.
  by rewrite leq_pexp2l.
have mo u : u \in out -> (B + L + 2 ^ k <= u < B + L + 2 ^ k + 2 ^ k)%N by rewrite mem_iota.
have [|pd [ds [E2 a2 hb2 ed]]] := step_fill (assigns_wf a1) (iota_uniq _ _ : uniq out) _ hr.
  apply/allP => u /mo; rewrite /is_var z1; move: hsz P2; move: (2 ^ L)%N (2 ^ k)%N; clear; lia.
rewrite E2; cbn [obind].
have A2 := assigns_cat A (assigns_cat a1 a2).
have K u : (u <= B + k)%N || ((B + L < u)%N && (u < B + L + 2 ^ k)%N) -> xval (pb_values pd) u = xval (pb_values pb1) u.
  move=> hu; apply: (assigns_val (assigns_cat a1 a2)); rewrite mem_cat inE negb_or; apply/andP; split.
    by move: hu hk; clear; lia.
  by apply/negP => /mo; move: hu hk; clear; lia.
have XB : xval (pb_values pd) (B + k.+1)%N = (if ~~ c then v else q)%:R.
  by rewrite (assigns_val a2); [rewrite [LHS]x1; case: (c)|apply/negP => /mo; move: hk Pk; clear; lia].
exists pd, (if ~~ c then v else q); split=> //.
- apply: (assigns_sub _ A2) => u; rewrite !mem_cat inE -/out => /or3P [//|/eqP ->|/mo].
    by rewrite mem_iota; move: hk P2 Pk; move: (2 ^ L)%N (2 ^ k)%N; clear; lia.
  by rewrite mem_iota; move: hk P2 Pk; move: (2 ^ L)%N (2 ^ k)%N; clear; lia.
- by rewrite addn1.
- by case: (c) => //=; apply: leq_trans (leq_div _ _) Vle.
move=> i; rewrite addn1 ltnS => hik.
have hiL : (i < L)%N := leq_ltn_trans hik hk.
have sz i' : (i' < L)%N -> size (nth [::] (sh_out_bits g) i') = (2 ^ i')%N by move=> h; rewrite hO // size_iota.
apply/(shift_step_iff arg2 pd.(pb_values) (sz i hiL)); rewrite (hB i) ?(hB i.+1) //; last exact: ltnW.
rewrite hO //.
have keep2 j : xval (pb_values pd) (nth ONE (dv_bits arg2) j) = xval (pb_values pb1) (nth ONE (dv_bits arg2) j).
  apply: K; case: (ltnP j (size (dv_bits arg2))) => hj; last by rewrite nth_default //.
  by have /= hj' := allP ha _ (mem_nth ONE hj); rewrite (leq_trans (ltnW hj')) // leq_addr.
case: (ltngtP i k) hik => [hik _|//|-> _]; last first.
  rewrite -/out keep2 eb -/c XB K; last by rewrite leqnn.
  rewrite V (pack_are hb2) ed; split.
    by apply/allP => u /(map_f (xval (pb_values pd))); rewrite hb2 => /mapP [b _ ->]; case: b; rewrite /isbit /= ?eqxx ?orbT.
  case: (c); rewrite /bit /= ?mulr1 ?mulr0 ?subrr //.
  have -> : v%:R = 2%:R ^+ k.+1 * q%:R + r%:R :> F by rewrite [v in LHS](divn_eq v (2 ^ k.+1)) -/q -/r natrD natrM natrX mulrC.
  by move: (2%:R ^+ k.+1 : F) (q%:R : F) (r%:R : F); clear => X Y Z; fring F.
have Pik : (2 ^ i + 2 ^ i <= 2 ^ k)%N by rewrite addnn -mul2n -expnS leq_pexp2l.
have Pi : (0 < 2 ^ i)%N by rewrite expn_gt0.
have := proj1 (shift_step_iff arg2 pb1.(pb_values) (sz i hiL)) (H i hik).
rewrite (hB i) ?(hB i.+1) //; last exact: ltnW.
rewrite hO // keep2 !K; [|by move: hik; clear; lia|by move: hik; clear; lia].
have em : map (xval (pb_values pd)) (iota (B + L + 2 ^ i) (2 ^ i)) = map (xval (pb_values pb1)) (iota (B + L + 2 ^ i) (2 ^ i)).
  by apply/eq_in_map => u; rewrite mem_iota => hu; apply: K; move: hu Pik Pi; move: (2 ^ i)%N (2 ^ k)%N; clear; lia.
by rewrite em -!(all_map (xval _) (@isbit F)) em.
Qed.

Lemma later_sooner pb0 pb1 pb : allocates pb0 pb1 -> later pb1 pb -> later pb0 pb.
Proof.
case=> _ [zs e1] [zs' e2] _ [hw]; rewrite e1 e2 !size_cat => h1 h2.
by split; [|exact: leq_trans (leq_addr _ _) h1|exact: leq_trans (leq_addr _ _) h2].
Qed.

(** ** shr, shl *)
Lemma shift_witnessE w (shr : nat) arg1 arg2 o g pb : alu_shift_witness R w shr arg1 arg2 o g pb =
  let! pb := packing_witness_from_bits (pv F (rev (dv_bits arg1)) (sh_reversed_input g)) pb in
  let! s := pb_val pb shr in
  let! v := pb_val pb (if s == 1 then dv_packed arg1 else sh_reversed_input g) in
  let! pb := pb_set pb (barrel_at g 0) v in
  let! pb := ofold (barrel_step arg2 g) pb (iota 0 (ceil_log2 w)) in
  let! pb := disjunction_witness (sh_check g) pb in
  let! over := pb_val pb (sh_oversize g) in
  let! v := pb_val pb (barrel_at g (ceil_log2 w)) in
  let! pb := pb_set pb (sh_result g) ((1 - over) * v) in
  let! pb := packing_witness_from_packed R (pv F (sh_result_bits g) (sh_result g)) pb in
  let! pb := packing_witness_from_bits (pv F (rev (sh_result_bits g)) (sh_reversed_result g)) pb in
  let! v := pb_val pb (if s == 1 then sh_result g else sh_reversed_result g) in
  let! pb := pb_set pb (so_shr o) v in
  let! pb := pb_set pb (so_shl o) v in
  let! b0 := pb_val pb (head ONE (dv_bits arg1)) in
  let! pb := pb_set pb (so_shr_flag o) b0 in
  let! bt := pb_val pb (top_bit arg1) in
  pb_set pb (so_shl_flag o) bt.
Proof. by []. Qed.
Definition shift_vars (o : shift_outs) : seq nat := [:: so_shr o; so_shr_flag o; so_shl o; so_shl_flag o].
Lemma shift_ok pb0 pb1 pb w (shr : nat) (s : bool) arg1 arg2 o g bs cs :
  pb_wf pb0 -> alu_shift_new pb0 w arg2 = Ok (g, pb1) -> later pb1 pb -> (0 < w)%N -> (2 ^ w <= fp_order R)%N ->
  all (is_var pb0) (shift_vars o) -> uniq (shift_vars o) -> all (operand pb0 (shift_vars o)) [:: arg1; arg2] ->
  (shr <= size (pb_values pb0))%N -> shr \notin shift_vars o -> xval (pb_values pb) shr = bit s ->
  size bs = w -> size cs = w -> is_word (pb_values pb) arg1 bs -> is_word (pb_values pb) arg2 cs ->
  exists pb', [/\ alu_shift_witness R w shr arg1 arg2 o g pb = Ok pb', assigns (shift_vars o ++ fresh_vars pb0 pb1) pb pb',
    holds (alu_shift_constraints F w shr arg1 arg2 o g) (pb_values pb') &
    xval (pb_values pb') (so_shl o) = xval (pb_values pb') (so_shr o)].
Proof.
rewrite /alu_shift_new /shift_vars; case: o => sr srf sl slf; cbn [so_shr so_shr_flag so_shl so_shl_flag].
move=> hw hnew hlat w0 hp hv hu ho hshr nshr eshr sb sc w1 w2.
case/andP: ho => o1 /andP [o2 _].
have hLw : (ceil_log2 w <= w)%N by apply: up_log_min => //; apply: ltnW; exact: ltn_expl.
rewrite shift_witnessE; cbn [so_shr so_shr_flag so_shl so_shl_flag].
move: hnew.
case e1: (allocate_var pb0) => [ri q1]; have [h1 eri s1] := allocate_var_new hw e1.
case e2: (allocate_array q1 _) => [ba q2]; have [h2 eba s2] := allocate_array_new (allocates_wf h1) e2.
case e3: (allocate_outs q2 _ _) => [ou q3]; have [h3 s3 eou] := allocate_outs_new (allocates_wf h2) e3.
case e4: (allocate_var q3) => [ov q4]; have [h4 eov s4] := allocate_var_new h3 e4.
case e5: (disjunction_new _ _ _) => [[d q5]| |] //; cbn [obind fst snd].
have [_ h5 ei eo efr] := disjunction_new_spec (allocates_wf h4) e5.
have s5 : size (pb_values q5) = (size (pb_values q4)).+1.
  by have := congr1 size efr; have := allocates_size h5; rewrite size_iota /=; clear; lia.
case e6: (allocate_var q5) => [re q6]; have [h6 ere s6] := allocate_var_new (allocates_wf h5) e6.
case e7: (allocate_array q6 _) => [rb q7]; have [h7 erb s7] := allocate_array_new (allocates_wf h6) e7.
case e8: (allocate_var q7) => [rr q8]; have [h8 err s8] := allocate_var_new (allocates_wf h7) e8.
move=> heq; have {heq} [eg eq] : AluShift ri ba ou ov d re rb rr = g /\ q8 = pb1 by case: heq.
rewrite -eq {pb1 eq} in hlat *.
set L := ceil_log2 w in hLw s3 eou e5 ei eba s2 e2 e3 *.
rewrite s1 in eba s2; rewrite s2 in s3 eou; rewrite add0n expn0 in s3.
have P1 : (0 < 2 ^ L)%N by rewrite expn_gt0.
set N := size (pb_values pb0) in hshr eri s1 eba s2 s3 eou.
set Q := (N.+1 + L.+1 + (2 ^ L - 1))%N in s3.
rewrite s3 in eov s4; rewrite s4 in s5; rewrite s5 in ere s6; rewrite s6 in erb s7; rewrite s7 in err s8.
set outs := [:: sr; srf; sl; slf] in hv hu o1 o2 nshr.
have hv' v : v \in outs -> (0 < v <= N)%N by move/(allP hv).
case: (hlat) => hwp hl _; rewrite s8 in hl.
have hNQ : (N.+1 < Q)%N by rewrite /Q; move: P1; clear; lia.
have eQ : (N.+2 + L + 2 ^ L = Q.+1)%N by rewrite /Q; move: P1; clear; lia.
have p1 : (dv_packed arg1 <= N)%N := operand_le o1.
have l1 : all (fun v => v <= N)%N (dv_bits arg1) := operand_bits_le o1.
have l2 : all (fun v => v <= N)%N (dv_bits arg2) := operand_bits_le o2.
have egB i : (i <= L)%N -> barrel_at g i = (N.+2 + i)%N by move=> hi; rewrite -eg /barrel_at /= eba nth_iota.
have egO i : (i < L)%N -> nth [::] (sh_out_bits g) i = iota (N.+2 + L + 2 ^ i) (2 ^ i).
  move=> hi; rewrite -eg /= eou // add0n; congr iota; have : (0 < 2 ^ i)%N by rewrite expn_gt0.
  by move: (2 ^ i)%N; clear; lia.
have [gri gov gd gre [grb grr]] : [/\ sh_reversed_input g = ri, sh_oversize g = ov, sh_check g = d, sh_result g = re &
    sh_result_bits g = rb /\ sh_reversed_result g = rr] by rewrite -eg.
rewrite gri gov gd gre grb grr (egB 0%N) // (egB L) // addn0.
have [b1 v1] := w1; have [b2 v2] := w2.
have up pb' v : size (pb_values pb') = size (pb_values pb) -> v \in outs -> is_var pb' v.
  by move=> e /hv'; rewrite /is_var e; move: hl hNQ; clear; lia.
have [osr osrf osl oslf] : [/\ sr \in outs, srf \in outs, sl \in outs & slf \in outs] by rewrite !inE !eqxx !orbT.
have high v u : (N < v)%N -> u \in outs -> v != u.
  by move=> hNv /hv' hh; apply/eqP => ee; move: hNv hh; rewrite ee; clear; lia.
have lN v : (v <= N)%N -> (v <= size (pb_values pb))%N by move: hl hNQ; clear; lia.
(* the reversed operand *)
have [||||pa [-> a1 x1]] := step_bits (pb := pb) (vs := rev (dv_bits arg1)) (v := ri) (bs := rev bs) hwp.
- by rewrite /is_var eri; move: hl hNQ; clear; lia.
- by apply/allP => v; rewrite mem_rev => /(allP l1) /=; exact: lN.
- by rewrite mem_rev; apply/negP => /(allP l1); rewrite eri ltnn.
- exact: bits_rev.
cbn [obind]; have z1 := assigns_sz a1.
rewrite (pb_val_ok (assigns_wf a1)); last by rewrite z1; exact: lN.
have es1 : xval (pb_values pa) shr = bit s.
  by rewrite (assigns_val a1) // inE eri; move: hshr; clear; lia.
cbn [obind]; rewrite es1.
have ebs : (bit s == 1 :> F) = s by case: (s); rewrite /bit /= ?eqxx // eq_sym oner_eq0.
rewrite ebs (pb_val_ok (assigns_wf a1)); last by rewrite z1; case: (s); [exact: lN|rewrite eri; move: hl hNQ; clear; lia].
set v0 := if s then bits_nat bs else bits_nat (rev bs).
have ev0 : xval (pb_values pa) (if s then dv_packed arg1 else ri) = v0%:R.
  rewrite /v0; case: (s); last exact: x1.
  by rewrite (assigns_val a1) ?v1 // inE eri; move: p1; clear; lia.
have lv0 : (v0 < 2 ^ w)%N by rewrite /v0 -sb; case: (s); [|rewrite -(size_rev bs)]; exact: bits_nat_lt.
cbn [obind]; rewrite ev0.
have [|pc [-> a2 x2]] := step_set (pb := pa) (v := N.+2) v0%:R (assigns_wf a1).
  by rewrite /is_var z1; move: hl hNQ; clear; lia.
cbn [obind]; have z2 := assigns_sz a2; rewrite z1 in z2.
(* the barrel *)
have a12 := assigns_cat a1 a2.
have sd2 : size (dv_bits arg2) = w by rewrite (bits_size b2).
have b2c : bits_are (pb_values pc) (dv_bits arg2) cs.
  apply: (assigns_bits a12) b2; apply/allP => v /(allP l2) /=; rewrite !inE eri negb_or; clear; lia.
have [|||||pd [v [-> a3 x3 lv hst]]] := barrel_ok (arg2 := arg2) (L := L) (assigns_wf a2) egB egO _ _ _ _ b2c x2.
- by [].
- by rewrite z2 eQ; move: hl; clear; lia.
- by rewrite sd2.
- by apply: sub_all l2 => u; clear; lia.
- exact: leq_trans lv0 hp.
cbn [obind]; have z3 := assigns_sz a3; rewrite z2 in z3.
(* the oversize flag *)
have lat5 : later q5 pd.
  apply: (assigns_later a3 (assigns_later a12 _)).
  exact: later_sooner h6 (later_sooner h7 (later_sooner h8 hlat)).
have md u : u \in drop L (dv_bits arg2) -> u \in dv_bits arg2 by exact: mem_drop.
have [|||pe [-> a4 _ hdis]] := step_disj (allocates_wf h4) e5 lat5.
- by rewrite /is_var s4 eov ltnSn.
- by apply/allP => u /md /(allP l2) /=; rewrite s4; move: hNQ; clear; lia.
- by apply/negP => /md /(allP l2) /=; rewrite eov; move: hNQ; clear; lia.
rewrite s4 in a4 hdis.
cbn [obind]; have z4 := assigns_sz a4; rewrite z3 in z4.
have a13 := assigns_cat a12 a3.
have asd13 : aside pb0 outs (([:: ri] ++ [:: N.+2]) ++ iota N.+3 (L + 2 ^ L).-1).
  rewrite !aside_cat aside_iota; last by rewrite -/N; clear; lia.
  by rewrite /aside /= eri -/N ltnSn (ltnW (ltnSn _)) !orbT.
have asd14 : aside pb0 outs ((([:: ri] ++ [:: N.+2]) ++ iota N.+3 (L + 2 ^ L).-1) ++ [:: ov; Q.+2]).
  by rewrite aside_cat asd13 /aside /= eov -/N; apply/and3P; split=> //; apply/orP; right; move: hNQ; clear; lia.
have a14 := assigns_cat a13 a4.
have [b2e _] := operand_kept o2 a14 asd14 w2.
set nz := (bits_nat (drop L cs) != 0)%N.
have eov' : xval (pb_values pe) ov = bit nz.
  rewrite -eo; apply: (disj_are (R := R)); first by apply: hdis.
    by rewrite ei; exact: bits_drop.
  rewrite size_drop sc; apply: leq_trans hp; apply: leq_ltn_trans (ltn_expl w (isT : 1 < 2)%N); exact: leq_subr.
have hBQ : (N.+2 + L <= Q)%N by rewrite /Q; clear; lia.
have eBL : xval (pb_values pe) (N.+2 + L)%N = v%:R.
  by rewrite (assigns_val a4) ?x3 // !inE eov; move: hBQ; clear; lia.
rewrite (pb_val_ok (assigns_wf a4)); last by rewrite z4 eov; move: hl; clear; lia.
cbn [obind]; rewrite (pb_val_ok (assigns_wf a4)); last by rewrite z4; move: hl hBQ; clear; lia.
cbn [obind]; rewrite eov' eBL.
set n := if nz then 0%N else v.
have en : (1 - bit nz) * v%:R = n%:R :> F by rewrite /n; case: (nz); rewrite /bit /= ?subrr ?subr0 ?mul0r ?mul1r.
have ln : (n < 2 ^ w)%N by rewrite /n; case: (nz); rewrite ?expn_gt0 //; exact: leq_ltn_trans lv lv0.
rewrite en.
have [|pf [-> a5 x5]] := step_set (pb := pe) (v := re) n%:R (assigns_wf a4).
  by rewrite /is_var z4 ere; move: hl; clear; lia.
cbn [obind]; have z5 := assigns_sz a5; rewrite z4 in z5.
(* its bits, and the reversed result *)
have srb : size rb = w by rewrite erb size_iota.
have mem_rb u : u \in rb -> (Q.+3 < u <= Q.+3 + w)%N by rewrite erb mem_iota; clear; lia.
have [|||||||pg [ds [-> a6 hb6 ed]]] := step_packed (R := R) (pb := pf) (vs := rb) (v := re) (n := n) (assigns_wf a5).
- by rewrite z5 ere; move: hl; clear; lia.
- by rewrite erb iota_uniq.
- by apply/allP => u /mem_rb; rewrite /is_var z5; move: hl; clear; lia.
- by apply/negP => /mem_rb; rewrite ere ltnn.
- exact: x5.
- by rewrite srb.
- by rewrite srb.
cbn [obind]; have z6 := assigns_sz a6; rewrite z5 in z6.
have [||||ph [-> a7 x7]] := step_bits (pb := pg) (vs := rev rb) (v := rr) (bs := rev ds) (assigns_wf a6).
- by rewrite /is_var z6 err; move: hl; clear; lia.
- by apply/allP => u; rewrite mem_rev => /mem_rb /=; rewrite z6; move: hl; clear; lia.
- by rewrite mem_rev; apply/negP => /mem_rb; rewrite err; clear; lia.
- exact: bits_rev.
cbn [obind]; have z7 := assigns_sz a7; rewrite z6 in z7.
rewrite (pb_val_ok (assigns_wf a7)); last by rewrite z7; case: (s); rewrite ?ere ?err; move: hl; clear; lia.
cbn [obind]; set y := xval (pb_values ph) (if s then re else rr).
(* the outputs *)
have [|pi [-> a8 x8]] := step_set (pb := ph) (v := sr) y (assigns_wf a7); first exact: up.
cbn [obind]; have z8 := assigns_sz a8; rewrite z7 in z8.
have [|pj [-> a9 x9]] := step_set (pb := pi) (v := sl) y (assigns_wf a8); first exact: up.
cbn [obind]; have z9 := assigns_sz a9; rewrite z8 in z9.
have hhead : head ONE (dv_bits arg1) \in dv_bits arg1.
  by have := bits_size b1; case: (dv_bits arg1) => [|u us]; rewrite ?mem_head // sb; move: w0; case: (w).
have htop : top_bit arg1 \in dv_bits arg1 by apply: (top_bit_in w1); rewrite sb.
rewrite (pb_val_ok (assigns_wf a9)); last by rewrite z9; apply: lN; exact: (allP l1).
cbn [obind]; set y0 := xval (pb_values pj) (head _ _).
have [|pk [-> a10 x10]] := step_set (pb := pj) (v := srf) y0 (assigns_wf a9); first exact: up.
cbn [obind]; have z10 := assigns_sz a10; rewrite z9 in z10.
rewrite (pb_val_ok (assigns_wf a10)); last by rewrite z10; apply: lN; exact: (allP l1).
cbn [obind]; set yt := xval (pb_values pk) (top_bit _).
have [|pl [-> a11 x11]] := step_set (pb := pk) (v := slf) yt (assigns_wf a10); first exact: up.
(* what has changed since *)
have a811 := assigns_cat (assigns_cat (assigns_cat a8 a9) a10) a11.
have a47 := assigns_cat (assigns_cat (assigns_cat a4 a5) a6) a7.
have a411 := assigns_cat a47 a811.
have a111 := assigns_cat a13 a411.
uniq_split hu.
have n811 u : u \notin outs -> u \notin (([:: sr] ++ [:: sl]) ++ [:: srf]) ++ [:: slf].
  by apply: contra; rewrite !mem_cat !inE -!orbA => /or4P [] ->; rewrite ?orbT.
have hout u : (N < u)%N -> u \notin outs by move=> h; apply/negP => /hv'; move: h; clear; lia.
have k8 u : (N < u)%N -> xval (pb_values pl) u = xval (pb_values ph) u by move=> h; apply: (assigns_val a811); exact: n811 (hout _ h).
have n47 u : (u <= Q)%N -> u \notin (([:: ov; Q.+2] ++ [:: re]) ++ rb) ++ [:: rr].
  move=> h; rewrite !mem_cat !inE !negb_or eov ere err -!andbA; apply/and5P; split; try by move: h; clear; lia.
  by apply/negP => /mem_rb; move: h; clear; lia.
have k4 u : (N < u <= Q)%N -> xval (pb_values pl) u = xval (pb_values pd) u.
  by case/andP => h1' h2'; rewrite k8 // (assigns_val a47) // n47.
have asd : aside pb0 outs ((([:: ri] ++ [:: N.+2]) ++ iota N.+3 (L + 2 ^ L).-1) ++
    ((([:: ov; Q.+2] ++ [:: re]) ++ rb) ++ [:: rr]) ++ (([:: sr] ++ [:: sl]) ++ [:: srf]) ++ [:: slf]).
  rewrite aside_cat asd13 andTb; apply/allP => u; rewrite !mem_cat !inE -!orbA -/N => hm.
  do 3![case/orP: hm => [/eqP ->|hm]; first by apply/orP; right; rewrite ?eov ?ere; move: hNQ; clear; lia].
  case/orP: hm => [/mem_rb hm|hm]; first by apply/orP; right; move: hm hNQ; clear; lia.
  case/orP: hm => [/eqP ->|hm]; first by apply/orP; right; rewrite err; move: hNQ; clear; lia.
  by case/or4P: hm => ->; rewrite ?orbT.
have k0 u : (u <= N)%N -> u \notin outs -> xval (pb_values pl) u = xval (pb_values pb) u.
  move=> h1' h2'; apply: (assigns_val a111); apply/negP => /(allP asd) /=; rewrite (negbTE h2') -/N; move: h1'; clear; lia.
have [b1' v1'] := operand_kept o1 a111 asd w1; have [b2' v2'] := operand_kept o2 a111 asd w2.
have eshr' : xval (pb_values pl) shr = bit s by rewrite k0.
have fri : xval (pb_values pl) ri = (bits_nat (rev bs))%:R.
  rewrite k4; last by rewrite eri; move: hNQ; clear; lia.
  rewrite (assigns_val a3); last by rewrite mem_iota eri; clear; lia.
  by rewrite (assigns_val a2); [exact: x1|rewrite inE eri; clear; lia].
have fB0 : xval (pb_values pl) N.+2 = v0%:R.
  rewrite k4; last by move: hNQ; clear; lia.
  by rewrite (assigns_val a3); [exact: x2|rewrite mem_iota; clear; lia].
have fBL : xval (pb_values pl) (N.+2 + L)%N = v%:R.
  by rewrite k4 ?x3 //; move: hBQ; clear; lia.
have kov u : (N < u <= Q.+2)%N -> xval (pb_values pl) u = xval (pb_values pe) u.
  move=> hu'; rewrite k8; last by move: hu'; clear; lia.
  rewrite (assigns_val a7); last by rewrite inE err; move: hu'; clear; lia.
  rewrite (assigns_val a6); last by apply/negP => /mem_rb; move: hu'; clear; lia.
  by rewrite (assigns_val a5) // inE ere; move: hu'; clear; lia.
have fov : xval (pb_values pl) ov = bit nz.
  by rewrite kov ?eov' // eov; move: hNQ; clear; lia.
have fre : xval (pb_values pl) re = n%:R.
  rewrite k8; last by rewrite ere; move: hNQ; clear; lia.
  rewrite (assigns_val a7); last by rewrite inE err ere; clear; lia.
  by rewrite (assigns_val a6); [exact: x5|apply/negP => /mem_rb; rewrite ere ltnn].
have frb : bits_are (pb_values pl) rb ds.
  rewrite /bits_are -hb6; apply/eq_in_map => u /mem_rb hu'; rewrite k8; last by move: hu' hNQ; clear; lia.
  by rewrite (assigns_val a7) // inE err; move: hu'; clear; lia.
have frr : xval (pb_values pl) rr = (bits_nat (rev ds))%:R.
  by rewrite k8 ?[LHS]x7 // err; move: hNQ; clear; lia.
have ey : y = if s then xval (pb_values pl) re else xval (pb_values pl) rr.
  by rewrite /y; case: (s); rewrite k8 // ?ere ?err; move: hNQ; clear; lia.
have fsr : xval (pb_values pl) sr = y.
  rewrite (assigns_val a11); last by rewrite inE; neqs.
  rewrite (assigns_val a10); last by rewrite inE; neqs.
  by rewrite (assigns_val a9); [exact: x8|rewrite inE; neqs].
have fsl : xval (pb_values pl) sl = y.
  rewrite (assigns_val a11); last by rewrite inE; neqs.
  by rewrite (assigns_val a10); [exact: x9|rewrite inE; neqs].
have nbit u : u \in dv_bits arg1 -> u \notin outs by move=> h; case/andP: o1 => _ /allP /(_ _ h) /andP [].
have nin u v' : u \notin outs -> v' \in outs -> u \notin [:: v'] by move=> h1' h2'; rewrite inE; apply: contra h1' => /eqP ->.
have fsrf : xval (pb_values pl) srf = xval (pb_values pl) (head ONE (dv_bits arg1)).
  rewrite (assigns_val a11); last by rewrite inE; neqs.
  rewrite [LHS]x10 /y0 (assigns_val a11); last by apply: nin => //; exact: nbit.
  by rewrite (assigns_val a10) //; apply: nin => //; exact: nbit.
have fslf : xval (pb_values pl) slf = xval (pb_values pl) (top_bit arg1).
  by rewrite [LHS]x11 /yt (assigns_val a11) //; apply: nin => //; exact: nbit.
exists pl; split=> //; last by rewrite fsl fsr.
  change (assigns (outs ++ fresh_vars pb0 q8) pb pl); rewrite /fresh_vars s8 -/N.
  apply: (assigns_sub _ a111) => u; rewrite !mem_cat !mem_iota !inE -!orbA => hm.
  do 2![case/orP: hm => [/eqP ->|hm]; first by do 4![apply/orP; right]; rewrite ?eri; move: hNQ; clear; lia].
  case/orP: hm => [hm|hm].
    by do 4![apply/orP; right]; move: hm eQ; clear; lia.
  do 3![case/orP: hm => [/eqP ->|hm]; first by do 4![apply/orP; right]; rewrite ?eov ?ere; move: hNQ; clear; lia].
  case/orP: hm => [/mem_rb hm|hm]; first by do 4![apply/orP; right]; move: hm hNQ; clear; lia.
  case/orP: hm => [/eqP ->|hm]; first by do 4![apply/orP; right]; rewrite err; move: hNQ; clear; lia.
  by case/or4P: hm => ->; rewrite ?orbT.
rewrite /alu_shift_constraints; cbn [so_shr so_shr_flag so_shl so_shl_flag]; rewrite -/L.
rewrite gri gov gd gre grb grr (egB 0%N) // (egB L) // addn0.
rewrite !holds_cat !holds_rc !holds_nil; cbn [foldr]; rewrite !vrE !tmE !addr0 ?xone !mul1r !mulN1r.
rewrite fB0 fBL fov fre fsr fsrf fslf eshr' v1' fri.
split; first by apply/(pv_false _ (bits_rev b1')).
split; first by split=> //; rewrite /v0; case: (s); rewrite /bit /= ?mulr1 ?mulr0 ?subrr.
split.
  apply/holds_flatten => i /In_iota; rewrite add0n => hi.
  have szi : size (nth [::] (sh_out_bits g) i) = (2 ^ i)%N by rewrite egO // size_iota.
  have Pi : (0 < 2 ^ i)%N by rewrite expn_gt0.
  have PiL : (2 ^ i + 2 ^ i <= 2 ^ L)%N by rewrite addnn -mul2n -expnS leq_pexp2l.
  apply/(shift_step_iff arg2 _ szi); have := proj1 (shift_step_iff arg2 _ szi) (hst i hi).
  rewrite (egB i) ?(egB i.+1) ?(ltnW hi) // egO //.
  rewrite !(k4 (N.+2 + _)%N); [|by move: hBQ hi; clear; lia|by move: hBQ hi; clear; lia].
  have em : map (xval (pb_values pl)) (iota (N.+2 + L + 2 ^ i) (2 ^ i)) = map (xval (pb_values pd)) (iota (N.+2 + L + 2 ^ i) (2 ^ i)).
    by apply/eq_in_map => u; rewrite mem_iota => hu'; apply: k4; move: hu' PiL Pi eQ; move: (2 ^ i)%N (2 ^ L)%N; clear; lia.
  have e2' : xval (pb_values pl) (nth ONE (dv_bits arg2) i) = xval (pb_values pd) (nth ONE (dv_bits arg2) i).
    have hin : nth ONE (dv_bits arg2) i \in dv_bits arg2 by apply: mem_nth; rewrite sd2; exact: leq_trans hi hLw.
    rewrite (assigns_val a411) // mem_cat negb_or n47; last by have := allP l2 _ hin => /=; move: hNQ; clear; lia.
    by apply: n811; case/andP: o2 => _ /allP /(_ _ hin) /andP [].
  by rewrite em e2' -!(all_map (xval _) (@isbit F)) em.
split.
  apply: hdis => u; rewrite inE => /orP [/eqP ->|].
    by apply: kov; rewrite eov; move: hNQ; clear; lia.
  rewrite inE => /orP [/eqP ->|/md hin]; first by apply: kov; move: hNQ; clear; lia.
  have nu : u \notin outs by case/andP: o2 => _ /allP /(_ _ hin) /andP [].
  have lu := allP l2 _ hin; rewrite /= in lu.
  rewrite k0 //; symmetry; apply: (assigns_val a14); apply/negP => /(allP asd14) /=; rewrite (negbTE nu) -/N; move: lu; clear; lia.
split; first by split=> //; rewrite en.
split; first by apply/(pv_true_iff _ frb); rewrite fre ed.
split; first by apply/(pv_false _ (bits_rev frb)).
have hsel : (n%:R - xval (pb_values pl) rr) * bit s = y - xval (pb_values pl) rr.
  by rewrite ey fre; case: (s); rewrite /bit /= ?mulr1 ?mulr0 ?subrr.
by split=> //; split.
Qed.
End Witness.
