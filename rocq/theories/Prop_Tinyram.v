(** C38: TinyRAM instruction encoding, initial memory, boot trace and initial state. *)
From Coq Require Import NArith.
From mathcomp Require Import all_ssreflect zify.
From Verif Require Import Outcome StdMap MerkleTree Memory Prop_Memory Tinyram.
Set Implicit Arguments.
Unset Strict Implicit.
Unset Printing Implicit Defensive.
Delimit Scope N_scope with num.

(** ** Specification *)

(** An instruction fits the architecture: 5 bits of opcode, one immediate bit, two register
    indices and a register index or an immediate fit a double word of at most 64 bits. *)
Definition fits (ap : tinyram_params) : bool :=
  (5 + 1 + 2 * log2 (ap_k ap) + maxn (ap_w ap) (log2 (ap_k ap)) <= 2 * ap_w ap) && (2 * ap_w ap <= 64).
Definition pow2 (k : nat) : N := (2 ^ N.of_nat k)%num.
Definition in_range (ap : tinyram_params) (ti : tinyram_instruction) : bool :=
  [&& N.ltb (ti_opcode ti) 32, N.ltb (ti_desidx ti) (pow2 (log2 (ap_k ap))),
      N.ltb (ti_arg1idx ti) (pow2 (log2 (ap_k ap))) &
      N.ltb (ti_arg2idx_or_imm ti) (pow2 (maxn (ap_w ap) (log2 (ap_k ap))))].

(** ** Lemmas *)

Lemma pow2D a b : pow2 (a + b) = (pow2 a * pow2 b)%num.
Proof. by rewrite /pow2 Nat2N.inj_add N.pow_add_r. Qed.
Lemma pow2_gt0 a : (0 < pow2 a)%num.
Proof. have := N.pow_nonzero 2 (N.of_nat a); rewrite /pow2; lia. Qed.
Lemma pow2_le a b : a <= b -> (pow2 a <= pow2 b)%num.
Proof. move=> h; apply: N.pow_le_mono_r => //; lia. Qed.
Lemma word_modE : word_mod = pow2 64. Proof. by []. Qed.


Lemma testbit_cat a b s j : (b < pow2 s)%num ->
  N.testbit (a * pow2 s + b) j = if (j <? N.of_nat s)%num then N.testbit b j else N.testbit a (j - N.of_nat s).
Proof.
move=> h; case: N.ltb_spec => hj.
  rewrite -(N.mod_pow2_bits_low _ _ _ hj) -/(pow2 s) N.add_comm N.mod_add; last by have := pow2_gt0 s; lia.
  by rewrite N.mod_pow2_bits_low.
have {1}-> : j = (j - N.of_nat s + N.of_nat s)%num by lia.
rewrite -N.div_pow2_bits -/(pow2 s) N.add_comm N.div_add; last by have := pow2_gt0 s; lia.
by rewrite N.div_small.
Qed.

Lemma lor_add a b s : (b < pow2 s)%num -> N.lor (N.shiftl a (N.of_nat s)) b = (a * pow2 s + b)%num.
Proof.
move=> h; apply: N.bits_inj => j; rewrite N.lor_spec testbit_cat //.
case: N.ltb_spec => hj; first by rewrite N.shiftl_spec_low.
rewrite N.shiftl_spec_high' // -(N.mod_small b (pow2 s)) // N.mod_pow2_bits_high //; by rewrite orbF.
Qed.
Lemma shl64_small x s : s < 64 -> (x < pow2 (64 - s))%num -> shl64 x s = Ok (N.shiftl x (N.of_nat s)).
Proof.
move=> hs hx; rewrite /shl64 hs N.mod_small // N.shiftl_mul_pow2 word_modE -(subnK (ltnW hs)) pow2D.
by apply: (proj1 (N.mul_lt_mono_pos_r _ _ _ (pow2_gt0 s))).
Qed.
Lemma cat_lt a b s t : (a < pow2 t)%num -> (b < pow2 s)%num -> (a * pow2 s + b < pow2 (t + s))%num.
Proof. rewrite pow2D => ha hb; have := pow2_gt0 s; nia. Qed.
Lemma low_bits_cat a b s t : (b < pow2 s)%num ->
  low_bits (s + t) (a * pow2 s + b) = low_bits s b ++ low_bits t a.
Proof.
move=> h; rewrite /low_bits iotaD map_cat add0n; congr cat.
  apply/eq_in_map => j; rewrite mem_iota => /andP[_ hj]; rewrite testbit_cat //.
  by case: N.ltb_spec => //; lia.
have -> : iota s t = [seq s + j | j <- iota 0 t] by rewrite -iotaDl addn0.
rewrite -map_comp; apply: eq_map => j /=; rewrite testbit_cat //.
case: N.ltb_spec; first by lia.
by move=> _; congr (N.testbit a _); lia.
Qed.
Lemma low_bits_small s t b : (b < pow2 s)%num -> low_bits (s + t) b = low_bits s b ++ nseq t false.
Proof. by move=> h; rewrite -{1}(N.add_0_l b) -(N.mul_0_l (pow2 s)) low_bits_cat // low_bits0. Qed.
Lemma low_bits_inj k a b : (a < pow2 k)%num -> (b < pow2 k)%num -> low_bits k a = low_bits k b -> a = b.
Proof.
move=> ha hb e; apply: N.bits_inj => j.
rewrite -(N.mod_small a (pow2 k)) // -(N.mod_small b (pow2 k)) //.
case: (N.ltb_spec j (N.of_nat k)) => hj; last by rewrite !N.mod_pow2_bits_high.
rewrite !N.mod_pow2_bits_low //.
have hj' : N.to_nat j < k by lia.
have := congr1 (fun l => nth false l (N.to_nat j)) e.
by rewrite !(nth_map 0) ?size_iota // nth_iota // add0n N2Nat.id.
Qed.
Lemma opcode_widthE : opcode_width = 5. Proof. by []. Qed.
(** The double word of an instruction, by its fields. *)
Definition encoded (ap : tinyram_params) (ti : tinyram_instruction) : N :=
  let L := log2 (ap_k ap) in let R := 2 * ap_w ap - 5 - 1 - 2 * L in
  ((((ti_opcode ti * pow2 1 + (if ti_arg2_is_imm ti then 1 else 0)) * pow2 L + ti_desidx ti) * pow2 L
    + ti_arg1idx ti) * pow2 R + ti_arg2idx_or_imm ti)%num.
Lemma encode_spec ap ti : fits ap -> in_range ap ti ->
  as_dword ap ti = Ok (encoded ap ti) /\ (encoded ap ti < pow2 (2 * ap_w ap))%num /\
  low_bits (2 * ap_w ap) (encoded ap ti) =
    low_bits (maxn (ap_w ap) (log2 (ap_k ap))) (ti_arg2idx_or_imm ti) ++
    nseq (instruction_padding_width ap) false ++
    low_bits (log2 (ap_k ap)) (ti_arg1idx ti) ++ low_bits (log2 (ap_k ap)) (ti_desidx ti) ++
    [:: ti_arg2_is_imm ti] ++ low_bits 5 (ti_opcode ti).
Proof.
case: ti => op imm des a1 a2; rewrite /fits /in_range /as_dword /encoded /instruction_padding_width
  /reg_arg_or_imm_width /reg_arg_width opcode_widthE; cbn [ti_opcode ti_arg2_is_imm ti_desidx ti_arg1idx ti_arg2idx_or_imm].
set L := log2 (ap_k ap); set w := ap_w ap; set M := maxn w L; set R := 2 * w - 5 - 1 - 2 * L.
case/andP=> h1 h2 /and4P[/N.ltb_lt b1 /N.ltb_lt b2 /N.ltb_lt b3 /N.ltb_lt b4].
have hR : M <= R by rewrite /R; move: h1; clear; lia.
have hRE : 5 + 1 + L + L + R = 2 * w by rewrite /R; move: h1; clear; lia.
have {}b1 : (op < pow2 5)%num := b1.
have bi : ((if imm then 1 else 0) < pow2 1)%num by case: imm.
have b4' : (a2 < pow2 R)%num by apply: (N.lt_le_trans _ _ _ b4); exact: pow2_le.
have c1 := cat_lt b1 bi; have c2 := cat_lt c1 b2; have c3 := cat_lt c2 b3; have c4 := cat_lt c3 b4'.
have le x s t : (x < pow2 s)%num -> s <= t -> (x < pow2 t)%num.
  by move=> hx hst; apply: (N.lt_le_trans _ _ _ hx); exact: pow2_le.
have l1 : 5 <= 64 - 1 by []; have l2 : 5 + 1 <= 64 - L by move: hRE h2 hR; rewrite /M; clear; lia.
have l3 : 5 + 1 + L <= 64 - L by move: hRE h2; clear; lia.
have l4 : 5 + 1 + L + L <= 64 - R by move: hRE h2; clear; lia.
rewrite (shl64_small _ (le _ _ _ b1 l1)) // obindE lor_add //.
rewrite (shl64_small _ (le _ _ _ c1 l2)); last by move: hRE h2; clear; lia.
rewrite obindE lor_add // (shl64_small _ (le _ _ _ c2 l3)); last by move: hRE h2; clear; lia.
rewrite obindE lor_add //.
rewrite ifF; last by move: h1; clear; lia.
rewrite -/R (shl64_small _ (le _ _ _ c3 l4)); last by move: hRE h2; clear; lia.
rewrite obindE lor_add //; split=> //; split; first by rewrite -hRE.
have -> : 2 * w = R + (L + (L + (1 + 5))) by rewrite -hRE; clear; lia.
rewrite !low_bits_cat //.
have -> : low_bits 1 (if imm then 1 else 0)%num = [:: imm] by move: (imm); clear; case.
rewrite [RHS]catA; congr (_ ++ _).
have {1}-> : R = M + (R + (L + (L + (1 + 5))) - (5 + 1 + 2 * L + M)) by move: hR; clear; lia.
exact: low_bits_small.
Qed.
(** ** C38 *)
(** Encoding an instruction that is in range succeeds with a value of 2w bits, and the CPU
    checker's decoder recovers the bits of its fields. *)
Theorem C38_encode_decode ap ti : fits ap -> in_range ap ti ->
  exists2 d, as_dword ap ti = Ok d & (d < pow2 (2 * ap_w ap))%num /\
  decode_bits ap (low_bits (2 * ap_w ap) d) =
    Ok (low_bits (reg_arg_or_imm_width ap) (ti_arg2idx_or_imm ti), low_bits (reg_arg_width ap) (ti_arg1idx ti),
        low_bits (reg_arg_width ap) (ti_desidx ti), ti_arg2_is_imm ti, low_bits opcode_width (ti_opcode ti)).
Proof.
move=> hf hr; have [e [h1 h2]] := encode_spec hf hr; exists (encoded ap ti) => //; split=> //.
rewrite h2 /decode_bits /reg_arg_or_imm_width /reg_arg_width opcode_widthE.
have tk n (l r : seq bool) : size l = n -> take n (l ++ r) = l by move=> <-; rewrite take_size_cat.
have dk n (l r : seq bool) : size l = n -> drop n (l ++ r) = r by move=> <-; rewrite drop_size_cat.
have sb n x : size (low_bits n x) = n := size_low_bits n x.
have sn n : size (nseq n false) = n by rewrite size_nseq.
rewrite (tk _ _ _ (sb _ _)) (dk _ _ _ (sb _ _)) (dk _ _ _ (sn _)).
rewrite (tk _ _ _ (sb _ _)) (dk _ _ _ (sb _ _)) (tk _ _ _ (sb _ _)) (dk _ _ _ (sb _ _)).
by rewrite /oget cat1s /drop /take.
Qed.
Print Assumptions C38_encode_decode.
(** Encoding is injective on instructions in range. *)
Theorem C38_encode_injective ap ti ti' d : fits ap -> in_range ap ti -> in_range ap ti' ->
  as_dword ap ti = Ok d -> as_dword ap ti' = Ok d -> ti = ti'.
Proof.
move=> hf hr hr' e e'.
have [d1 e1 [_ h1]] := C38_encode_decode hf hr; have [d2 e2 [_ h2]] := C38_encode_decode hf hr'.
move: e1 e2; rewrite e e' => -[eq1] [eq2]; subst d1 d2.
move: h2; rewrite h1 => -[g1 g2 g3 g4 k1 k2 k3 k4 k5].
have g5 : low_bits 5 (ti_opcode ti) = low_bits 5 (ti_opcode ti') by rewrite /low_bits /= k1 k2 k3 k4 k5.
clear k1 k2 k3 k4 k5.
case: ti ti' hr hr' g1 g2 g3 g4 g5 {e e' h1} => op i de a1 a2 [op' i' de' a1' a2'] /=.
case/and4P=> /N.ltb_lt b1 /N.ltb_lt b2 /N.ltb_lt b3 /N.ltb_lt b4.
case/and4P=> /N.ltb_lt c1 /N.ltb_lt c2 /N.ltb_lt c3 /N.ltb_lt c4 g1 g2 g3 g4 g5.
have -> : op = op' by apply: (@low_bits_inj 5).
have -> : de = de' by apply: low_bits_inj g3.
have -> : a1 = a1' by apply: low_bits_inj g2.
have -> : a2 = a2' by apply: low_bits_inj g1.
by rewrite g4.
Qed.
Print Assumptions C38_encode_injective.

(** ** The initial memory and the boot trace *)

(** The words of the input region: first the address of the last input word (in bytes), then the
    input, two words per double word with the first in the low half. *)
Definition input_word (ap : tinyram_params) (input : seq N) (i : nat) : N :=
  if i is j.+1 then nth 0%num input j
  else (pow2 (ap_w ap - 1) + N.of_nat (size input * (ap_w ap %/ 8)))%num.
Definition input_dword (ap : tinyram_params) (input : seq N) (j : nat) : N :=
  (input_word ap input (2 * j) + input_word ap input (2 * j + 1) * pow2 (ap_w ap))%num.
Definition input_base (ap : tinyram_params) : nat := 2 ^ (dwaddr_len ap - 1).

(** What is loaded where: the program from address 0 on, the input from half the memory on. *)
Definition loaded (ap : tinyram_params) (program : seq tinyram_instruction) (input : seq N) : seq (nat * N) :=
  [seq (i, encoded ap (nth (TinyramInstruction 0 false 0 0 0) program i)) | i <- iota 0 (size program)] ++
  [seq (input_base ap + j, input_dword ap input j) | j <- iota 0 (size input %/ 2 + 1)].

(** A word size of at least one byte for which the double words fit the machine word, and an input
    of words whose end address is a word. *)
Definition word_size_ok (ap : tinyram_params) : bool := (8 <= ap_w ap) && (2 * ap_w ap <= 64).
Definition input_ok (ap : tinyram_params) (input : seq N) : bool :=
  all (fun x => N.ltb x (pow2 (ap_w ap))) input && (size input * (ap_w ap %/ 8) < 2 ^ (ap_w ap - 1)).

Lemma to_nat_pow2 k : N.to_nat (pow2 k) = 2 ^ k.
Proof.
rewrite /pow2 N2Nat.inj_pow Nat2N.id; elim: k => // k IH; by rewrite expnS -IH /= ; lia.
Qed.
Lemma shl64_1 k : k < 64 -> shl64 1 k = Ok (pow2 k).
Proof.
move=> h; rewrite shl64_small // ?N.shiftl_1_l //.
apply: (N.lt_le_trans _ (pow2 1)) => //; apply: pow2_le; by rewrite subn_gt0.
Qed.

Section Load.
Variables (ap : tinyram_params) (program : seq tinyram_instruction) (input : seq N).
Hypotheses (hf : fits ap) (hp : all (in_range ap) program) (hw : word_size_ok ap) (hi : input_ok ap input).

Let w := ap_w ap.
Let n := size input.

Lemma log2_w : 2 <= log2 w <= w.
Proof.
move/andP: hw => [h1 _]; rewrite -/w in h1; apply/andP; split.
  by rewrite ltnNge /log2 (MerkleFacts.log2_le w 1) -ltnNge; apply: leq_trans h1.
by rewrite MerkleFacts.log2_le ltnW // ltn_expl.
Qed.
Lemma dwaddr_lt : 0 < dwaddr_len ap /\ dwaddr_len ap - 1 < 64.
Proof. have := log2_w; move/andP: hw => [h1 h2]; rewrite /dwaddr_len -/w; move: h1 h2; rewrite -/w; clear; lia. Qed.

Lemma word0_lt : (input_word ap input 0 < pow2 w)%num.
Proof.
move/andP: hi => [_ h]; rewrite /input_word -/w -/n; move: h; rewrite -/w -/n => h.
move/andP: hw => [h1 _]; rewrite -/w in h1.
have -> : pow2 w = (pow2 (w - 1) + pow2 (w - 1))%num.
  have {1}-> : w = (w - 1) + 1 by move: h1; clear; lia.
  rewrite pow2D (_ : pow2 1 = 2%num) //; clear; lia.
suff : (N.of_nat (n * (w %/ 8)) < pow2 (w - 1))%num by clear; lia.
rewrite -(N2Nat.id (pow2 (w - 1))) to_nat_pow2; move: h; clear; lia.
Qed.
Lemma word_lt i : (input_word ap input i < pow2 w)%num.
Proof.
case: i => [|i]; first exact: word0_lt.
have [h|h] := ltnP i n; last by rewrite /= nth_default //; exact: pow2_gt0.
by move/andP: hi => [/(all_nthP 0%num) /(_ _ h) /N.ltb_lt].
Qed.
Lemma dword_lt j : (input_dword ap input j < pow2 (w + w))%num.
Proof. rewrite /input_dword N.add_comm; exact: cat_lt (word_lt _) (word_lt _). Qed.
Lemma pow2_2w_le : (pow2 (w + w) <= word_mod)%num.
Proof. by rewrite word_modE; apply: pow2_le; rewrite addnn -mul2n; case/andP: hw. Qed.
Lemma w_lt : w < 64. Proof. move/andP: hw => [h1 h2]; rewrite /w; move: h1 h2; clear; lia. Qed.

Lemma store_inputE (S : Type) (store : S -> nat -> N -> S) s0 :
  store_input store ap (pow2 (dwaddr_len ap - 1)) input s0 =
  Ok (foldl (fun s av => store s av.1 av.2) s0
        [seq (input_base ap + j, input_dword ap input j) | j <- iota 0 (n %/ 2 + 1)]).
Proof.
have hw1 : 0 < w by move/andP: hw => [h1 _]; rewrite /w; move: h1; clear; lia.
rewrite /store_input -/w -/n shl64_1 ?obindE; last by have := w_lt; move: hw1; clear; lia.
have -> : add64 (pow2 (w - 1)) (mul64 (N.of_nat n) (N.of_nat (w %/ 8))) = input_word ap input 0.
  have h := word0_lt; have h' : (pow2 w <= word_mod)%num by rewrite word_modE; apply: pow2_le; exact: ltnW w_lt.
  have e : (N.of_nat n * N.of_nat (w %/ 8))%num = N.of_nat (n * (w %/ 8)) by clear; lia.
  rewrite /add64 /mul64 e; rewrite /input_word -/w -/n in h *.
  rewrite (N.mod_small (N.of_nat _)); first by rewrite N.mod_small //; exact: N.lt_le_trans h h'.
  apply: N.lt_le_trans h'; apply: N.le_lt_trans h; clear; lia.
have e1 x : (x < pow2 w)%num -> shl64 x w = Ok (x * pow2 w)%num.
  move=> h; rewrite shl64_small ?w_lt //; first by rewrite N.shiftl_mul_pow2.
  apply: (N.lt_le_trans _ _ _ h); apply: pow2_le; move/andP: hw => [_]; rewrite -/w; clear; lia.
have key k : k <= n %/ 2 + 1 ->
  ofold (fun st i =>
      let! latest := (if 2 * i < n
                      then let! x := oget input (2 * i) in
                           let! y := shl64 x w in Ok (add64 st.2 y)
                      else Ok st.2) in
      let s := store st.1 (N.to_nat (pow2 (dwaddr_len ap - 1)) + i) latest in
      let! latest := (if 2 * i + 1 < n then oget input (2 * i + 1) else Ok latest) in
      Ok (s, latest)) (s0, input_word ap input 0) (iota 0 k) =
  Ok (foldl (fun s av => store s av.1 av.2) s0 [seq (input_base ap + j, input_dword ap input j) | j <- iota 0 k],
      if 2 * k <= n then input_word ap input (2 * k) else input_dword ap input (k - 1)).
  elim: k => [|k IH] hk; first by [].
  have hk' : 2 * k <= n by move: hk; clear; lia.
  rewrite -(addn1 k) iotaD ofold_cat (IH (ltnW hk)) map_cat foldl_cat add0n hk' [iota k 1]/=.
  cbn [obind ofold snd fst foldl map].
  set s1 := foldl _ _ _.
  have -> : (if 2 * k < n then let! x := oget input (2 * k) in
      let! y := shl64 x w in Ok (add64 (input_word ap input (2 * k)) y)
      else Ok (input_word ap input (2 * k))) = Ok (input_dword ap input k).
    have hd := dword_lt k; rewrite /input_dword addn1 in hd *; rewrite -/w.
    case: ltnP => h2; last first.
      by rewrite [input_word _ _ (2 * k).+1](_ : _ = 0%num) ?N.mul_0_l ?N.add_0_r //; rewrite /input_word nth_default.
    rewrite (oget_nth 0%num h2) obindE e1; last exact: (word_lt (2 * k).+1).
    rewrite obindE /add64 N.mod_small //; apply: N.lt_le_trans hd pow2_2w_le.
  rewrite obindE to_nat_pow2 -/(input_base ap).
  have -> : 2 * (k + 1) = (2 * k + 1).+1 by clear; lia.
  case: ltnP => h2; first by rewrite (oget_nth 0%num h2) obindE.
  by rewrite obindE addnK.
rewrite key //.
Qed.

Lemma zip_mapl (A B C : Type) (f : A -> B) (s : seq A) (t : seq C) :
  zip (map f s) t = [seq (f x.1, x.2) | x <- zip s t].
Proof. by elim: s t => [|x s IH] [|y t] //=; rewrite IH. Qed.

Lemma boot_fold (l : seq (nat * N)) t p : (N.of_nat (size l) <= p + 1)%num -> (p < word_mod)%num ->
  (foldl (fun s av => boot_put s av.1 av.2) (t, p) l).1 =
  foldl (fun t s => set_trace_entry t s.1 s.2) t [seq (N.to_nat p - iav.1, iav.2) | iav <- zip (iota 0 (size l)) l].
Proof.
elim: l t p => [|[a v] l IH] t p //= hs hb.
rewrite /boot_put /= subn0.
case: l IH hs => [|av l] IH hs; first by [].
have e : sub64 p 1 = (p - 1)%num.
  rewrite /sub64 (N.mod_small 1) //; have hp0 : (1 <= p)%num by move: hs => /=; clear; lia.
  have -> : (p + word_mod - 1)%num = ((p - 1) + 1 * word_mod)%num by move: hp0; clear; lia.
  rewrite N.mod_add // N.mod_small //; move: hb; clear; lia.
rewrite IH; first last.
- rewrite e; move: hb; clear; lia.
- rewrite e; move: hs => /=; clear; lia.
rewrite e; congr foldl; move: (av :: l) => l'.
have -> : iota 1 (size l') = [seq 1 + i | i <- iota 0 (size l')] by rewrite -iotaDl.
rewrite zip_mapl -map_comp; apply: eq_map => -[i x] /=; congr pair; clear; lia.
Qed.

Lemma program_fold (S : Type) (store : S -> nat -> N -> S) s0 :
  ofold (fun s i => let! ti := oget program i in let! d := as_dword ap ti in Ok (store s i d)) s0 (iota 0 (size program)) =
  Ok (foldl (fun s av => store s av.1 av.2) s0
       [seq (i, encoded ap (nth (TinyramInstruction 0 false 0 0 0) program i)) | i <- iota 0 (size program)]).
Proof.
have : all (fun i => i < size program) (iota 0 (size program)) by apply/allP => i; rewrite mem_iota.
elim: (iota 0 (size program)) s0 => [|i l IH] s0 //= /andP[h hl].
rewrite (oget_nth (TinyramInstruction 0 false 0 0 0) h) obindE.
have [-> _] := encode_spec hf (all_nthP (TinyramInstruction 0 false 0 0 0) hp i h).
cbn [obind]; exact: IH.
Qed.

Lemma initialE : initial_memory_contents ap program input =
  Ok (foldl (fun m av => nm_set m av.1 av.2) [::] (loaded ap program input)).
Proof.
rewrite /initial_memory_contents (program_fold (fun m a v => nm_set m a v)) obindE.
have [h0 h1] := dwaddr_lt; rewrite shl64_1 // obindE store_inputE.
by rewrite /loaded foldl_cat.
Qed.

Definition boot_sets (bound : nat) : seq (nat * (nat * N)) :=
  [seq (bound - 1 - iav.1, iav.2) | iav <- zip (iota 0 (size (loaded ap program input))) (loaded ap program input)].

Lemma bootE bound : size (loaded ap program input) <= bound -> (N.of_nat bound < word_mod)%num ->
  boot_trace_from_program_and_input ap (N.of_nat bound) program input = Ok (trace_after (boot_sets bound)).
Proof.
move=> hb hbw; rewrite /boot_trace_from_program_and_input (program_fold boot_put) obindE.
have [h0 h1] := dwaddr_lt; rewrite shl64_1 // obindE store_inputE obindE -foldl_cat -/(loaded _ _ _).
have hb0 : 0 < bound.
  apply: leq_trans hb; rewrite /loaded size_cat !size_map !size_iota; clear; lia.
have e : sub64 (N.of_nat bound) 1 = N.of_nat (bound - 1).
  rewrite /sub64 (N.mod_small 1) //.
  have -> : (N.of_nat bound + word_mod - 1)%num = (N.of_nat (bound - 1) + 1 * word_mod)%num by move: hb0; clear; lia.
  rewrite N.mod_add // N.mod_small //; move: hbw; clear; lia.
rewrite e boot_fold; first by rewrite Nat2N.id.
- move: hb hb0; clear; lia.
- move: hbw; clear; lia.
Qed.

Lemma boot_find (l : seq (nat * N)) B ts : size l <= B.+1 ->
  nm_find (trace_after [seq (B - iav.1, iav.2) | iav <- zip (iota 0 (size l)) l]) ts =
  if ts <= B then nth None [seq Some x | x <- l] (B - ts) else None.
Proof.
elim/last_ind: l => [|l x IH] hs; first by rewrite /= nth_nil; case: ifP.
rewrite size_rcons in hs *; rewrite -[in iota _ _](addn1 (size l)) iotaD -cats1 zip_cat ?size_iota //=.
rewrite map_cat /trace_after foldl_cat -/(trace_after _) /= add0n nm_find_set (IH (ltnW hs)).
rewrite map_cat nth_cat size_map /=.
case: eqP => [e|ne].
  by rewrite e leq_subr subKn // ltnn subnn.
case: leqP => // h; case: ltnP => // h2; rewrite nth_default ?size_map //.
have : B - ts - size l <> 0 by move: ne h h2; clear; lia.
by case: (B - ts - size l) => // m; rewrite /= nth_nil.
Qed.

Hypothesis hsz : size program <= input_base ap.

Lemma loaded_uniq : uniq [seq e.1 | e <- loaded ap program input].
Proof.
rewrite /loaded map_cat -!map_comp cat_uniq; apply/and3P; split.
- by rewrite map_inj_uniq ?iota_uniq // => i j.
- apply/hasPn => a /mapP[j _ ->] /=; apply/negP => /mapP[i]; rewrite mem_iota /= add0n => hi' e.
  move: hsz hi' e; clear; lia.
- by rewrite map_inj_uniq ?iota_uniq // => i j /= /addnI.
Qed.

Lemma initial_find a v :
  nm_find (foldl (fun m av => nm_set m av.1 av.2) [::] (loaded ap program input)) a = Some v <->
  (a, v) \in loaded ap program input.
Proof.
have : uniq (map fst (loaded ap program input)) := loaded_uniq.
elim/last_ind: (loaded ap program input) => [|l [b x] IH]; first by [].
rewrite map_rcons rcons_uniq foldl_rcons nm_find_set mem_rcons in_cons xpair_eqE /= => /andP[h hu].
case: eqP => [->|_]; last exact: IH.
rewrite /=; split=> [[->]|]; first by rewrite eqxx.
case/orP=> [/eqP ->//|h2]; case/negP: h; apply/mapP; by exists (b, v).
Qed.

Lemma boot_contents bound a : size (loaded ap program input) <= bound ->
  nm_find (as_memory_contents (trace_after (boot_sets bound))) a =
  nm_find (foldl (fun m av => nm_set m av.1 av.2) [::] (loaded ap program input)) a.
Proof.
set l := loaded ap program input => hb.
have hb0 : 0 < bound.
  apply: leq_trans hb; rewrite /l /loaded size_cat !size_map !size_iota; clear; lia.
have hs : size l <= (bound - 1).+1 by move: hb hb0; clear; lia.
have hf' ts := @boot_find l (bound - 1) ts hs.
have find_in ts e : nm_find (trace_after (boot_sets bound)) ts = Some e ->
    [/\ ts <= bound - 1, bound - 1 - ts < size l & e = nth (0, 0%num) l (bound - 1 - ts)].
  rewrite hf'; case: ifP => // h; case h2: (bound - 1 - ts < size l).
    by rewrite (nth_map (0, 0%num)) // => -[<-].
  by rewrite nth_default // size_map leqNgt h2.
have iff v : nm_find (as_memory_contents (trace_after (boot_sets bound))) a = Some v <-> (a, v) \in l.
  rewrite C37_trace_contents; split=> [[ts h1 h2]|h].
    by have [_ h3 ->] := find_in _ _ h1; exact: mem_nth.
  have hi0 : index (a, v) l < size l by rewrite index_mem.
  have hi1 : bound - 1 - (bound - 1 - index (a, v) l) = index (a, v) l by move: hi0 hb; clear; lia.
  exists (bound - 1 - index (a, v) l).
    by rewrite hf' leq_subr hi1 (nth_map (0, 0%num)) // nth_index.
  move=> ts' v' /find_in[h1 h2 h3].
  suff <- : bound - 1 - ts' = index (a, v) l by move: h1; clear; lia.
  have hu := loaded_uniq; rewrite -/l in hu.
  apply/eqP; rewrite -(nth_uniq 0 _ _ hu) ?size_map // !(nth_map (0, 0%num)) // -h3 nth_index //.
case e: (nm_find _ a) => [v|]; first by apply/esym/initial_find; apply/iff.
case e2: (nm_find _ a) => [v|] //.
by move/initial_find/iff: e2; rewrite e.
Qed.

Lemma initial_input j : j <= n %/ 2 ->
  nm_find (foldl (fun m av => nm_set m av.1 av.2) [::] (loaded ap program input)) (input_base ap + j) =
  Some (input_dword ap input j).
Proof.
move=> h; apply/initial_find; rewrite /loaded mem_cat; apply/orP; right.
by apply/mapP; exists j => //; rewrite mem_iota /= add0n addn1 ltnS.
Qed.

Lemma recover bound : size (loaded ap program input) <= bound ->
  primary_input_from_boot_trace ap (trace_after (boot_sets bound)) = Ok input.
Proof.
move=> hb; rewrite /primary_input_from_boot_trace.
have [h0 h1] := dwaddr_lt; have hw1 : 8 <= w by case/andP: hw.
have hd j : j <= n %/ 2 -> nm_find (as_memory_contents (trace_after (boot_sets bound))) (input_base ap + j) =
    Some (input_dword ap input j) by move=> h; rewrite boot_contents // initial_input.
rewrite shl64_1 // obindE to_nat_pow2 -/(input_base ap) -{1}(addn0 (input_base ap)) hd // obindE -/w.
rewrite shl64_1; last by have := w_lt; clear; lia.
rewrite obindE shl64_1 ?w_lt // obindE.
have hpw : (pow2 w < word_mod)%num.
  rewrite word_modE; apply: (N.lt_le_trans _ (pow2 (w + 1))); last by apply: pow2_le; have := w_lt; clear; lia.
  by rewrite pow2D (_ : pow2 1 = 2%num) //; have := pow2_gt0 w; clear; lia.
have -> : sub64 (pow2 w) 1 = N.ones (N.of_nat w).
  rewrite /sub64 (N.mod_small 1) // N.ones_equiv -N.sub_1_r -/(pow2 w).
  have -> : (pow2 w + word_mod - 1)%num = ((pow2 w - 1) + 1 * word_mod)%num by have := pow2_gt0 w; clear; lia.
  rewrite N.mod_add // N.mod_small //; move: hpw; clear; lia.
have nz : pow2 w <> 0%num by have := pow2_gt0 w; clear; lia.
have lo j : N.land (input_dword ap input j) (N.ones (N.of_nat w)) = input_word ap input (2 * j).
  rewrite N.land_ones -/(pow2 w) /input_dword N.mod_add; last exact: nz.
  by rewrite N.mod_small //; exact: word_lt.
have up j : shr64 (input_dword ap input j) w = Ok (input_word ap input (2 * j + 1)).
  rewrite /shr64 w_lt N.shiftr_div_pow2 -/(pow2 w) /input_dword N.div_add; last exact: nz.
  by rewrite N.div_small //; exact: word_lt.
rewrite lo.
have -> : sub64 (input_word ap input (2 * 0)) (pow2 (w - 1)) = N.of_nat (n * (w %/ 8)).
  have hlt := word0_lt; rewrite /input_word -/w -/n in hlt *.
  have hle : (pow2 (w - 1) < word_mod)%num by apply: N.le_lt_trans hpw; apply: pow2_le; clear; lia.
  rewrite /sub64 (N.mod_small (pow2 _)) //.
  have -> : (pow2 (w - 1) + N.of_nat (n * (w %/ 8)) + word_mod - pow2 (w - 1))%num =
    (N.of_nat (n * (w %/ 8)) + 1 * word_mod)%num by move: hle; clear; lia.
  rewrite N.mod_add // N.mod_small //; move: hlt hpw; clear; lia.
have hq : 0 < w %/ 8 by rewrite divn_gt0.
rewrite /div64; case: N.eqb_spec => [|_]; first by move: hq; clear; lia.
rewrite obindE.
have -> : (N.of_nat (n * (w %/ 8)) / N.of_nat (w %/ 8))%num = N.of_nat n.
  rewrite Nat2N.inj_mul N.div_mul //; move: hq; clear; lia.
rewrite Nat2N.id up obindE.
set F := fun st i => _.
have key k : k <= (n + 1) %/ 2 -> exists2 x, ofold F ([::], input_word ap input (2 * 0 + 1)) (iota 0 k) =
     Ok (take (2 * k) input, x) & k <= n %/ 2 -> x = input_word ap input (2 * k + 1).
  elim: k => [|k IH] hk; first by exists (input_word ap input 1) => //=; rewrite muln0 take0.
  have [x e ex] := IH (ltnW hk).
  have hk2 : k <= n %/ 2 by move: hk; clear; lia.
  have hk3 : 2 * k < n by move: hk; clear; lia.
  rewrite -(addn1 k) iotaD ofold_cat e ex // add0n [iota k 1]/=; cbn [obind ofold].
  rewrite /F; cbn [fst snd].
  have -> : rcons (take (2 * k) input) (input_word ap input (2 * k + 1)) = take (2 * k + 1) input.
    by rewrite addn1 (take_nth 0%num) // -/n.
  case: ltnP => h2.
    rewrite -addnA hd; last by rewrite addn1.
    rewrite obindE lo up; cbn [obind].
    exists (input_word ap input (2 * (k + 1) + 1)) => //; congr (Ok (_, _)).
    have -> : 2 * (k + 1) = (2 * k + 1).+1 by clear; lia.
    by rewrite (take_nth 0%num) // -/n; move: h2; clear; lia.
  cbn [obind]; exists (input_word ap input (2 * k + 1)); last by move=> h3; move: h2 h3; clear; lia.
  congr (Ok (_, _)); rewrite !take_oversize //; rewrite -/n; move: h2; clear; lia.
have [x e _] := key _ (leqnn _).
rewrite e obindE; cbn [fst].
have -> : take (2 * ((n + 1) %/ 2)) input = input by rewrite take_oversize // -/n; clear; lia.
by rewrite -/n eqxx.
Qed.
End Load.

(** The initial memory: program at the bottom, input from half the memory on, nothing else. *)
Theorem C38_initial_memory ap program input :
  fits ap -> all (in_range ap) program -> word_size_ok ap -> input_ok ap input ->
  size program <= input_base ap ->
  exists m, [/\ initial_memory_contents ap program input = Ok m,
    forall i ti, oget program i = Ok ti -> exists2 d, as_dword ap ti = Ok d & nm_find m i = Some d,
    forall j, j <= size input %/ 2 -> nm_find m (input_base ap + j) = Some (input_dword ap input j) &
    forall a, size program <= a -> (a < input_base ap) || (input_base ap + size input %/ 2 < a) -> nm_find m a = None].
Proof.
move=> hf hp hw hi hsz; eexists; split; first exact: (initialE hf hp hw hi).
- move=> i ti e.
  have h : i < size program.
    rewrite ltnNge; apply/negP => h; move: e; elim: program i h {hp hsz} => [|x l IH] [|i] //= h.
    exact: IH.
  exists (encoded ap ti).
    have hr : in_range ap ti.
      by have := all_nthP ti hp i h; move: e; rewrite (oget_nth ti h) => -[->].
    by have [] := encode_spec hf hr.
  apply/(initial_find input hsz); rewrite /loaded mem_cat; apply/orP; left.
  apply/mapP; exists i; first by rewrite mem_iota.
  by move: e; rewrite (oget_nth (TinyramInstruction 0 false 0 0 0) h) => -[->].
- move=> j; exact: (initial_input hsz).
- move=> a h1 h2; case e: (nm_find _ a) => [v|] //.
  move/(initial_find input hsz): e; rewrite /loaded mem_cat => /orP[]/mapP[i]; rewrite mem_iota add0n => /andP[_ hi'] [e _].
    by move: h1; rewrite e leqNgt hi'.
  by move: h2; rewrite e; move: hi'; clear; lia.
Qed.
Print Assumptions C38_initial_memory.

(** The boot trace: the loads of the initial memory with descending timestamps from the bound
    minus one on, and no others; its contents are the initial memory; and the primary input is
    recovered from it. *)
Theorem C38_boot_trace ap program input bound :
  let total := size program + size input %/ 2 + 1 in
  fits ap -> all (in_range ap) program -> word_size_ok ap -> input_ok ap input ->
  size program <= input_base ap -> total <= bound -> (N.of_nat bound < 2 ^ 64)%num ->
  exists t m, [/\ boot_trace_from_program_and_input ap (N.of_nat bound) program input = Ok t /\
      initial_memory_contents ap program input = Ok m,
    forall i d, i < size program -> nm_find m i = Some d -> nm_find t (bound - 1 - i) = Some (i, d),
    (forall j, j <= size input %/ 2 ->
       nm_find t (bound - 1 - size program - j) = Some (input_base ap + j, input_dword ap input j)) /\
    (forall ts, bound <= ts \/ ts < bound - total -> nm_find t ts = None),
    forall a, nm_find (as_memory_contents t) a = nm_find m a &
    primary_input_from_boot_trace ap t = Ok input].
Proof.
move=> total hf hp hw hi hsz hb hb2.
have hsl : size (loaded ap program input) = total.
  by rewrite /loaded size_cat !size_map !size_iota addnA.
have hb' : size (loaded ap program input) <= bound by rewrite hsl.
have hb0 : 0 < bound by apply: leq_trans hb; rewrite /total addn1.
have hs : size (loaded ap program input) <= (bound - 1).+1 by move: hb' hb0; clear; lia.
have fnd ts := boot_find ts hs.
exists (trace_after (boot_sets ap program input bound)); eexists; split.
- split; [exact: (bootE hf hp hw hi)|exact: (initialE hf hp hw hi)].
- move=> i d h; move/(initial_find input hsz) => hin.
  rewrite fnd leq_subr.
  have -> : bound - 1 - (bound - 1 - i) = i by move: hb h; rewrite /total; clear; lia.
  rewrite (nth_map (0, 0%num)); last by rewrite hsl /total; move: h; clear; lia.
  congr Some; move: hin; rewrite /loaded mem_cat nth_cat size_map size_iota h (nth_map 0) ?size_iota // nth_iota //.
  case/orP=> /mapP[k]; rewrite mem_iota => /andP[_ hk] [e1 ->]; first by rewrite e1.
  by move: h; rewrite e1; move: hsz; clear; lia.
- split=> [j hj|ts hts].
    rewrite fnd; have -> : bound - 1 - size program - j <= bound - 1 by clear; lia.
    have -> : bound - 1 - (bound - 1 - size program - j) = size program + j by move: hb hj; rewrite /total; clear; lia.
    rewrite (nth_map (0, 0%num)); last by rewrite hsl /total; move: hj; clear; lia.
    rewrite /loaded nth_cat size_map size_iota ltnNge leq_addr /= addKn (nth_map 0) ?size_iota ?addn1 //.
    by rewrite nth_iota.
  rewrite fnd; case: leqP => // h; rewrite nth_default // size_map hsl.
  by move: h hts hb hb0; clear; lia.
- move=> a; exact: boot_contents.
- exact: (recover hw hi hsz).
Qed.
Print Assumptions C38_boot_trace.

(** The initial state of the CPU: register 0 holds the address of the last input word, the other
    registers zero, the flag is set and the tape is not exhausted. *)
Theorem C38_initial_state ap input : word_size_ok ap -> input_ok ap input -> 0 < ap_k ap ->
  let w := ap_w ap in let k := ap_k ap in
  exists s, [/\ initial_cpu_state ap input = Ok s, size s = k * w + 2,
    take w s = low_bits w (pow2 (w - 1) + N.of_nat (size input * (w %/ 8))),
    (forall r, 0 < r < k -> take w (drop (r * w) s) = low_bits w 0) &
    nth false s (k * w) = true /\ nth false s (k * w + 1) = false].
Proof.
move=> hw hi hk w k; rewrite /initial_cpu_state -/w.
have hw8 : 8 <= w by case/andP: hw.
have hw64 := w_lt hw; rewrite -/w in hw64.
have h0 := word0_lt hw hi; rewrite /input_word -/w in h0.
rewrite shl64_1; last by move: hw64; clear; lia.
rewrite obindE.
have -> : add64 (pow2 (w - 1)) (mul64 (N.of_nat (size input)) (N.of_nat (w %/ 8))) =
    (pow2 (w - 1) + N.of_nat (size input * (w %/ 8)))%num.
  have h' : (pow2 w <= word_mod)%num by rewrite word_modE; apply: pow2_le; exact: ltnW hw64.
  rewrite /add64 /mul64 -Nat2N.inj_mul (N.mod_small (N.of_nat _)).
    by rewrite N.mod_small //; exact: N.lt_le_trans h0 h'.
  apply: N.lt_le_trans h'; apply: N.le_lt_trans h0; lia.
set r0 := (_ + _)%num; rewrite /bits_msb_first revK -/(low_bits w r0) /resize /cpu_state_size -/k -/w size_low_bits.
have hkw : w <= k * w by rewrite leq_pmull.
rewrite take_oversize ?size_low_bits; last by move: hkw; clear; lia.
have -> : k * w + 2 - w = (k * w - w) + 2 by move: hkw; clear; lia.
rewrite nseqD catA; set z := _ ++ nseq (k * w - w) false.
have sz : size z = k * w by rewrite size_cat size_low_bits size_nseq subnKC.
rewrite size_cat sz /= addnK.
have put (l r : seq bool) : oput (l ++ r) (size l) true = omap (cat l) (oput r 0 true).
  elim: l => [|x l IH] /=; first by case: r.
  by rewrite IH; move: (r); clear; case.
rewrite -{1}sz put /=; exists (z ++ [:: true; false]); split=> //.
- by rewrite size_cat sz.
- by rewrite /z -catA take_size_cat ?size_low_bits.
- move=> r /andP[hr0 hr].
  have hrw : r * w + w <= k * w by rewrite -mulSnr leq_mul2r hr orbT.
  have hr1 : w <= r * w by rewrite leq_pmull.
  rewrite drop_cat sz ifT; last by move: hrw hw8; clear; lia.
  have -> : drop (r * w) z = nseq (k * w - r * w) false.
    rewrite /z drop_cat size_low_bits ifF; last by apply/negbTE; rewrite -leqNgt.
    by rewrite drop_nseq; congr nseq; move: hr1 hrw; clear; lia.
  have -> : k * w - r * w = w + (k * w - r * w - w) by move: hrw; clear; lia.
  by rewrite nseqD -catA take_size_cat ?size_nseq // low_bits0.
- by rewrite !nth_cat sz ltnn subnn /= ltnNge leq_addr /= addKn.
Qed.
Print Assumptions C38_initial_state.

(** The program starts after a prelude of 8 instructions. *)
Theorem C38_initial_pc ap : 0 < ap_w ap <= 64 -> initial_pc_addr ap = Ok 8.
Proof.
move=> h; rewrite /initial_pc_addr /prelude shl64_1 //; move: h; clear; lia.
Qed.
Print Assumptions C38_initial_pc.

Lemma boot_put_keeps l st ts : isSome (nm_find st.1 ts) ->
  isSome (nm_find (foldl (fun s av => boot_put s av.1 av.2) st l).1 ts).
Proof.
elim: l st => [|av l IH] st //= h; apply: IH; rewrite /= nm_find_set; by case: eqP.
Qed.
Lemma boot_wraps l t p K : N.to_nat (word_mod - 1) = K -> (p + 1 < N.of_nat (size l))%num -> (p < word_mod)%num ->
  isSome (nm_find (foldl (fun s av => boot_put s av.1 av.2) (t, p) l).1 K).
Proof.
move=> eK; elim: l t p => [|[a v] l IH] t p; first by rewrite /=; clear; lia.
move=> hs hp; cbn [foldl]; rewrite {2}/boot_put; cbn [fst snd].
have [e|ne] := N.eq_dec p 0.
  case: l IH hs => [|[a2 v2] l] IH; first by rewrite e /=; clear; lia.
  move=> _; cbn [foldl]; rewrite {2}/boot_put; cbn [fst snd].
  apply: boot_put_keeps; cbn [fst snd]; rewrite nm_find_set e.
  have e0 : sub64 0 1 = (word_mod - 1)%num by vm_compute.
  by rewrite e0 eK eqxx.
have e1 : sub64 p 1 = (p - 1)%num.
  rewrite /sub64 (N.mod_small 1) //.
  have -> : (p + word_mod - 1)%num = ((p - 1) + 1 * word_mod)%num by move: ne; clear; lia.
  rewrite N.mod_add // N.mod_small //; move: hp; clear; lia.
rewrite e1; apply: IH; last by move: hp; clear; lia.
by move: hs ne; cbn [size]; clear; lia.
Qed.

(** The bound is not checked: if the loads do not fit it, the position wraps around and some loads
    get timestamps up to 2^64 - 1. *)
Theorem C38_bound_refuted ap program input bound :
  fits ap -> all (in_range ap) program -> word_size_ok ap -> input_ok ap input ->
  0 < bound < size program + size input %/ 2 + 1 -> (N.of_nat bound < 2 ^ 64)%num ->
  exists t, boot_trace_from_program_and_input ap (N.of_nat bound) program input = Ok t /\
    nm_find t (N.to_nat (2 ^ 64 - 1)) <> None.
Proof.
move=> hf hp hw hi /andP[hb0 hb] hb2.
rewrite /boot_trace_from_program_and_input (program_fold hf hp boot_put) obindE.
have [h0 h1] := dwaddr_lt hw; rewrite shl64_1 // obindE (store_inputE hw hi) obindE -foldl_cat -/(loaded _ _ _).
have hsl : size (loaded ap program input) = size program + size input %/ 2 + 1.
  by rewrite /loaded size_cat !size_map !size_iota addnA.
eexists; split; first by [].
have e : sub64 (N.of_nat bound) 1 = N.of_nat (bound - 1).
  rewrite /sub64 (N.mod_small 1) //.
  have -> : (N.of_nat bound + word_mod - 1)%num = (N.of_nat (bound - 1) + 1 * word_mod)%num by move: hb0; clear; lia.
  rewrite N.mod_add // N.mod_small //; move: hb2; rewrite /word_mod; clear; lia.
rewrite e; have := @boot_wraps (loaded ap program input) [::] (N.of_nat (bound - 1)) _ erefl.
rewrite -/word_mod; move: (N.to_nat _) => K; rewrite hsl => hK e0; rewrite e0 in hK.
have h2 : (N.of_nat (bound - 1) + 1 < N.of_nat (size program + size input %/ 2 + 1))%num by move: hb hb0; clear; lia.
have h3 : (N.of_nat (bound - 1) < word_mod)%num by move: hb2; rewrite /word_mod; clear; lia.
by have := hK h2 h3.
Qed.
Print Assumptions C38_bound_refuted.

(** A program that reaches into the input region is not refused, and the initial memory and the
    contents of the boot trace then differ: the input wins in the former, the program in the latter. *)
Theorem C38_overlap_refuted ap program input bound :
  fits ap -> all (in_range ap) program -> word_size_ok ap -> input_ok ap input ->
  input_base ap < size program -> size program + size input %/ 2 + 1 <= bound -> (N.of_nat bound < 2 ^ 64)%num ->
  exists t m, [/\ boot_trace_from_program_and_input ap (N.of_nat bound) program input = Ok t,
    initial_memory_contents ap program input = Ok m,
    nm_find m (input_base ap) = Some (input_dword ap input 0) &
    exists2 d, as_dword ap (nth (TinyramInstruction 0 false 0 0 0) program (input_base ap)) = Ok d &
      nm_find (as_memory_contents t) (input_base ap) = Some d].
Proof.
move=> hf hp hw hi hlt hb hb2; set ti := nth _ _ _.
have hsl : size (loaded ap program input) = size program + size input %/ 2 + 1.
  by rewrite /loaded size_cat !size_map !size_iota addnA.
have hb' : size (loaded ap program input) <= bound by rewrite hsl.
have hb0 : 0 < bound by apply: leq_trans hb; rewrite addn1.
have hs : size (loaded ap program input) <= (bound - 1).+1 by move: hb' hb0; clear; lia.
have fnd ts := boot_find ts hs.
eexists; eexists; split; [exact: (bootE hf hp hw hi)|exact: (initialE hf hp hw hi)| |].
  rewrite /loaded foldl_cat; move: (foldl _ [::] _) => m0.
  rewrite addn1 [iota 0 _.+1]/=; cbn [map foldl fst snd]; rewrite addn0.
  set m1 := nm_set _ _ _; have : nm_find m1 (input_base ap) = Some (input_dword ap input 0) by rewrite nm_find_set eqxx.
  move: m1 => m1; have : all (fun j => 0 < j) (iota 1 (size input %/ 2)) by apply/allP => j; rewrite mem_iota => /andP[].
  elim: (iota 1 _) m1 => [|j l IH] m1 //= /andP[hj hl] h; apply: IH => //.
  by rewrite nm_find_set -{1}(addn0 (input_base ap)) eqn_add2l ltn_eqF.
exists (encoded ap ti); first by have [] := encode_spec hf (all_nthP (TinyramInstruction 0 false 0 0 0) hp _ hlt).
apply/C37_trace_contents; exists (bound - 1 - input_base ap).
  rewrite fnd leq_subr.
  have -> : bound - 1 - (bound - 1 - input_base ap) = input_base ap by move: hb hlt; clear; lia.
  rewrite (nth_map (0, 0%num)); last by rewrite hsl; move: hlt; clear; lia.
  by rewrite /loaded nth_cat size_map size_iota hlt (nth_map 0) ?size_iota // nth_iota.
move=> ts' v'; rewrite fnd; case: ifP => // hts.
case h2: (bound - 1 - ts' < size (loaded ap program input)); last by rewrite nth_default // size_map leqNgt h2.
rewrite (nth_map (0, 0%num)) // /loaded nth_cat size_map size_iota; case: ifP => h3.
  rewrite (nth_map 0) ?size_iota // nth_iota // add0n => -[e _]; move: e hts; clear; lia.
move=> _; move: h3 hlt hts; clear; lia.
Qed.
Print Assumptions C38_overlap_refuted.

(** A word size below 8 passes the constructor but divides by zero. *)
Theorem C38_small_words_refuted :
  exists ap t, [/\ new_params 4 2 = Ok ap, boot_trace_from_program_and_input ap 4 [::] [:: 1%num] = Ok t &
    primary_input_from_boot_trace ap t = UB].
Proof. by eexists; eexists; split; vm_compute. Qed.
Print Assumptions C38_small_words_refuted.

(** ** Examples *)

Definition ex_program : seq tinyram_instruction :=
  [:: TinyramInstruction 18 true 1 0 200; TinyramInstruction 4 false 1 0 1; TinyramInstruction 31 true 0 0 1].
Example C38_example :
  let ap := TinyramParams 8 2 in
  [&& fits ap, all (in_range ap) ex_program, word_size_ok ap, input_ok ap [:: 5; 255; 7]%num,
      size ex_program <= input_base ap,
      (if as_dword ap (TinyramInstruction 18 true 1 0 200) is Ok d then N.eqb d 38600 else false),
      (if boot_trace_from_program_and_input ap 9 ex_program [:: 5; 255; 7]%num is Ok t then
         (if primary_input_from_boot_trace ap t is Ok i then i == [:: 5; 255; 7]%num else false) &&
         (get_trace_entry t 5 == (64, (131 + 256 * 5)%num)) else false) &
      (if initial_cpu_state ap [:: 5; 255; 7]%num is Ok s then
         take 8 s == [:: true; true; false; false; false; false; false; true] else false)].
Proof. by vm_compute. Qed.
Example C38_overlap_example :
  let ap := TinyramParams 8 2 in let program := nseq 70 (TinyramInstruction 4 false 1 0 1) in
  [&& fits ap, all (in_range ap) program, word_size_ok ap, input_ok ap [:: 1%num], input_base ap < size program &
      size program + 1 %/ 2 + 1 <= 80].
Proof. by vm_compute. Qed.
