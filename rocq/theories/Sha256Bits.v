(** Words of FIPS 180-4 as vectors of bits.  Models nothing of /repo. *)
From Coq Require Import NArith ZifyN.
From mathcomp Require Import all_ssreflect zify.
From Verif Require Import Outcome GadgetSpec Sha256Spec.
Set Implicit Arguments.
Unset Strict Implicit.
Unset Printing Implicit Defensive.
Delimit Scope N_scope with num.

(** * The standard library's list functions *)
Lemma std_nth (A : Type) (l : seq A) i d : List.nth i l d = nth d l i.
Proof. by elim: l i => [|a l IH] [|i] //=. Qed.
Lemma std_firstn (A : Type) n (l : seq A) : List.firstn n l = take n l.
Proof. by elim: l n => [|a l IH] [|n] //=; rewrite IH. Qed.
Lemma std_skipn (A : Type) n (l : seq A) : List.skipn n l = drop n l.
Proof. by elim: l n => [|a l IH] [|n] //=. Qed.
Lemma std_seq a n : List.seq a n = iota a n.
Proof. by elim: n a => [|n IH] a //=; rewrite IH. Qed.
Lemma std_fold (A B : Type) (f : A -> B -> A) l a : List.fold_left f l a = foldl f a l.
Proof. by elim: l a => [|b l IH] a //=. Qed.
Lemma std_map (A B : Type) (f : A -> B) l : List.map f l = map f l.
Proof. by []. Qed.

(** * Bits and numbers *)
Fixpoint bitsN (bs : seq bool) : N := if bs is b :: bs' then (N.b2n b + 2 * bitsN bs')%num else 0%num.

Lemma bitsN_cons b bs : bitsN (b :: bs) = (N.b2n b + 2 * bitsN bs)%num. Proof. by []. Qed.
Lemma bitsN_nat bs : bitsN bs = N.of_nat (bits_nat bs).
Proof.
elim: bs => [|b bs IH] //; rewrite bitsN_cons IH [bits_nat _]/= Nnat.Nat2N.inj_add Nnat.Nat2N.inj_mul.
by case: b.
Qed.
Lemma bitsN_to_nat bs : N.to_nat (bitsN bs) = bits_nat bs.
Proof. by rewrite bitsN_nat Nnat.Nat2N.id. Qed.

Lemma bitsN_testbit bs i : N.testbit (bitsN bs) (N.of_nat i) = nth false bs i.
Proof.
elim: bs i => [|b bs IH] i; first by rewrite nth_nil.
rewrite bitsN_cons N.add_comm; case: i => [|i]; first by rewrite N.testbit_0_r.
have -> : N.of_nat i.+1 = N.succ (N.of_nat i) by lia.
by rewrite N.testbit_succ_r IH.
Qed.

(** Equality with a vector of 32 bits. *)
Lemma wordP w bs : size bs = 32 ->
  (forall i, i < 32 -> N.testbit w (N.of_nat i) = nth false bs i) ->
  (forall i, 32 <= i -> N.testbit w (N.of_nat i) = false) -> w = bitsN bs.
Proof.
move=> hs h1 h2; apply: N.bits_inj => j; rewrite -(Nnat.N2Nat.id j) bitsN_testbit.
case: (ltnP (N.to_nat j) 32) => h; first exact: h1.
by rewrite h2 // nth_default // hs.
Qed.

Lemma bitsN_high bs i : size bs <= i -> N.testbit (bitsN bs) (N.of_nat i) = false.
Proof. by move=> h; rewrite bitsN_testbit nth_default. Qed.

(** * The operations on bits *)
Lemma SHR_bit n w i : N.testbit (SHR (N.of_nat n) w) (N.of_nat i) = N.testbit w (N.of_nat (i + n)).
Proof.
rewrite /SHR N.shiftr_spec'; congr (N.testbit w _).
by rewrite Nnat.Nat2N.inj_add.
Qed.

Lemma ROTR_bit n bs i : size bs = 32 -> 0 < n < 32 -> i < 32 ->
  N.testbit (ROTR (N.of_nat n) (bitsN bs)) (N.of_nat i) = nth false bs ((i + n) %% 32).
Proof.
move=> hs hn hi; rewrite /ROTR N.lor_spec -/(SHR (N.of_nat n) _) SHR_bit bitsN_testbit.
rewrite N.mod_pow2_bits_low; last by lia.
case: (ltnP (i + n) 32) => h.
  rewrite modn_small // N.shiftl_spec_low ?orbF //; lia.
rewrite nth_default ?hs // orFb N.shiftl_spec_high'; last by lia.
have -> : ((i + n) %% 32 = i + n - 32)%N.
  have -> : (i + n = (i + n - 32) + 32)%N by lia.
  by rewrite modnDr modn_small; lia.
rewrite -bitsN_testbit; congr (N.testbit _ _); lia.
Qed.
Lemma ROTR_high n bs i : size bs = 32 -> 32 <= i ->
  N.testbit (ROTR (N.of_nat n) (bitsN bs)) (N.of_nat i) = false.
Proof.
move=> hs hi; rewrite /ROTR N.lor_spec -/(SHR (N.of_nat n) _) SHR_bit bitsN_testbit nth_default ?hs; last by lia.
rewrite N.mod_pow2_bits_high //; lia.
Qed.
Lemma wnot_bit w i : i < 32 -> N.testbit (wnot w) (N.of_nat i) = ~~ N.testbit w (N.of_nat i).
Proof. by move=> h; rewrite /wnot N.ldiff_spec N.ones_spec_low //; lia. Qed.
Lemma wnot_high w i : 32 <= i -> N.testbit (wnot w) (N.of_nat i) = false.
Proof. by move=> h; rewrite /wnot N.ldiff_spec N.ones_spec_high //; lia. Qed.

(** The bit vectors that the gadgets compute. *)
Definition rot_bit (bs : seq bool) (n i : nat) : bool := nth false bs ((i + n) %% 32).
Definition xor3_bits (bs : seq bool) (r1 r2 r3 : nat) : seq bool :=
  [seq rot_bit bs r1 i (+) rot_bit bs r2 i (+) rot_bit bs r3 i | i <- iota 0 32].
Definition xor3_shift (bs : seq bool) (r1 r2 s : nat) : seq bool :=
  [seq rot_bit bs r1 i (+) rot_bit bs r2 i (+) nth false bs (i + s) | i <- iota 0 32].
Definition ch_bits (a b c : seq bool) : seq bool :=
  [seq if nth false a i then nth false b i else nth false c i | i <- iota 0 32].
Definition maj_bits (a b c : seq bool) : seq bool :=
  [seq (2 <= nth false a i + nth false b i + nth false c i)%N | i <- iota 0 32].

Lemma nth_iota32 (f : nat -> bool) i : i < 32 -> nth false (map f (iota 0 32)) i = f i.
Proof. by move=> h; rewrite (nth_map 0) ?size_iota // nth_iota. Qed.

Lemma Sigma_bits bs r1 r2 r3 : size bs = 32 -> 0 < r1 < 32 -> 0 < r2 < 32 -> 0 < r3 < 32 ->
  N.lxor (N.lxor (ROTR (N.of_nat r1) (bitsN bs)) (ROTR (N.of_nat r2) (bitsN bs))) (ROTR (N.of_nat r3) (bitsN bs))
  = bitsN (xor3_bits bs r1 r2 r3).
Proof.
move=> hs h1 h2 h3; apply: wordP; first by rewrite size_map size_iota.
  by move=> i hi; rewrite !N.lxor_spec !ROTR_bit // nth_iota32 // /rot_bit; do 3!case: (nth _ _ _).
by move=> i hi; rewrite !N.lxor_spec !ROTR_high.
Qed.
Lemma sigma_bits bs r1 r2 s : size bs = 32 -> 0 < r1 < 32 -> 0 < r2 < 32 ->
  N.lxor (N.lxor (ROTR (N.of_nat r1) (bitsN bs)) (ROTR (N.of_nat r2) (bitsN bs))) (SHR (N.of_nat s) (bitsN bs))
  = bitsN (xor3_shift bs r1 r2 s).
Proof.
move=> hs h1 h2; apply: wordP; first by rewrite size_map size_iota.
  move=> i hi; rewrite !N.lxor_spec !ROTR_bit // nth_iota32 // /rot_bit SHR_bit bitsN_testbit.
  by do 3!case: (nth _ _ _).
move=> i hi; rewrite !N.lxor_spec !ROTR_high // SHR_bit bitsN_testbit nth_default //; lia.
Qed.
Lemma Ch_bits a b c : size a = 32 -> size b = 32 -> size c = 32 ->
  Ch (bitsN a) (bitsN b) (bitsN c) = bitsN (ch_bits a b c).
Proof.
move=> ha hb hc; apply: wordP; first by rewrite size_map size_iota.
  move=> i hi; rewrite /Ch N.lxor_spec !N.land_spec wnot_bit // !bitsN_testbit nth_iota32 //.
  by case: (nth _ a _); case: (nth _ b _); case: (nth _ c _).
move=> i hi; rewrite /Ch N.lxor_spec !N.land_spec wnot_high // !bitsN_testbit !nth_default //; lia.
Qed.
Lemma Maj_bits a b c : size a = 32 -> size b = 32 -> size c = 32 ->
  Maj (bitsN a) (bitsN b) (bitsN c) = bitsN (maj_bits a b c).
Proof.
move=> ha hb hc; apply: wordP; first by rewrite size_map size_iota.
  move=> i hi; rewrite /Maj !N.lxor_spec !N.land_spec !bitsN_testbit nth_iota32 //.
  by case: (nth _ a _); case: (nth _ b _); case: (nth _ c _).
move=> i hi; rewrite /Maj !N.lxor_spec !N.land_spec !bitsN_testbit !nth_default //; lia.
Qed.
Lemma Sigma0_bits bs : size bs = 32 -> Sigma0 (bitsN bs) = bitsN (xor3_bits bs 2 13 22).
Proof. by move=> h; rewrite -Sigma_bits. Qed.
Lemma Sigma1_bits bs : size bs = 32 -> Sigma1 (bitsN bs) = bitsN (xor3_bits bs 6 11 25).
Proof. by move=> h; rewrite -Sigma_bits. Qed.
Lemma sigma0_bits bs : size bs = 32 -> sigma0 (bitsN bs) = bitsN (xor3_shift bs 7 18 3).
Proof. by move=> h; rewrite -sigma_bits. Qed.
Lemma sigma1_bits bs : size bs = 32 -> sigma1 (bitsN bs) = bitsN (xor3_shift bs 17 19 10).
Proof. by move=> h; rewrite -sigma_bits. Qed.

(** * Sums *)
Lemma wadd_nat a b : N.to_nat (wadd a b) = (N.to_nat a + N.to_nat b) %% 2 ^ 32.
Proof. by rewrite /wadd /modulus; lia. Qed.

(** * Words read from bit strings *)
Lemma word_of_bitsE b : word_of_bits b = bitsN (rev b).
Proof.
rewrite /word_of_bits std_fold; elim/last_ind: b => [|b c IH] //.
by rewrite foldl_rcons IH rev_rcons bitsN_cons N.add_comm; case: c.
Qed.
Lemma words_of_bits_nth n b i : i < n ->
  nth 0%num (words_of_bits n b) i = bitsN (rev (take 32 (drop (32 * i) b))).
Proof.
move=> hi; rewrite /words_of_bits std_map std_seq (nth_map 0) ?size_iota // nth_iota //.
by rewrite word_of_bitsE std_firstn std_skipn.
Qed.
Lemma size_words n b : size (words_of_bits n b) = n.
Proof. by rewrite /words_of_bits std_map std_seq size_map size_iota. Qed.

Lemma bits_nat_mod (bs : seq bool) n : n <= size bs -> bits_nat (take n bs) = bits_nat bs %% 2 ^ n.
Proof.
elim: bs n => [|b bs IH] [|n] h; rewrite ?expn0 ?modn1 //.
rewrite [take _ _]/= [LHS]/= IH // [bits_nat (b :: bs)]/= expnS; have h0 : 0 < 2 ^ n by rewrite expn_gt0.
set m := bits_nat bs; set P := 2 ^ n in h0 *; have hr : m %% P < P by rewrite ltn_mod.
have hm := divn_eq m P; move: hm hr; move: (m %/ P) (m %% P) => q r hm hr.
have -> : b + 2 * m = q * (2 * P) + (b + 2 * r) by rewrite hm mulnDr mulnCA addnCA.
rewrite modnMDl modn_small //; lia.
Qed.
