(** The SHA-256 gadget as a hash for the Merkle-tree gadgets. *)
From Coq Require Import NArith.
From mathcomp Require Import all_ssreflect all_algebra zify.
From Verif Require Import Outcome Lincomb LincombSpec LincombFacts R1CS R1CSSpec R1CSFacts Fieldtac.
From Verif Require Import Protoboard GadgetSpec GadgetLogic BasicGadgets BasicGadgetsFacts BasicGadgetsMore BasicGadgetsCopy GadgetNew.
From Verif Require Import Sha256Spec Sha256Gadget Sha256Bits GadgetSeq Sha256Hash Knapsack MerkleGadget MerkleGadgetSpec MerkleSound.
Set Implicit Arguments.
Unset Strict Implicit.
Unset Printing Implicit Defensive.
Local Open Scope ring_scope.
Import GRing.Theory.
Local Opaque allocate_array iota.

Lemma word_bitsK b : size b = 32%N -> word_bits (word_of_bits b) = b.
Proof.
move=> hb; rewrite /word_bits word_of_bitsE; apply: (@eq_from_nth _ false); rewrite size_map size_iota ?hb // => i hi.
rewrite (nth_map 0%N) ?size_iota // nth_iota // add0n bitsN_testbit nth_rev ?hb; last by lia.
by congr nth; lia.
Qed.
Lemma words_bitsK m b : size b = (32 * m)%N -> flatten (map word_bits (words_of_bits m b)) = b.
Proof.
rewrite /words_of_bits std_map std_seq -map_comp => hb.
have -> : [seq (word_bits \o (fun i => word_of_bits (List.firstn 32 (List.skipn (PeanoNat.Nat.mul 32 i) b)))) i | i <- iota 0 m] =
   [seq take 32 (drop (32 * i) b) | i <- iota 0 m].
  apply/eq_in_map => i; rewrite mem_iota add0n => /andP [_ hi].
  have e : size (take 32 (drop (32 * i) b)) = 32%N by rewrite size_take size_drop hb; case: ltnP; lia.
  by rewrite -[RHS](word_bitsK e) -std_firstn -std_skipn.
elim: m b hb => [|m IH] b hb; first by case: b hb.
rewrite -[in LHS](addn1 m) addnC iotaD map_cat flatten_cat /=.
have -> : iota 0 1 = [:: 0%N] by [].
rewrite /= muln0 drop0 cats0 add0n.
have -> : [seq take 32 (drop (32 * i) b) | i <- iota 1 m] = [seq take 32 (drop (32 * i) (drop 32 b)) | i <- iota 0 m].
  rewrite -[1%N]add0n -(add0n 1%N) addnC iotaDl -map_comp; apply: eq_map => i /=; rewrite drop_drop.
  by congr (take _ (drop _ _)); lia.
rewrite IH ?size_drop ?hb; last by lia.
by rewrite cat_take_drop.
Qed.

Section ShaHash.
Variable F : fieldType.
Variable R : bigint_repr F.
Hypothesis hR : (2 ^ (32 + 3) <= fp_order R)%N.

Lemma sha_new_inv pb0 len block out (r : compression F * protoboard F) : two_to_one_new_block pb0 len block out = Ok r ->
  size block = (32 * 16)%N /\ hash_new pb0 block out = Ok r.
Proof.
rewrite /two_to_one_new_block => h0.
have [/eqP h1 h4] := oassert_Ok h0; have [/eqP h2 h3] := oassert_Ok h4; clear h0 h4.
by split; [rewrite h2 h1|exact: h3].
Qed.

Lemma sha_allocates : hash_allocates (sha256_hash R).
Proof.
move=> pb0 len block out g pb1 hw _ ho /sha_new_inv [hb e].
have [pb [e1 a1 _ _]] := hash_inv hw e; clear e.
have a2 := compression_alloc (allocates_wf a1) hR (size_iv F _) hb ho e1; clear e1.
exact: allocates_trans a1 a2.
Qed.

Lemma sha_bits pb0 block out g pb1 e x : pb_wf pb0 -> size out = (32 * 8)%N ->
  hg_new (sha256_hash R) pb0 (32 * 16) block out = Ok (g, pb1) ->
  var_isbits x block -> holds (hg_constraints g e) x ->
  var_isbits x out /\ var_bits x out = sha256_two_to_one (var_bits x block).
Proof.
move=> hw ho /sha_new_inv [hb e0] hbits hh.
have [h1 h2] := hash_sound hw hR hb ho e0 hbits hh; clear e0 hh; split; first exact: h1.
have h3 : size (bits_at x out) = (32 * 8)%N by rewrite size_map.
by rewrite /sha256_two_to_one -[var_bits x block]/(bits_at x block) -h2 words_bitsK.
Qed.

Lemma sha_enforces : hash_enforces (sha256_hash R) (2 * hg_digest_len (sha256_hash R)) (graph sha256_two_to_one).
Proof.
move=> pb0 block out g pb1 e x hw hb ho en hbits hh.
by have [h1 h2] := sha_bits hw ho en hbits hh; split.
Qed.
Lemma sha_enforces_packed : hash_enforces_packed (sha256_hash R) (capacity R) (2 * hg_digest_len (sha256_hash R)) (graph sha256_two_to_one).
Proof.
move=> pb0 block out g pb1 e x d hw hb ho en hbits hh sd ed.
have [h1 h2] := sha_bits hw ho en hbits hh; clear en hh.
rewrite /graph -h2.
suff e1 : map (xval x) out = map (bit_val F) d.
  have : map (@bit_of F) (map (xval x) out) = map (@bit_of F) (map (bit_val F) d) by rewrite e1.
  rewrite -!map_comp => e2; apply: etrans (esym e2).
  by rewrite -[LHS]map_id; apply: eq_map => b /=; rewrite bit_of_bit_val.
have hc : (0 < capacity R)%N.
  have : (1 < size_in_bits R)%N by rewrite ltnNge /size_in_bits num_bits_le expn1 -leqNgt; apply: prime_gt1; exact: fp_prime.
  by rewrite /capacity; lia.
have hcap := @capacity_lt F R.
rewrite -(chunks_flatten (map (xval x) out) hc) -(chunks_flatten (map (bit_val F) d) hc); congr flatten.
have hs : size (map (xval x) out) = size (map (bit_val F) d) by rewrite !size_map ho sd.
have b1 : all (@isbit F) (map (xval x) out) by rewrite all_map.
have b2 : all (@isbit F) (map (bit_val F) d) by rewrite all_map; apply/allP => b _ /=; rewrite isbit_bit_val.
move: ed; rewrite /chunks hs -!map_comp => /eq_in_map ed; apply/eq_in_map => i hi.
have bb s : all (@isbit F) s -> all (@isbit F) (chunk_slice s (capacity R) i).
  by move=> /all_InP hbb; apply/all_InP => v hv; apply: hbb; apply: chunk_slice_In hv.
apply: (@pack_inj F R); rewrite ?bb //; last exact: (ed i hi).
  by rewrite /chunk_slice !size_drop !size_take hs.
by apply: leq_trans hcap; rewrite leq_exp2l //; exact: size_chunk_slice.
Qed.
End ShaHash.
