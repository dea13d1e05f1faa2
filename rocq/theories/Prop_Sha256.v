(** C33: the SHA-256 gadgets.

    Vocabulary (GadgetSpec.v): [x] is the vector of variable values, [xval x v]
    the value of variable [v], [lval x l] that of a linear combination, [holds cs x]
    that all the constraints hold.  The hash function is that of Sha256Spec.v,
    written from FIPS 180-4 without reference to the code; [words_of_bits n b]
    reads a string of bits as [n] words.  [pb0] is the protoboard before the
    gadget was constructed, [pb1] the one after, [pb] any later state in which
    the witness is generated, and [assigns m pb pb'] says that at most the
    variables in [m] changed.  The field must have order at least 2^35: sums of
    up to eight words are formed in it. *)
From Coq Require Import NArith.
From mathcomp Require Import all_ssreflect all_algebra zify.
From Verif Require Import Outcome Lincomb LincombSpec LincombFacts R1CS R1CSSpec R1CSFacts CircuitsFacts Fieldtac.
From Verif Require Import Protoboard GadgetSpec GadgetLogic BasicGadgets BasicGadgetsFacts BasicGadgetsMore GadgetNew.
From Verif Require Import Sha256Spec Sha256Bits Sha256Gadget GadgetSeq Sha256Facts Sha256Word Sha256Word2 Sha256Sched
  Sha256Sched2 Sha256Round Sha256Rounds Sha256Compress Sha256Count Sha256Hash.
Set Implicit Arguments.
Unset Strict Implicit.
Unset Printing Implicit Defensive.
Local Open Scope ring_scope.
Import GRing.Theory.
Delimit Scope N_scope with num.
Local Opaque allocate_array iota.

Section Sha.
Variable F : fieldType.
Variable R : bigint_repr F.
Implicit Types (x : seq F) (pb : protoboard F).

(** The bits held by variables, and by linear combinations. *)
Definition var_bits x (vs : pb_variable_array) : seq bool := [seq bit_of (xval x v) | v <- vs].
Definition lc_bits x (ls : pb_linear_combination_array F) : seq bool := [seq bit_of (lval x l) | l <- ls].
Definition var_isbits x (vs : pb_variable_array) : bool := all (fun v => isbit (xval x v)) vs.

(** Every assignment that satisfies the compression gadget has boolean outputs,
    and they are the compression of the given state and block. *)
Theorem C33_compression_sound pb0 prev block output g pb1 x :
  pb_wf pb0 -> (2 ^ 35 <= fp_order R)%N -> size prev = (32 * 8)%N -> size block = (32 * 16)%N -> size output = (32 * 8)%N ->
  compression_new pb0 prev block output = Ok (g, pb1) ->
  all (fun l => isbit (lval x l)) prev -> var_isbits x block ->
  holds (compression_constraints g) x ->
  var_isbits x output /\
  words_of_bits 8 (var_bits x output) = sha256_compress (words_of_bits 8 (lc_bits x prev)) (words_of_bits 16 (var_bits x block)).
Proof.
move=> hw hR hp hb ho e h1 h2 h3; rewrite /var_isbits -all_isbit_plcs in h2.
have := compression_sound hw hR hp hb ho e h1 h2 h3.
by rewrite !bools_plcs all_isbit_plcs.
Qed.

(** Witness generation succeeds and satisfies the constraints, whatever the
    boolean state and block. *)
Theorem C33_compression_complete slot pb0 prev block output g pb1 pb :
  pb_wf pb0 -> (2 ^ 35 <= fp_order R)%N -> size prev = (32 * 8)%N -> size block = (32 * 16)%N -> size output = (32 * 8)%N ->
  compression_new pb0 prev block output = Ok (g, pb1) -> later pb1 pb ->
  uniq output -> all (is_var pb0) output ->
  (forall l, List.In l prev ->
     [/\ lc_proper slot (size (pb_values pb0)) (size (pb_lc_values pb0)) l, avoids output (lc_terms l),
         isbit (lval (pb_values pb) l) & pb_lc_val pb l = Ok (lval (pb_values pb) l)]) ->
  all (fun v => [&& (v <= size (pb_values pb0))%N, v \notin output & isbit (xval (pb_values pb) v)]) block ->
  exists pb', [/\ compression_witness R g pb = Ok pb', assigns (output ++ fresh_vars pb0 pb1) pb pb' &
     holds (compression_constraints g) (pb_values pb')].
Proof. exact: compression_complete. Qed.

(** The constructor succeeds on any protoboard, and the number of constraints
    does not depend on it. *)
Theorem C33_compression_size pb prev block output :
  size prev = (32 * 8)%N -> size block = (32 * 16)%N -> size output = (32 * 8)%N ->
  exists g pb', compression_new pb prev block output = Ok (g, pb') /\
    N.of_nat (size (compression_constraints g)) = 27280%num.
Proof.
move=> hp hb ho; have [g [pb' [e h]]] := compression_len pb hp hb ho.
exists g, pb'; split; [exact: e|rewrite h; clear; lia].
Qed.

(** The two-to-one hash: the compression of the standard initial value with the
    two inputs. *)
Theorem C33_two_to_one_sound pb0 left right output g pb1 ensure x :
  pb_wf pb0 -> (2 ^ 35 <= fp_order R)%N -> size (left ++ right) = (32 * 16)%N -> size output = (32 * 8)%N ->
  two_to_one_new pb0 left right output = Ok (g, pb1) -> var_isbits x (left ++ right) ->
  holds (two_to_one_constraints g ensure) x ->
  var_isbits x output /\
  words_of_bits 8 (var_bits x output) = sha256_compress H256 (words_of_bits 16 (var_bits x (left ++ right))).
Proof. exact: hash_sound. Qed.

(** Completeness needs the values that the constructor stored for the initial
    value: witness generation reads them and does not compute them again. *)
Theorem C33_two_to_one_complete pb0 left right output g pb1 ensure pb :
  pb_wf pb0 -> (2 ^ 35 <= fp_order R)%N -> size (left ++ right) = (32 * 16)%N -> size output = (32 * 8)%N ->
  two_to_one_new pb0 left right output = Ok (g, pb1) -> later pb1 pb -> uniq output -> all (is_var pb0) output ->
  all (fun v => [&& (v <= size (pb_values pb0))%N, v \notin output & isbit (xval (pb_values pb) v)]) (left ++ right) ->
  (forall i, (size (pb_lc_values pb0) <= i < size (pb_lc_values pb1))%N ->
     nth 0 (pb_lc_values pb) i = nth 0 (pb_lc_values pb1) i) ->
  exists pb', [/\ two_to_one_witness R g pb = Ok pb', assigns (output ++ fresh_vars pb0 pb1) pb pb' &
     holds (two_to_one_constraints g ensure) (pb_values pb')].
Proof. exact: hash_complete. Qed.

(** The constructor that takes a block is the same, and aborts unless the block
    length is 512 both times. *)
Theorem C33_two_to_one_block pb n block output :
  two_to_one_new_block pb n block output =
  if (n == 512%N) && (size block == 512%N) then two_to_one_new pb block [::] output else AssertFail.
Proof.
rewrite /two_to_one_new_block /two_to_one_new cats0 /oassert /SHA256_block_size.
case: eqP => [->|_]; last by rewrite andFb.
by case: eqP.
Qed.

(** Construction succeeds with [expected_constraints] constraints. *)
Theorem C33_two_to_one_size pb left right output ensure :
  pb_wf pb -> size (left ++ right) = (32 * 16)%N -> size output = (32 * 8)%N ->
  exists g pb', two_to_one_new pb left right output = Ok (g, pb') /\
    N.of_nat (size (two_to_one_constraints g ensure)) = sha256_expected_constraints.
Proof.
move=> hw hb ho; have [g [pb' [e h]]] := hash_len hw hb ho.
exists g, pb'; split; [exact: e|rewrite /two_to_one_constraints h /sha256_expected_constraints; clear; lia].
Qed.

(** [get_hash] is the compression function, on 512 bits; on any other length it
    aborts. *)
Theorem C33_get_hash input : (2 ^ 35 <= fp_order R)%N -> size input = (32 * 16)%N ->
  exists out, [/\ sha256_get_hash R input = Ok out, size out = (32 * 8)%N &
     words_of_bits 8 out = sha256_compress H256 (words_of_bits 16 input)].
Proof. exact: get_hash_ok. Qed.
Theorem C33_get_hash_length input : size input != (32 * 16)%N -> sha256_get_hash R input = AssertFail.
Proof. exact: get_hash_bad. Qed.

(** [digest_variable]: its constraints say that the bits are bits; writing a
    digest and reading it back is the identity. *)
Theorem C33_digest_bits bits x : holds (digest_variable_constraints F bits) x <-> var_isbits x bits.
Proof.
rewrite /digest_variable_constraints /var_isbits holds_map; split=> h.
  by apply/allP => v hv; have /boolean_constraintE := h v (iffRL (GadgetLogic.In_mem _ _) hv); rewrite -lval_var.
move=> v /(iffLR (GadgetLogic.In_mem _ _)) hv; apply/boolean_constraintE.
by have := allP h v hv; rewrite -lval_var.
Qed.
Theorem C33_digest_roundtrip pb bits contents : pb_wf pb -> uniq bits -> all (is_var pb) bits ->
  if size contents == size bits
  then exists pb', [/\ digest_variable_witness bits pb contents = Ok pb', assigns bits pb pb',
         get_digest bits pb' = Ok contents & holds (digest_variable_constraints F bits) (pb_values pb')]
  else digest_variable_witness bits pb contents = AssertFail.
Proof.
move=> hw hu ha; case: eqP => hs; last by apply: fill_with_bits_bad; rewrite eq_sym; apply/eqP.
have [||x' [h1 h2 h3]] := @fill_with_bits_ok F pb (pb_values pb) (pb_lc_values pb) bits contents => //.
exists (upd pb x' (pb_lc_values pb)).
have has := assigns_upd hw (wstep_changes (fun=> [::]) (pb_lc_values pb) h2).
have sx : size x' = size (pb_values pb) by case: h2.
have hb : var_isbits x' bits.
  apply/allP => v hv; have : xval x' v \in map (xval x') bits by apply: map_f.
  by rewrite h3 => /mapP [b _ ->]; apply: isbit_bit_val.
split=> //.
- by rewrite -h1 (board_of hw).
- rewrite /get_digest get_bits_ok; last 2 [by case: has].
    congr Ok; rewrite /bits_at /=.
    have -> : [seq bit_of (xval x' v) | v <- bits] = map (@bit_of F) (map (xval x') bits) by rewrite -map_comp.
    by rewrite h3 -map_comp -[RHS]map_id; apply: eq_map => b /=; rewrite bit_of_bit_val.
  apply/allP => v hv; rewrite (allP hb v hv) andbT /= sx.
  by have := allP ha v hv; rewrite /is_var => /andP [].
exact/C33_digest_bits.
Qed.

(** The padding constructor: its loop ends exactly when the digest is large
    enough (the assertion meant to ensure it cannot fail). *)
Theorem C33_digest_padding n bits padding :
  if (size bits <= n)%N
  then exists2 fuel, digest_variable_partial fuel n bits padding = Some (bits ++ nseq (n - size bits) padding) &
       forall k, digest_variable_partial (fuel + k) n bits padding = Some (bits ++ nseq (n - size bits) padding)
  else forall fuel, digest_variable_partial fuel n bits padding = None.
Proof.
rewrite /digest_variable_partial; case: leqP => hn.
  have h k : pad_loop (n - size bits + k) n padding bits = Some (bits ++ nseq (n - size bits) padding).
    move e: (n - size bits)%N => d; elim: d bits hn e => [|d IH] bits hn e.
      have -> : n = size bits by lia.
      by case: k => [|k] /=; rewrite eqxx cats0.
    rewrite /= ifT; last by apply/eqP; lia.
    by rewrite IH ?size_rcons; try lia; rewrite cat_rcons.
  by exists (n - size bits)%N => [|//]; have := h 0%N; rewrite addn0.
move=> fuel; elim: fuel bits hn => [|fuel IH] bits hn /=.
  by rewrite ifT //; apply/eqP; lia.
rewrite ifT; last by apply/eqP; lia.
by apply: IH; rewrite size_rcons; lia.
Qed.
End Sha.

(** * The hypotheses are met *)

(** The prime field of a prime above 2^35. *)
Definition big_p : nat := s2val (prime_above (2 ^ 35)).
Lemma big_p_prime : prime big_p. Proof. exact: (s2valP' (prime_above (2 ^ 35))). Qed.
Lemma big_p_lt : (2 ^ 35 < big_p)%N. Proof. exact: (s2valP (prime_above (2 ^ 35))). Qed.
Definition Fp_repr (p : nat) (hp : prime p) : bigint_repr [fieldType of 'F_p].
Proof.
refine (@BigintRepr [fieldType of 'F_p] p hp _ (fun a : 'F_p => nat_of_ord a) _ _).
- by apply/eqP; have := char_Fp hp; rewrite !inE => /andP [].
- by move=> a; have := ltn_ord (a : 'F_p); rewrite [X in (_ < X)%N -> _]Fp_cast.
- by move=> a; rewrite natr_Zp.
Defined.
Definition Fbig : fieldType := [fieldType of 'F_big_p].
Definition Rbig : bigint_repr Fbig := Fp_repr big_p_prime.
Lemma Rbig_ok : (2 ^ 35 <= fp_order Rbig)%N. Proof. exact: ltnW big_p_lt. Qed.

(** The hash of the one-block message "abc", with its padding. *)
Definition bits_of_word (w : N) : seq bool := [seq N.testbit w (N.of_nat (31 - i)) | i <- iota 0 32].
Definition abc_block : seq bool := flatten (map bits_of_word
  [:: 0x61626380; 0; 0; 0; 0; 0; 0; 0; 0; 0; 0; 0; 0; 0; 0; 0x18]%num).
Example C33_ex1 : exists out, sha256_get_hash Rbig abc_block = Ok out /\
  words_of_bits 8 out = [:: 0xba7816bf; 0x8f01cfea; 0x414140de; 0x5dae2223; 0xb00361a3; 0x96177a9c; 0xb410ff61; 0xf20015ad]%num.
Proof.
have [|out [h1 _ h2]] := C33_get_hash (input := abc_block) Rbig_ok; first by vm_compute.
by exists out; split=> //; rewrite h2; vm_compute.
Qed.

(** The two-to-one gadget on a protoboard with 768 variables, all 0: it is
    built, witness generation succeeds, and the outputs are the hash of 512
    zeros. *)
Lemma zero_board (F : fieldType) n : exists pb0 : protoboard F, [/\ pb_wf pb0, size (pb_values pb0) = n &
  forall v, xval (pb_values pb0) v.+1 = 0].
Proof.
case e0: (allocate_array (pb_new F) n) => [vs pb0].
have [h1 h2 h3 h4 h5] := allocate_array_wf (pb := pb_new F) (And4 erefl erefl erefl erefl) e0.
exists pb0; split=> // [|v]; first by rewrite h2 size_nseq.
by rewrite h2 /xval /= nth_nseq if_same.
Qed.
Lemma zero_run (F : fieldType) (R : bigint_repr F) left right output : (2 ^ 35 <= fp_order R)%N ->
  size (left ++ right) = (32 * 16)%N -> size output = (32 * 8)%N -> uniq output ->
  (forall v, v \in left ++ right -> (0 < v <= 512)%N) -> (forall v, v \in output -> (512 < v <= 768)%N) ->
  exists (pb0 pb1 pb' : protoboard F) g,
  [/\ two_to_one_new pb0 left right output = Ok (g, pb1),
      two_to_one_witness R g pb1 = Ok pb', holds (two_to_one_constraints g false) (pb_values pb') &
      words_of_bits 8 (var_bits (pb_values pb') output) =
      sha256_compress H256 (words_of_bits 16 (nseq 512 false))].
Proof.
move=> hR hs ho hu hb hout; have [pb0 [hw0 z0 v0]] := zero_board F 768.
have [g [pb1 [e1 _]]] := C33_two_to_one_size false hw0 hs ho.
exists pb0, pb1.
have ab : allocates pb0 pb1.
  have [pb [e a _ _]] := hash_inv hw0 e1.
  exact: allocates_trans a (compression_alloc (allocates_wf a) hR (size_iv _ _) hs ho e).
have x1 v : (v <= 768)%N -> xval (pb_values pb1) v = xval (pb_values pb0) v.
  by case: ab => _ [zs ->] _ _; case: v => [_ //|v] hv; rewrite /xval /= nth_cat z0 hv.
have xz v : v \in left ++ right -> xval (pb_values pb1) v = 0.
  by move=> /hb; case: v => [|v] hv; rewrite ?x1 ?v0 //; clear - hv; lia.
have hw1 := allocates_wf ab.
have hl : later pb1 pb1 by [].
have ob v : v \in left ++ right -> v \notin output by move=> /hb hv; apply/negP => /hout; clear - hv; lia.
move/Hid: e1 => e1.
have [|||pb' [e2 a2 h2]] := C33_two_to_one_complete false hw0 hR hs ho (unhid e1) hl hu.
- by apply/allP => v /hout hv; rewrite /is_var z0; clear - hv; lia.
- apply/allP => v hv; rewrite ob // xz // /isbit eqxx z0 /=; have := hb v hv; clear; lia.
- by [].
exists pb', g.
have xb v : v \in left ++ right -> xval (pb_values pb') v = 0.
  move=> hv; case: a2 => _ _ _ [_ ->]; rewrite ?xz // mem_cat negb_or ob //=.
  by rewrite mem_fresh // z0; have := hb v hv; clear; lia.
have [|_ hsnd] := C33_two_to_one_sound hw0 hR hs ho (unhid e1) _ h2.
  by apply/allP => v hv; rewrite xb // /isbit eqxx.
split; [exact: unhid e1|exact: e2|exact: h2|rewrite hsnd].
congr (sha256_compress _ (words_of_bits _ _)).
clear - hs xb; rewrite /var_bits; have -> : 512%N = size (left ++ right) by rewrite hs.
clear hs.
move: (left ++ right) xb; elim=> [|v vs IH] //= hx; rewrite IH => [|w hw]; last by apply: hx; rewrite inE hw orbT.
by rewrite hx ?inE ?eqxx // /bit_of eq_sym oner_eq0.
Qed.
Example C33_ex2 : exists (pb0 pb1 pb' : protoboard Fbig) g,
  [/\ two_to_one_new pb0 (iota 1 256) (iota 257 256) (iota 513 256) = Ok (g, pb1),
      two_to_one_witness Rbig g pb1 = Ok pb', holds (two_to_one_constraints g false) (pb_values pb') &
      words_of_bits 8 (var_bits (pb_values pb') (iota 513 256)) =
      sha256_compress H256 (words_of_bits 16 (nseq 512 false))].
Proof.
apply: zero_run => [||||v|v]; [exact: Rbig_ok|by rewrite size_cat !size_iota|by rewrite size_iota|by rewrite iota_uniq| |].
  by rewrite mem_cat !mem_iota; clear; lia.
by rewrite mem_iota; clear; lia.
Qed.

Print Assumptions C33_compression_sound.
Print Assumptions C33_compression_complete.
Print Assumptions C33_compression_size.
Print Assumptions C33_two_to_one_sound.
Print Assumptions C33_two_to_one_complete.
Print Assumptions C33_two_to_one_block.
Print Assumptions C33_two_to_one_size.
Print Assumptions C33_get_hash.
Print Assumptions C33_get_hash_length.
Print Assumptions C33_digest_bits.
Print Assumptions C33_digest_roundtrip.
Print Assumptions C33_digest_padding.
