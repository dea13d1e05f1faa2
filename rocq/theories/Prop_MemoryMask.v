(** C55: the memory masking gadget writes a byte or a word into a double word; and store.b
    does not bind the byte it stores.

    [bits_are x vs bs] says that the assignment [x] gives the variables [vs] the bits [bs],
    least significant first, and [bits_nat bs] is their number; [is_word x d bs] that the bits
    of [d] are [bs] and its packed value is their number.  The soundness theorem ranges over
    all assignments [x] that satisfy the gadget's constraints. *)
From mathcomp Require Import all_ssreflect all_algebra zify.
From Verif Require Import Outcome Lincomb LincombSpec LincombFacts R1CS R1CSSpec R1CSFacts Fieldtac.
From Verif Require Import Protoboard GadgetSpec GadgetLogic BasicGadgets BasicGadgetsFacts BasicGadgetsMore.
From Verif Require Import Alu AluSpec AluFacts TinyramCpuFacts MemoryMask MemoryMaskFacts Prop_Alu.
Set Implicit Arguments.
Unset Strict Implicit.
Unset Printing Implicit Defensive.
Local Open Scope ring_scope.
Import GRing.Theory.

(** * Specification *)
(** The double word [ps] with its byte [s] replaced by [cs]. *)
Definition replace_byte (ps : seq bool) (s : nat) (cs : seq bool) : seq bool :=
  take (8 * s) ps ++ cs ++ drop (8 * s.+1) ps.
(** The double word [ps] with its lower word, or its upper word if [t], replaced by [cs]. *)
Definition replace_word (w : nat) (ps : seq bool) (t : bool) (cs : seq bool) : seq bool :=
  if t then take w ps ++ cs else cs ++ drop w ps.

Section Props.
Variable F : fieldType.
Variable R : bigint_repr F.
Implicit Types (x : seq F) (pb : protoboard F).
Let bit (b : bool) : F := (nat_of_bool b)%:R.

(** For every word size of [n] bytes: if the double word before is [ps], the subaddress is
    [s], with [t] its top bit, and exactly one of the two kinds of access is set, then the
    constraints force the double word after to be the one before with the accessed byte or
    word replaced by the subcontents, and all the rest kept. *)
Theorem C55_masking pb w n sl prev sub c wd by_ next g pb' x s t ps cs b :
  pb_wf pb -> mask_new pb w n prev sub c wd by_ next = Ok (g, pb') -> w = (8 * n)%N -> (2 * n <= fp_order R)%N ->
  is_word x prev ps -> size ps = (2 * w)%N ->
  (s < 2 * n)%N -> xval x (dv_packed sub) = s%:R -> xval x (nth 0%N (dv_bits sub) (sl - 1)) = bit t ->
  lval x by_ = bit b -> lval x wd = bit (~~ b) ->
  lval x c = (bits_nat cs)%:R -> size cs = (if b then 8%N else w) ->
  holds (mask_constraints n sl g) x ->
  xval x (dv_packed next) = (bits_nat (if b then replace_byte ps s cs else replace_word w ps t cs))%:R.
Proof. exact: mask_sound. Qed.

(** If the double word after is the one before, as the CPU checker demands of every instruction
    but a store, then the subcontents are the accessed byte or word of it: what a load
    returns. *)
Theorem C55_load pb w n sl prev sub c wd by_ next g pb' x s t ps b :
  pb_wf pb -> mask_new pb w n prev sub c wd by_ next = Ok (g, pb') -> w = (8 * n)%N ->
  (2 * n <= fp_order R)%N -> (2 < fp_order R)%N ->
  is_word x prev ps -> size ps = (2 * w)%N ->
  (s < 2 * n)%N -> xval x (dv_packed sub) = s%:R -> xval x (nth 0%N (dv_bits sub) (sl - 1)) = bit t ->
  lval x by_ = bit b -> lval x wd = bit (~~ b) ->
  xval x (dv_packed next) = xval x (dv_packed prev) ->
  holds (mask_constraints n sl g) x ->
  lval x c = (bits_nat (if b then take 8 (drop (8 * s) ps) else if t then drop w ps else take w ps))%:R.
Proof.
move=> hw hg ew hn h2 hp sp hs es et eb ewd en hh.
rewrite (load_sound hw hg ew hn h2 hp sp hs es et eb ewd en hh) take_drop.
by have -> : (8 + 8 * s = 8 * s.+1)%N by rewrite mulnS.
Qed.

(** The memory part of the whole step.  [ind] are the opcode indicators, of which the one
    of opcode [k] is set (C56_opcode), and the kind of access is that of
    tinyram_cpu_checker.tcc:94-95: a byte for load.b and store.b, a word otherwise.  Then load.b
    (27) and load.w (29) return the byte and the word accessed; store.w (28) writes
    the packed value of the destination, and store.b (26) the number formed by its low bits;
    and no other instruction changes memory. *)
Theorem C55_cpu_memory pb w n sl prev sub c wd by_ next g pb' ind results desval x k s t ps :
  pb_wf pb -> mask_new pb w n prev sub (plc_of_var F c) wd by_ next = Ok (g, pb') -> w = (8 * n)%N ->
  (2 * n <= fp_order R)%N -> (2 < fp_order R)%N ->
  is_word x prev ps -> size ps = (2 * w)%N ->
  (s < 2 * n)%N -> xval x (dv_packed sub) = s%:R -> xval x (nth 0%N (dv_bits sub) (sl - 1)) = bit t ->
  (forall i, (i < 32)%N -> xval x (nth 0%N ind i) = bit (i == k)) ->
  lval x by_ = xval x (nth 0%N ind 27) + xval x (nth 0%N ind 26) ->
  lval x wd = 1 - (xval x (nth 0%N ind 27) + xval x (nth 0%N ind 26)) ->
  holds ((mask_indicators n sl g ++ inner_product_constraints (mm_ip g)) ++ cpu_store_constraints ind results desval c g) x ->
  [/\ k = 27%N -> xval x (nth 0%N results 27) = (bits_nat (take 8 (drop (8 * s) ps)))%:R,
      k = 29%N -> xval x (nth 0%N results 29) = (bits_nat (if t then drop w ps else take w ps))%:R,
      k = 28%N -> forall ds, size ds = w -> xval x (dv_packed desval) = (bits_nat ds)%:R ->
        xval x (dv_packed next) = (bits_nat (replace_word w ps t ds))%:R,
      k = 26%N -> forall cs, size cs = 8%N -> bits_are x (take 8 (dv_bits desval)) cs ->
        xval x (dv_packed next) = (bits_nat (replace_byte ps s cs))%:R &
      k <> 26%N -> k <> 28%N -> xval x (dv_packed next) = xval x (dv_packed prev)].
Proof.
move=> hw hg ew hn h2 hp sp hs es et hk eb ewd /holds_cat [h3 hh].
have [_ [e1 e2 e3 e4 [e5 e6]]] := mask_new_spec x hw hg.
move: hh; rewrite /cpu_store_constraints 4!holds_cat => [[_ [_ [h4 [h5 h6]]]]].
have hm : holds (mask_constraints n sl g) x by rewrite /mask_constraints catA; apply/holds_cat; split.
move: h6 => /holds1; rewrite /keep_memory /constraint_holds; cbn [c_a c_b c_c]; rewrite !fsE e1 e6 => h6.
move: h5; rewrite /handle_memory 3!holds_cons holds1 /constraint_holds; cbn [c_a c_b c_c]; rewrite !fsE => [[q27 [q29 [q26 q28]]]].
have keep : k <> 26%N -> k <> 28%N -> xval x (dv_packed next) = xval x (dv_packed prev).
  move=> n26 n28; move: h6; rewrite !hk //.
  have -> : (26%N == k) = false by apply/eqP => e; apply: n26.
  have -> : (28%N == k) = false by apply/eqP => e; apply: n28.
  by rewrite /bit addr0 subr0 mul1r => /eqP; rewrite subr_eq0 => /eqP.
have ld b := load_sound (b := b) hw hg ew hn h2 hp sp hs es et.
have sd b cs := mask_sound (b := b) (cs := cs) hw hg ew hn hp sp hs es et.
have act a b : 1 * (a - b) = 0%:~R -> a = b :> F by rewrite mul1r => /eqP; rewrite subr_eq0 => /eqP.
rewrite lval_var in ld; split=> //.
- move=> ek; subst k; rewrite !hk // in eb ewd q27; rewrite -(act _ _ q27).
  rewrite (ld true) //; first by rewrite take_drop; have -> : (8 + 8 * s = 8 * s.+1)%N by rewrite mulnS.
  + by rewrite eb /bit addr0.
  + by rewrite ewd /bit addr0 subrr.
  + exact: keep.
- move=> ek; subst k; rewrite !hk // in eb ewd q29; rewrite -(act _ _ q29).
  rewrite (ld false) //.
  + by rewrite eb /bit addr0.
  + by rewrite ewd /bit addr0 subr0.
  + exact: keep.
- move=> ek ds sds ed; subst k; rewrite !hk // in eb ewd q28; apply: (sd false) => //.
  + by rewrite eb /bit addr0.
  + by rewrite ewd /bit addr0 subr0.
  + by rewrite lval_var (act _ _ q28).
- move=> ek cs scs ecs; subst k; rewrite !hk // in eb ewd q26; apply: (sd true) => //.
  + by rewrite eb /bit add0r.
  + by rewrite ewd /bit add0r subrr.
  + by rewrite lval_var (act _ _ q26) /slice_sum packing_sumE lval_vars /slice drop0 (pack_are ecs).
Qed.

(** Refuted: that the constraints of store.b bind the stored byte to the destination
    register's value.  Take any assignment that satisfies the CPU checker during a store.b, where
    [rest] are its constraints that mention neither the subcontents, nor the low bits of the
    destination's value, nor the double word after.  Then for every byte [cs] whatever there is an
    assignment that differs only in those variables, satisfies the same constraints, and
    stores [cs]: the value of the destination register itself, [dv_packed desval], need not
    be among the variables changed. *)
Theorem C55_store_byte_refuted pb w n sl prev sub c wd by_ next g pb' (rest : seq (r1cs_constraint F)) ind results desval x s ps cs :
  let m := c :: dv_packed next :: take 8 (dv_bits desval) ++ dv_bits next in
  let system := (rest ++ mask_indicators n sl g ++ inner_product_constraints (mm_ip g)) ++
                cpu_store_constraints ind results desval c g in
  pb_wf pb -> mask_new pb w n prev sub (plc_of_var F c) wd by_ next = Ok (g, pb') -> w = (8 * n)%N -> (2 * n <= fp_order R)%N ->
  is_word x prev ps -> size ps = (2 * w)%N -> (s < 2 * n)%N -> xval x (dv_packed sub) = s%:R ->
  (8 <= size (dv_bits desval))%N -> size (dv_bits next) = (2 * w)%N ->
  uniq m -> all (fun v => 0 < v <= size x)%N m -> dv_packed desval \notin m ->
  lval x by_ = 1 -> lval x wd = 0 -> isbit (xval x (sub_top sl g)) ->
  [/\ xval x (nth 0%N ind 26) = 1, xval x (nth 0%N ind 27) = 0, xval x (nth 0%N ind 28) = 0 & xval x (nth 0%N ind 29) = 0] ->
  [/\ nth 0%N ind 26 \notin m, nth 0%N ind 27 \notin m, nth 0%N ind 28 \notin m & nth 0%N ind 29 \notin m] ->
  avoids m (lc_terms (mm_shift g)) -> mm_masked g \notin m ->
  unaffected m (rest ++ mask_indicators n sl g ++ inner_product_constraints (mm_ip g)) ->
  holds system x -> size cs = 8%N ->
  exists x', [/\ changes_only m x x', holds system x', xval x' (dv_packed desval) = xval x (dv_packed desval) &
    is_word x' next (replace_byte ps s cs)].
Proof.
move=> m system hw hg ew hn hp sp hs es hd hx hu hr hdm eb ewd ht hi hj hsh hmk hun hh sc.
have [x' [h1 h2 h3]] := store_any_byte hw hg ew hn hp sp hs es hd hx hu hr eb ewd ht hi hj hsh hmk hun hh sc.
by exists x'; split=> //; case: h1 => _; apply.
Qed.
End Props.

(** * The hypotheses are met: words of one byte over the field with 17 elements.
    The double word before is 3, byte 0 is accessed, and the byte stored is 5. *)
Section Example_.
Local Open Scope nat_scope.
Definition mm_prev17 := DualVariable 17 (iota 1 16).
Definition mm_sub17 := DualVariable 19 [:: 18].
Definition mm_next17 := DualVariable 39 (iota 23 16).
Definition mm_des17 := DualVariable 48 (iota 40 8).
Definition mm_ind17 : seq nat := nseq 26 49 ++ [:: 50; 51; 52; 53; 53; 53].
Definition mm_res17 : seq nat := nseq 30 54.
Definition mm_bits17 (k n : nat) : seq F17 := [seq (nat_of_bool (odd (k %/ 2 ^ i)))%:R%R | i <- iota 0 n].
(** byte access [b], subaddress [s], subcontents [v] *)
Definition mm_pb17 (b : bool) (s v : nat) : protoboard F17 :=
  upd (allocate_array (pb_new F17) 54).2
    (mm_bits17 3 16 ++ 3%:R%R :: s%:R%R :: s%:R%R :: v%:R%R :: (nat_of_bool (~~ b))%:R%R :: (nat_of_bool b)%:R%R ::
     nseq 17 0%R ++ mm_bits17 5 8 ++ 5%:R%R :: 0%R :: 1%R :: nseq 4 0%R) [::].
Definition mm_new17 b s v :=
  mask_new (mm_pb17 b s v) 8 1 mm_prev17 mm_sub17 (plc_of_var F17 20) (plc_of_var F17 21) (plc_of_var F17 22) mm_next17.
Example C55_ex_byte : (2 * 1 <= fp_order repr17) &&
  alu_runs (mm_new17 true 0 5) (mask_witness repr17 1 1) (mask_constraints 1 1) [:: (17, 3); (19, 0); (20, 5); (22, 1); (21, 0); (39, 5)].
Proof. by vm_compute. Qed.
Example C55_ex_word :
  alu_runs (mm_new17 false 0 6) (mask_witness repr17 1 1) (mask_constraints 1 1) [:: (17, 3); (22, 0); (21, 1); (39, 6)].
Proof. by vm_compute. Qed.
Example C55_ex_load :
  alu_runs (mm_new17 true 0 3) (mask_witness repr17 1 1) (mask_constraints 1 1) [:: (17, 3); (20, 3); (39, 3)] &&
  alu_runs (mm_new17 true 1 0) (mask_witness repr17 1 1) (mask_constraints 1 1) [:: (17, 3); (20, 0); (39, 3)].
Proof. by vm_compute. Qed.
Definition mm_changed17 : seq nat := 20 :: 39 :: take 8 (dv_bits mm_des17) ++ dv_bits mm_next17.
Example C55_ex_store : [&& uniq mm_changed17, all (fun v => 0 < v <= 54) mm_changed17, 48 \notin mm_changed17 &
  all (fun i => nth 0 mm_ind17 i \notin mm_changed17) (iota 26 4)].
Proof. by vm_compute. Qed.
Example C55_ex_onehot : all (fun i => xval (pb_values (mm_pb17 true 0 5)) (nth 0 mm_ind17 i) == ((nat_of_bool (i == 26%N))%:R : F17)%R) (iota 0 32).
Proof. by vm_compute. Qed.
Example C55_ex_free : (if mm_new17 true 0 5 is Ok gp then
    [&& avoids mm_changed17 (lc_terms (mm_shift gp.1)), mm_masked gp.1 \notin mm_changed17 &
        unaffected mm_changed17 (mask_indicators 1 1 gp.1 ++ inner_product_constraints (mm_ip gp.1))] else false) &&
  alu_runs (mm_new17 true 0 5) (mask_witness repr17 1 1)
    (fun g => (mask_indicators 1 1 g ++ inner_product_constraints (mm_ip g)) ++ cpu_store_constraints mm_ind17 mm_res17 mm_des17 20 g)
    [:: (17, 3); (19, 0); (18, 0); (22, 1); (21, 0); (50, 1); (51, 0); (52, 0); (53, 0); (48, 5); (39, 5)].
Proof. by vm_compute. Qed.
End Example_.
Print Assumptions C55_masking.
Print Assumptions C55_load.
Print Assumptions C55_cpu_memory.
Print Assumptions C55_store_byte_refuted.
