(** C47: proofs about gadgetlib2.

    The field [F] is any field with a map to canonical representatives, so of prime
    order; [s] is any valuation of the variables and [V] the valuation an assignment of
    the protoboard stands for (Gadgetlib2Spec.v). *)
From Coq Require Import ZArith NArith.
From mathcomp Require Import all_ssreflect all_algebra zify ssrZ.
From Verif Require Import Outcome Fieldtac Lincomb LincombSpec R1CS R1CSSpec R1CSFacts
  Protoboard GadgetSpec GadgetLogic Gadgetlib2 Gadgetlib2Spec Gadgetlib2Facts Gadgetlib2Gadgets
  Gadgetlib2Witness Prop_Gadgets.
Import GRing.Theory.
Set Implicit Arguments.
Unset Strict Implicit.
Unset Printing Implicit Defensive.
Local Open Scope ring_scope.
Delimit Scope Z_scope with ZZ.
Delimit Scope N_scope with num.

Section Gadgetlib2.
Variable F : fieldType.
Variable R : bigint_repr F.
Implicit Types (s : valuation F) (a : assignment F).
Local Notation V := (@valuation_of F).

(** * Values *)

(** When an operation on linear combinations returns, the value of the result is the
    operation on the values, for every valuation. *)
Theorem C47_linear_combinations s (l m n : lcomb F) (x : felem F) (vs : seq var) :
  [/\ lc_plus l m = Ok n -> lc_value s n = lc_value s l + lc_value s m,
      lc_minus l m = Ok n -> lc_value s n = lc_value s l - lc_value s m,
      lc_times l x = Ok n -> lc_value s n = fe_value x * lc_value s l,
      lc_sum F vs = Ok n -> lc_value s n = \sum_(v <- vs) s v &
      lc_negate l = Ok n -> lc_value s n = 1 - lc_value s l].
Proof.
split; [exact: lc_plusV|exact: lc_minusV|exact: lc_timesV|exact: lc_sumV|exact: lc_negateV].
Qed.

(** The same for polynomials; a linear combination used as a polynomial keeps its value. *)
Theorem C47_polynomials s (p q r : polynomial F) (l : lcomb F) :
  [/\ poly_plus p q = Ok r -> poly_value s r = poly_value s p + poly_value s q,
      poly_minus p q = Ok r -> poly_value s r = poly_value s p - poly_value s q,
      poly_mul p q = Ok r -> poly_value s r = poly_value s p * poly_value s q &
      poly_value s (poly_lc l) = lc_value s l].
Proof.
split; [exact: poly_plusV|exact: poly_minusV|exact: poly_mulV|exact: poly_lcV].
Qed.

(** The operations return unless an integer leaves the range of [long]: they do on
    elements of the field and on constants of at most 31 bits. *)
Definition fe_small (x : felem F) : bool :=
  if x is FConst z then ((- 2 ^ 31 <=? z) && (z <=? 2 ^ 31))%ZZ else true.
Definition lc_small (l : lcomb F) : bool :=
  fe_small (l_const l) && all (fun t => fe_small t.2) (l_terms l).
Lemma in_long_small z : (- 2 ^ 62 <= z <= 2 ^ 62)%ZZ -> in_long z.
Proof. by rewrite /in_long; lia. Qed.
Lemma small_add (x y : felem F) : fe_small x -> fe_small y -> exists z, fe_add x y = Ok z.
Proof.
case: x => [u|u]; case: y => [v|v] /= hu hv; try by eexists.
by rewrite /long in_long_small; [eexists|lia].
Qed.
Lemma small_sub (x y : felem F) : fe_small x -> fe_small y -> exists z, fe_sub x y = Ok z.
Proof.
case: x => [u|u]; case: y => [v|v] /= hu hv; try by eexists.
by rewrite /long in_long_small; [eexists|lia].
Qed.
Lemma small_mul (x y : felem F) : fe_small x -> fe_small y -> exists z, fe_mul x y = Ok z.
Proof.
case: x => [u|u]; case: y => [v|v] /= hu hv; try by eexists.
by rewrite /long in_long_small; [eexists|nia].
Qed.
Lemma small_neg (x y : felem F) : fe_small x -> fe_neg x = Ok y -> fe_small y.
Proof.
case: x => [z|z] /= h; last by case=> <-.
move=> h0; case: (omap_Ok h0) => w hw ->; have [-> _] := long_Ok hw; rewrite /=; lia.
Qed.
Lemma omapm_total (A B : Type) (f : A -> outcome B) l (q : A -> bool) :
  (forall x, q x -> exists y, f x = Ok y) -> all q l -> exists l', omapm f l = Ok l'.
Proof.
move=> h; elim: l => [|x l IH] /=; first by eexists.
by case/andP => /h [y ->] /IH [l' ->]; eexists.
Qed.
Theorem C47_operations_total (l m : lcomb F) (x : felem F) :
  lc_small l -> lc_small m -> fe_small x ->
  [/\ exists n, lc_plus l m = Ok n, exists n, lc_minus l m = Ok n & exists n, lc_times l x = Ok n].
Proof.
move=> /andP[lk lt] /andP[mk mt] hx; split.
- by rewrite /lc_plus; have [k ->] := small_add lk mk; eexists.
- have [ts hts] : exists ts, omapm (@lt_opp F) (l_terms m) = Ok ts.
    apply: (omapm_total (q := fun t => fe_small t.2)) mt => t ht.
    by rewrite /lt_opp /fe_neg; have [c ->] := @small_sub (FConst F 0) _ isT ht; eexists.
  rewrite /lc_minus /lc_opp /lc_subto hts; cbn [obind].
  have [k hk] := @small_sub (FConst F 0) _ isT mk.
  rewrite [l_const (lc_nil F)]/= hk; cbn [obind]; rewrite /lc_plus [l_const (Lc _ _)]/=.
  by have [k' ->] := small_add lk (small_neg mk hk); eexists.
- rewrite /lc_times; have [k ->] := small_mul lk hx; cbn [obind].
  have [ts ->] : exists ts, omapm (@lt_mulby F ^~ x) (l_terms l) = Ok ts; last by eexists.
  apply: (omapm_total (q := fun t => fe_small t.2)) lt => t ht.
  by rewrite /lt_mulby; have [c ->] := small_mul ht hx; eexists.
Qed.

(** * Evaluation *)

(** If evaluation returns, every variable used is assigned and the result is the value. *)
Theorem C47_eval a (l : lcomb F) (q : polynomial F) x :
  (lc_eval a l = Ok x -> all (assigned a) (lc_vars l) /\ fe_value x = lc_value (V a) l) /\
  (poly_eval a q = Ok x -> all (assigned a) (poly_vars q) /\ fe_value x = poly_value (V a) q).
Proof. by split; [exact: lc_evalV|exact: poly_evalV]. Qed.

(** It does return when the variables are assigned elements of the field. *)
Theorem C47_eval_total a (l : lcomb F) : all (field_assigned a) (lc_vars l) ->
  exists2 x, lc_eval a l = Ok x & fe_value x = lc_value (V a) l.
Proof. by move=> h; have [x hx] := lc_eval_total h; exists x => //; have [] := lc_evalV hx. Qed.

(** * isSatisfied *)

(** In a field of characteristic at least 2^64, the verdict is whether all constraints
    hold. *)
Theorem C47_is_satisfied (p : nat) (pb : protoboard2 F) b :
  p \in [char F] -> (2 ^ 64 <= N.of_nat p)%num -> all (@c_typed F) (pb2_cs pb) ->
  pb2_is_satisfied pb = Ok b -> (b <-> cs_hold (V (pb2_asg pb)) (pb2_cs pb)).
Proof. exact: cs_is_satisfiedV. Qed.

(** In every field, a positive verdict is right. *)
Theorem C47_is_satisfied_sound (pb : protoboard2 F) :
  pb2_is_satisfied pb = Ok true -> cs_hold (V (pb2_asg pb)) (pb2_cs pb).
Proof. exact: cs_is_satisfied_sound. Qed.

(** A negative one need not be in a small field: two constants are compared as
    integers. *)
Theorem C47_small_field_refuted (p : nat) :
  p \in [char F] -> (Z.of_nat p < 2 ^ 63)%ZZ ->
  let pb := Pb2 [::] [:: Rank1 (lci F (Z.of_nat p)) (lci F 1) (lci F 0)] in
  [/\ all (@c_typed F) (pb2_cs pb), cs_hold (V (pb2_asg pb)) (pb2_cs pb) & pb2_is_satisfied pb = Ok false].
Proof.
move=> hp hlt pb.
have h0 : (0 < p)%N by move: hp; rewrite inE => /andP[/prime_gt0].
have hl : in_long (Z.of_nat p) by rewrite /in_long; lia.
split.
- by rewrite /= /lc_typed /= hl.
- move=> c [<-|//] /=; rewrite !lciV zvaln zval1 zval0 mulr1.
  by move: hp; rewrite inE => /andP[_ /eqP].
- rewrite /pb2_is_satisfied /= /long Z.mul_1_r hl /=.
  by have -> : (Z.of_nat p =? 0)%ZZ = false by lia.
Qed.

(** Nor need there be a verdict: the product of two integers assigned to variables can
    overflow. *)
Theorem C47_overflow_refuted :
  let x := FConst F (2 ^ 32) in
  let pb := Pb2 [:: Some x; Some (R1P (fe_value x * fe_value x))] [:: Rank1 (lcv F 0%N) (lcv F 0%N) (lcv F 1%N)] in
  [/\ asg_typed (pb2_asg pb), all (@c_typed F) (pb2_cs pb), cs_hold (V (pb2_asg pb)) (pb2_cs pb) &
     pb2_is_satisfied pb = UB].
Proof.
move=> x pb; split=> //.
by move=> c [<-|//]; rewrite /c_holds !lcvV.
Qed.

(** * Conversion to a constraint system of libsnark *)

(** The converted system gives, on the converted assignment, the verdict of the
    protoboard; [next] is the number of variables created. *)
Theorem C47_conversion (p : nat) next (pb : protoboard2 F) b cs x :
  p \in [char F] -> (2 ^ 64 <= N.of_nat p)%num -> all (@c_typed F) (pb2_cs pb) ->
  all (fun c => all (fun v => v < next)%N (c_vars c)) (pb2_cs pb) ->
  pb2_is_satisfied pb = Ok b ->
  get_constraint_system next pb = Ok cs -> get_assignment next pb = Ok x ->
  r1cs_is_satisfied cs [::] x = Ok b.
Proof. exact: conversion_ok. Qed.

(** For every field and any assignment [x] of the variables, the converted system is
    satisfied by [x] exactly when the constraints of the protoboard hold. *)
Theorem C47_conversion_constraints next (pb : protoboard2 F) cs (x : seq F) :
  get_constraint_system next pb = Ok cs ->
  all (fun c => all (fun v => v < next)%N (c_vars c)) (pb2_cs pb) -> size x = next ->
  exists2 b, r1cs_is_satisfied cs [::] x = Ok b & b <-> cs_hold (fun v => nth 0 x v) (pb2_cs pb).
Proof.
move=> /get_constraint_systemV [[h1 h2 h3] h4] hv hx.
have [||| b hb hiff] := @r1cs_is_satisfied_iff F cs [::] x.
- by rewrite h4.
- by rewrite /num_inputs h1.
- by rewrite h2.
by exists b => //; rewrite hiff h3.
Qed.

(** The converted assignment has a value for every variable: the assigned one, or 0. *)
Theorem C47_conversion_assignment next (pb : protoboard2 F) : (size (pb2_asg pb) <= next)%N ->
  exists2 x, get_assignment next pb = Ok x & size x = next /\ forall v, nth 0 x v = V (pb2_asg pb) v.
Proof.
move=> hs.
have [x hx] : exists x, get_assignment next pb = Ok x.
  rewrite /get_assignment; have : (0 + size (pb2_asg pb) <= size (nseq next (0%R : F)))%N by rewrite size_nseq.
  move: (nseq _ _) 0%N; elim: (pb2_asg pb) => [|o l IH] r k /=; first by eexists.
  rewrite addnS => hk; case: o => [y|]; last by apply: IH; rewrite addSn.
  have hkr : (k < size r)%N by apply: leq_ltn_trans hk; exact: leq_addr.
  rewrite (oput_set_nth 0 _ hkr) /=; apply: IH.
  by rewrite size_set_nth (maxn_idPr hkr) addSn.
by exists x => //; exact: get_assignmentV hx.
Qed.

(** The converted system never has a primary input, and a protoboard with a constraint
    that is not of rank 1 cannot be converted. *)
Theorem C47_conversion_shape next (pb : protoboard2 F) :
  (forall cs, get_constraint_system next pb = Ok cs ->
     num_inputs cs = 0%N /\ auxiliary_input_size cs = next) /\
  (forall q r, List.In (General q r) (pb2_cs pb) -> get_constraint_system next pb = AssertFail).
Proof.
split=> [cs /get_constraint_systemV [[h1 h2 _] _] //|q r h].
rewrite /get_constraint_system.
suff -> : omapm (@convert_constraint F) (pb2_cs pb) = AssertFail by [].
elim: (pb2_cs pb) h => [|c l IH] //= [->|/IH ->] //.
by case: c.
Qed.

(** * Gadgets: what the constraints enforce *)

(** AND and OR of two linear combinations whose values are bits. *)
Theorem C47_and2_or2 s (x y : lcomb F) r cs : is_bit (lc_value s x) -> is_bit (lc_value s y) ->
  (and2_constraints x y r = Ok cs ->
     (cs_hold s cs <-> s r = (nat_of_bool ((lc_value s x == 1) && (lc_value s y == 1)))%:R)) /\
  (or2_constraints x y r = Ok cs ->
     (cs_hold s cs <-> s r = (nat_of_bool ((lc_value s x == 1) || (lc_value s y == 1)))%:R)).
Proof.
move=> hx hy; have n01 : (0 == 1 :> F) = false by rewrite eq_sym oner_eq0.
split=> [/(and2_sound s)|/(or2_sound s)] ->.
  by case: hx => ->; case: hy => ->; rewrite ?n01 ?eqxx ?mul0r ?mul1r.
case: hx => ->; case: hy => ->; rewrite ?n01 ?eqxx ?mul0r ?mul1r ?subr0 ?addr0 ?add0r //.
by rewrite addrK.
Qed.

(** AND and OR of an array of bits; below 2^31 elements for AND, whose constraints
    contain the size as an [int]. *)
Theorem C47_and s (vs : seq var) r inv cs : (Z.of_nat (size vs) < 2 ^ 31)%ZZ ->
  and_constraints R vs r inv = Ok cs -> (forall v, v \in vs -> is_bit (s v)) ->
  cs_hold s cs -> s r = (nat_of_bool (all (fun v => s v == 1) vs))%:R.
Proof. exact: and_sound. Qed.
Theorem C47_or s (vs : seq var) r inv cs :
  or_constraints R vs r inv = Ok cs -> (forall v, v \in vs -> is_bit (s v)) ->
  cs_hold s cs -> s r = (nat_of_bool (has (fun v => s v == 1) vs))%:R.
Proof. exact: or_sound. Qed.

(** The comparison with a constant. *)
Theorem C47_equals s (n : felem F) (x : lcomb F) r aux cs : equals_constraints n x r aux = Ok cs ->
  cs_hold s cs -> s r = (nat_of_bool (lc_value s x == fe_value n))%:R.
Proof. exact: equals_sound. Qed.

(** The selection between two values, the test for zero and the implication. *)
Theorem C47_toggle s t (x0 x1 : lcomb F) r cs : toggle_constraints t x0 x1 r = Ok cs ->
  is_bit (s t) ->
  (cs_hold s cs <-> s r = if s t == 1 then lc_value s x1 else lc_value s x0).
Proof.
move=> /(toggle_sound s) -> [->|->]; rewrite ?eqxx ?mul1r ?mul0r ?addr0 1?addrC ?subrK //.
by rewrite eq_sym oner_eq0.
Qed.
Theorem C47_conditional_flag s (c : lcomb F) flag inv cs : condflag_constraints c flag inv = Ok cs ->
  cs_hold s cs -> s flag = (nat_of_bool (lc_value s c != 0))%:R.
Proof. exact: condflag_sound. Qed.
Theorem C47_implication s (c : lcomb F) flag cs : implication_constraints c flag = Ok cs ->
  (cs_hold s cs <-> (lc_value s c <> 0 -> s flag = 1)).
Proof. exact: implication_sound. Qed.

(** Packing and unpacking: the packed value is the number the bits write; unpacking
    also makes them bits. *)
Theorem C47_packing s unpack bits packed cs : packing2_constraints F unpack bits packed = Ok cs ->
  exists2 p, packed = [:: p] &
  cs_hold s cs <-> (unpack -> forall b, b \in bits -> is_bit (s b)) /\ s p = bits_value (map s bits).
Proof. exact: packing2_sound. Qed.

(** The bits are determined by the packed value when 2^n is at most the order of the
    field. *)
Theorem C47_packing_unique s s' bits packed cs : packing2_constraints F true bits packed = Ok cs ->
  (2 ^ size bits <= fp_order R)%N -> cs_hold s cs -> cs_hold s' cs ->
  (forall p, p \in packed -> s p = s' p) -> forall b, b \in bits -> s b = s' b.
Proof.
move=> hc hn; have [p ep h1] := packing2_sound s hc; subst packed.
have [q [<-] h2] := packing2_sound s' hc.
move=> /h1 [/(_ isT) b1 v1] /h2 [/(_ isT) b2 v2] /(_ p (mem_head _ _)).
rewrite v1 v2 (bits_valueV b1) (bits_valueV b2) => /(@natF_inj F R) h.
have {}h : bv [seq s v == 1 | v <- bits] = bv [seq s' v == 1 | v <- bits].
  have hb (f : nat -> bool) : (bv (map f bits) < fp_order R)%N.
    by apply: leq_trans hn; rewrite -(size_map f bits); exact: bv_lt.
  by apply: h; exact: hb.
have gen (l : seq nat) : bv [seq s v == 1 | v <- l] = bv [seq s' v == 1 | v <- l] ->
    forall b, b \in l -> (s b == 1) = (s' b == 1).
  elim: l => [|v l IH] //= e b; rewrite inE.
  have [e1 e2] : (s v == 1) = (s' v == 1) /\ bv [seq s v == 1 | v <- l] = bv [seq s' v == 1 | v <- l].
    by move: e; move: (bv _) (bv _) => x y; case: (s v == 1); case: (s' v == 1) => /= e; split=> //; lia.
  by case/orP => [/eqP ->|/(IH e2)].
by move=> b hb; rewrite (is_bitE (b1 _ hb)) (is_bitE (b2 _ hb)) (gen _ h).
Qed.

(** The inner product. *)
Theorem C47_inner_product s xs ys r ps cs : inner_constraints F xs ys r ps = Ok cs -> cs_hold s cs ->
  s r = \sum_(i < size xs) s (nth 0%N xs i) * s (nth 0%N ys i).
Proof. exact: inner_sound. Qed.

(** The selection by index: either the flag is 0 and the output 0, or the flag is 1, the
    index names an input and the output is that input. *)
Theorem C47_loose_mux s (ins : seq (seq var)) index out flag ind ps cs :
  (Z.of_nat (size ins) < 2 ^ 31)%ZZ -> size ind = size ins ->
  mux_constraints R ins index out flag ind ps = Ok cs -> cs_hold s cs ->
  (s flag = 0 /\ forall j, (j < size out)%N -> s (nth 0%N out j) = 0) \/
  (s flag = 1 /\ exists2 i, (i < size ins)%N & s index = i%:R /\
     forall j, (j < size out)%N -> s (nth 0%N out j) = s (nth 0%N (nth [::] ins i) j)).
Proof. exact: mux_sound. Qed.

(** The comparison of two n-bit numbers. *)
Theorem C47_comparison s n lhs rhs less leq ap (alpha : seq var) nz nzinv cs (A B : nat) :
  compare_constraints R n lhs rhs less leq ap alpha nz nzinv = Ok cs -> size alpha = n ->
  (2 ^ n.+1 <= fp_order R)%N -> (A < 2 ^ n)%N -> (B < 2 ^ n)%N ->
  s lhs = A%:R -> s rhs = B%:R -> cs_hold s cs ->
  s leq = (nat_of_bool (A <= B)%N)%:R /\ s less = (nat_of_bool (A < B)%N)%:R.
Proof. exact: compare_sound. Qed.

(** * Gadgets: the witnesses meet the constraints *)

Theorem C47_toggle_witness a t (x0 x1 : lcomb F) r a' cs :
  r \notin lc_vars x0 -> r \notin lc_vars x1 -> t != r ->
  toggle_constraints t x0 x1 r = Ok cs -> toggle_witness a t x0 x1 r = Ok a' -> cs_hold (V a') cs.
Proof. exact: toggle_complete. Qed.
(** Unpacking needs a value of at most as many bits; packing needs bits. *)
Theorem C47_unpacking_witness a bits p a' cs : p \notin bits -> uniq bits ->
  (as_bigint R (V a p) < 2 ^ size bits)%N ->
  packing2_constraints F true bits [:: p] = Ok cs -> packing2_witness R true a bits [:: p] = Ok a' ->
  cs_hold (V a') cs.
Proof. exact: unpack_complete. Qed.
Theorem C47_packing_witness a bits p a' cs : p \notin bits -> (forall b, b \in bits -> is_bit (V a b)) ->
  packing2_constraints F false bits [:: p] = Ok cs -> packing2_witness R false a bits [:: p] = Ok a' ->
  cs_hold (V a') cs.
Proof. exact: pack_complete. Qed.
Theorem C47_inner_product_witness a xs ys r ps a' cs : size ps = (size xs).-1 ->
  uniq (r :: ps) -> (forall w, w \in r :: ps -> (w \notin xs) && (w \notin ys)) ->
  inner_constraints F xs ys r ps = Ok cs -> inner_witness a xs ys r ps = Ok a' -> cs_hold (V a') cs.
Proof. exact: inner_complete. Qed.
Theorem C47_loose_mux_witness a (ins : seq (seq var)) index out flag ind ps a' cs :
  (0 < size ins)%N -> (Z.of_nat (size ins) < 2 ^ 31)%ZZ ->
  size ind = size ins -> size ps = size out ->
  (forall j, (j < size out)%N -> size (nth [::] ps j) = (size ins).-1) ->
  uniq (flag :: ind ++ out ++ flatten ps) ->
  (forall w, w \in flag :: ind ++ out ++ flatten ps -> (w != index) && (w \notin flatten ins)) ->
  fe_typed (val_of a index) ->
  (forall x, val_of a index = R1P x -> (N.of_nat (as_bigint R x) < 2 ^ 64)%num) ->
  mux_constraints R ins index out flag ind ps = Ok cs ->
  mux_witness R a ins index out flag ind ps = Ok a' -> cs_hold (V a') cs.
Proof. exact: mux_complete. Qed.

Section Big.
Variable p : nat.
Hypotheses (hp : p \in [char F]) (hbig : (2 ^ 64 <= N.of_nat p)%num).
Theorem C47_and2_or2_witness a (x y : lcomb F) r a' cs :
  lc_typed x -> lc_typed y -> r \notin lc_vars x -> r \notin lc_vars y ->
  is_bit (lc_value (V a) x) -> is_bit (lc_value (V a) y) ->
  (and2_constraints x y r = Ok cs -> and2_witness a x y r = Ok a' -> cs_hold (V a') cs) /\
  (or2_constraints x y r = Ok cs -> or2_witness a x y r = Ok a' -> cs_hold (V a') cs).
Proof. by move=> tx ty nx ny bx bT; split; [exact: (and2_complete hp)|exact: (or2_complete hp)]. Qed.
Theorem C47_and_or_witness a vs r inv a' cs :
  r \notin vs -> inv \notin vs -> r != inv ->
  ((Z.of_nat (size vs) < 2 ^ 31)%ZZ ->
   and_constraints R vs r inv = Ok cs -> and_witness a vs r inv = Ok a' -> cs_hold (V a') cs) /\
  (or_constraints R vs r inv = Ok cs -> or_witness a vs r inv = Ok a' -> cs_hold (V a') cs).
Proof. by move=> h1 h2 h3; split=> [hn|]; [exact: (and_complete hp hbig)|exact: (or_complete hp hbig)]. Qed.
Theorem C47_equals_witness a n (x : lcomb F) r aux a' cs :
  fe_typed n -> lc_typed x -> r \notin lc_vars x -> aux \notin lc_vars x -> r != aux ->
  equals_constraints n x r aux = Ok cs -> equals_witness a n x r aux = Ok a' -> cs_hold (V a') cs.
Proof. exact: (equals_complete hp hbig). Qed.
Theorem C47_conditional_flag_witness a (c : lcomb F) flag inv a' cs : lc_typed c ->
  flag \notin lc_vars c -> inv \notin lc_vars c -> flag != inv ->
  condflag_constraints c flag inv = Ok cs -> condflag_witness a c flag inv = Ok a' -> cs_hold (V a') cs.
Proof. exact: (condflag_complete hp hbig). Qed.
(** For the implication the valuation reads a variable without value as 0. *)
Theorem C47_implication_witness a (c : lcomb F) flag a' cs : lc_typed c -> flag \notin lc_vars c ->
  is_bit (lc_value (V a) c) ->
  implication_constraints c flag = Ok cs -> implication_witness a c flag = Ok a' -> cs_hold (V a') cs.
Proof. exact: (implication_complete hp hbig). Qed.
Theorem C47_comparison_witness a n lhs rhs less leq ap (alpha : seq var) nz nzinv a' cs (A B : nat) :
  size alpha = n -> (2 ^ n.+1 <= fp_order R)%N -> (A < 2 ^ n)%N -> (B < 2 ^ n)%N ->
  V a lhs = A%:R -> V a rhs = B%:R ->
  uniq (less :: leq :: ap :: nz :: nzinv :: alpha) ->
  (forall w, w \in less :: leq :: ap :: nz :: nzinv :: alpha -> (w != lhs) && (w != rhs)) ->
  compare_constraints R n lhs rhs less leq ap alpha nz nzinv = Ok cs ->
  compare_witness R a n lhs rhs less leq ap alpha nz nzinv = Ok a' -> cs_hold (V a') cs.
Proof. exact: (compare_complete hp hbig). Qed.
End Big.

(** * What goes wrong *)

(** The witness of the implication leaves the flag without a value when the condition
    is 0; isSatisfied then throws. *)
Theorem C47_implication_unassigned_refuted :
  let a := [:: Some (FConst F 0)] in
  exists2 cs, implication_constraints (lcv F 0%N) 1%N = Ok cs &
    implication_witness a (lcv F 0%N) 1%N = Ok a /\ cs_is_satisfied a cs = AssertFail.
Proof. by eexists; [reflexivity|split]. Qed.

(** The witness of the selection by index looks at the low 64 bits only: for an index of
    2^64 it picks input 0, and the constraints do not hold. *)
Theorem C47_mux_index_refuted (x : nat) cs : N.of_nat x = (2 ^ 64)%num -> (x < fp_order R)%N ->
  let a := [:: Some (R1P (x%:R : F)); Some (R1P 1)] in
  mux_constraints R [:: [:: 1%N]] 0%N [:: 2%N] 3%N [:: 4%N] [:: [::]] = Ok cs ->
  exists2 a', mux_witness R a [:: [:: 1%N]] 0%N [:: 2%N] 3%N [:: 4%N] [:: [::]] = Ok a' & ~ cs_hold (V a') cs.
Proof.
move=> hx hlt a hc.
have hE : Z.modulo (fe_as_long R (val_of a 0%N)) (2 ^ 64) = 0%ZZ.
  by rewrite /val_of [nth _ _ _]/= /fe_as_long /as_ulong as_bigint_nat // hx.
rewrite /mux_witness hE /=; eexists; first reflexivity.
move=> /(mux_sound (_ : _ < 2 ^ 31)%ZZ _ hc) [] //; rewrite /valuation_of /=.
  by case=> /eqP h _; have := oner_eq0 F; rewrite -[1%R]/((Pos.to_nat 1)%:R : F) h.
case=> _ [i hi [e _]]; move/eqP: e; have -> : i = 0%N by move: hi; clear; case: i.
rewrite (natF_eq0 R) => h.
have h0 : (0 < x)%N by move: hx; clear; case: x.
by move: (dvdn_leq h0 h); rewrite leqNgt hlt.
Qed.

Lemma log2ceil_gt (src : N) : (32 < log2ceil src)%N = (2 ^ 32 <=? src)%num.
Proof.
rewrite /log2ceil; have h1 := N.size_gt src; have h2 := N.size_le src.
apply/idP/idP => h.
  apply/N.leb_spec0; have h3 : (2 ^ 33 <= 2 ^ N.size src)%num by apply: N.pow_le_mono_r; lia.
  by move: h2 h3; rewrite N.succ_double_spec; move: (2 ^ N.size src)%num; clear; lia.
case: (ltnP 32 _) => // h3; move/N.leb_spec0: h => h.
have h4 : (2 ^ N.size src <= 2 ^ 32)%num by apply: N.pow_le_mono_r; lia.
by move: h h1 h4; move: (2 ^ N.size src)%num; clear; lia.
Qed.

(** [setValuesAsBitArray] has undefined behaviour for every value of more than 32 bits. *)
Theorem C47_set_bits_refuted a (vs : seq var) (src : N) :
  (2 ^ 32 <= src)%num -> (log2ceil src <= size vs)%N -> set_bits a vs src = UB.
Proof.
move=> hs hl; have h32 : (32 < log2ceil src)%N by rewrite log2ceil_gt; apply/N.leb_spec0.
rewrite /set_bits hl oassertT.
move: (log2ceil src) h32 hl => L h32 hl.
have h0 : (0 <= 32 < 0 + size vs)%N by apply: leq_trans hl.
move: 32%N h32 h0 => W h32 h0; move: 0%N h0 a; elim: vs {hl} => [|v vs IH] k /andP[h1 h2] a; first by move: h1 h2; rewrite /=; clear; lia.
rewrite [size _]/= [iota _ _]/= [zip _ _]/= ofold_cons [(_, _).1]/=.
move: h1; rewrite leq_eqVlt => /orP[/eqP ->|hk]; first by rewrite h32 ltnn.
rewrite (ltn_trans hk h32) hk; cbn [obind]; apply: IH; rewrite hk /=.
by move: h2; rewrite /= addnS addSn.
Qed.

(** Up to there it writes the bits of the value. *)
Theorem C47_set_bits a (vs : seq var) (src : N) : uniq vs ->
  (src < 2 ^ 32)%num -> (log2ceil src <= size vs)%N ->
  exists2 a', set_bits a vs src = Ok a' &
    (forall w, w \notin vs -> V a' w = V a w) /\
    forall i, (i < size vs)%N -> V a' (nth 0%N vs i) = (nat_of_bool (N.testbit src (N.of_nat i)))%:R.
Proof.
move=> hu hs hl; rewrite /set_bits hl oassertT.
have hL : (log2ceil src <= 32)%N by rewrite leqNgt log2ceil_gt; apply/negP => /N.leb_spec0; lia.
have hbit i : (log2ceil src <= i)%N -> N.testbit src (N.of_nat i) = false.
  rewrite /log2ceil => h; have h1 := N.size_gt src.
  have h2 : (2 ^ N.size src <= 2 ^ N.of_nat i)%num by apply: N.pow_le_mono_r; lia.
  by rewrite N.testbit_odd N.shiftr_div_pow2 N.div_small //; exact: N.lt_le_trans h1 h2.
suff gen k : exists2 a', ofold (fun a iv =>
           if (iv.1 < log2ceil src)%N
           then if (iv.1 < 32)%N
                then Ok (val_set a iv.2 (FConst F (if N.testbit src (N.of_nat iv.1) then 1 else 0)))
                else UB
           else Ok (val_set a iv.2 (FConst F 0)))
        a (zip (iota k (size vs)) vs) = Ok a' &
    (forall w, w \notin vs -> V a' w = V a w) /\
    forall i, (i < size vs)%N -> V a' (nth 0%N vs i) = (nat_of_bool (N.testbit src (N.of_nat (k + i))))%:R.
  by have [a' h1 h2] := gen 0%N; exists a'.
elim: vs a k hu {hl} => [|v vs IH] a k; first by move=> _; exists a.
move=> /= /andP[hv hu].
set st := (if (k < _)%N then _ else _).
have -> : st = Ok (val_set a v (FConst F (if N.testbit src (N.of_nat k) then 1 else 0))).
  by rewrite /st; case: ltnP => hk; [rewrite (leq_trans hk hL)|rewrite hbit].
cbn [obind]; have [a' -> [h1 h2]] := IH (val_set a v (FConst F (if N.testbit src (N.of_nat k) then 1 else 0))) k.+1 hu.
exists a' => //; split=> [w|].
  by rewrite inE negb_or => /andP[/negbTE hw hn]; rewrite h1 // val_setV hw.
case=> [|i] hi /=; first by rewrite h1 // val_setV eqxx fe_bitV addn0.
by rewrite h2 // addSnnS.
Qed.

(** [setMultipackedWordValue] writes 2^64 less than a value of 64 bits whose top bit is
    set. *)
Theorem C47_set_packed a w (src : N) : (src < 2 ^ 64)%num ->
  exists2 a', set_packed a [:: w] src = Ok a' &
    V a' w = (N.to_nat src)%:R - (if (src <? 2 ^ 63)%num then 0 else zval F (2 ^ 64)).
Proof.
move=> hs.
have e : to_long (Z.of_N src) = (if (src <? 2 ^ 63)%num then Z.of_N src else Z.of_N src - 2 ^ 64)%ZZ.
  rewrite /to_long; case: N.ltb_spec => h; first by rewrite Z.mod_small; lia.
  have -> : (Z.of_N src + 2 ^ 63 = Z.of_N src - 2 ^ 63 + 1 * 2 ^ 64)%ZZ by lia.
  by rewrite Z_mod_plus_full Z.mod_small; lia.
eexists; first by reflexivity.
rewrite val_setV eqxx; change (zval F (to_long (Z.of_N src)) = (N.to_nat src)%:R - (if (src <? 2 ^ 63)%num then 0 else zval F (2 ^ 64))); rewrite e -zvaln N_nat_Z.
case: (_ <? _)%num; first by rewrite subr0.
by move: (2 ^ 64)%ZZ => W; exact: zvalB.
Qed.
End Gadgetlib2.

Print Assumptions C47_linear_combinations.
Print Assumptions C47_polynomials.
Print Assumptions C47_operations_total.
Print Assumptions C47_eval.
Print Assumptions C47_eval_total.
Print Assumptions C47_is_satisfied.
Print Assumptions C47_is_satisfied_sound.
Print Assumptions C47_small_field_refuted.
Print Assumptions C47_overflow_refuted.
Print Assumptions C47_conversion.
Print Assumptions C47_conversion_constraints.
Print Assumptions C47_conversion_assignment.
Print Assumptions C47_conversion_shape.
Print Assumptions C47_and2_or2.
Print Assumptions C47_and.
Print Assumptions C47_or.
Print Assumptions C47_equals.
Print Assumptions C47_toggle.
Print Assumptions C47_conditional_flag.
Print Assumptions C47_implication.
Print Assumptions C47_packing.
Print Assumptions C47_packing_unique.
Print Assumptions C47_inner_product.
Print Assumptions C47_loose_mux.
Print Assumptions C47_comparison.
Print Assumptions C47_toggle_witness.
Print Assumptions C47_unpacking_witness.
Print Assumptions C47_packing_witness.
Print Assumptions C47_inner_product_witness.
Print Assumptions C47_loose_mux_witness.
Print Assumptions C47_and2_or2_witness.
Print Assumptions C47_and_or_witness.
Print Assumptions C47_equals_witness.
Print Assumptions C47_conditional_flag_witness.
Print Assumptions C47_implication_witness.
Print Assumptions C47_comparison_witness.
Print Assumptions C47_implication_unassigned_refuted.
Print Assumptions C47_mux_index_refuted.
Print Assumptions C47_set_bits_refuted.
Print Assumptions C47_set_bits.
Print Assumptions C47_set_packed.

(** * The hypotheses are met *)

(** There is a prime field of characteristic at least 2^64. *)
Definition p64 : nat := s2val (prime_above (2 ^ 64)).
Lemma p64_prime : prime p64. Proof. exact: (s2valP' (prime_above (2 ^ 64))). Qed.
Lemma p64_lt : (2 ^ 64 < p64)%N. Proof. exact: (s2valP (prime_above (2 ^ 64))). Qed.
Lemma N_pow2 n : N.of_nat (2 ^ n) = (2 ^ N.of_nat n)%num.
Proof.
elim: n => // n IH; rewrite Nat2N.inj_succ N.pow_succ_r' -IH expnS.
by move: (2 ^ n)%N; clear; lia.
Qed.
Example C47_ex_field : exists F : fieldType, exists2 p : nat, p \in [char F] & (2 ^ 64 <= N.of_nat p)%num.
Proof.
exists [fieldType of 'F_p64], p64; first by exact: char_Fp p64_prime.
have h := p64_lt; have := N_pow2 64; move: h; move: (2 ^ 64)%N p64 => x y h.
by rewrite -[N.of_nat 64]/(64)%num => <-; move: h; clear; lia.
Qed.

(** A protoboard with 3 * 4 = 12 and 3 + 4 = 7 is satisfied in every field, and so is
    what it is converted to. *)
Definition ex_pb (F : fieldType) (z : Z) : protoboard2 F :=
  Pb2 [:: Some (FConst F 3); Some (FConst F 4); Some (FConst F z); Some (FConst F 7)]
      [:: Rank1 (lcv F 0%N) (lcv F 1%N) (lcv F 2%N);
          Rank1 (Lc [:: lt_var F 0%N; lt_var F 1%N] (FConst F 0)) (lci F 1) (lcv F 3%N)].
Example C47_ex_pb (F : fieldType) :
  [/\ all (@c_typed F) (pb2_cs (ex_pb F 12)),
      all (fun c => all (fun v => v < 4)%N (c_vars c)) (pb2_cs (ex_pb F 12)),
      pb2_is_satisfied (ex_pb F 12) = Ok true & pb2_is_satisfied (ex_pb F 13) = Ok false].
Proof. by split. Qed.
Example C47_ex_convert (F : fieldType) : exists cs x,
  get_constraint_system 4 (ex_pb F 12) = Ok cs /\ get_assignment 4 (ex_pb F 12) = Ok x.
Proof. by eexists; eexists; split; reflexivity. Qed.
Example C47_ex_polynomial (F : fieldType) : exists r,
  poly_mul (poly_lc (lcv F 0%N)) (Poly [:: mono_var F 1%N] (FConst F 5)) = Ok r /\
  poly_eval [:: Some (FConst F 3); Some (FConst F 4)] r = Ok (FConst F 27).
Proof. by eexists; split; reflexivity. Qed.

(** The gadgets over the field of order 11: the witness is found and the constraints it
    is checked against hold. *)
Local Open Scope nat_scope.
Local Notation F11 := [fieldType of 'F_11].
Definition checks (cs : outcome (seq (constraint2 F11))) (w : outcome (assignment F11)) : bool :=
  match cs, w with
  | Ok cs, Ok a => if cs_is_satisfied a cs is Ok b then b else false
  | _, _ => false
  end.
Definition value_at (w : outcome (assignment F11)) (v : nat) (x : nat) : bool :=
  if w is Ok a then valuation_of a v == (x%:R)%R else false.
Definition ex_a (l : seq Z) : assignment F11 := [seq Some (FConst F11 z) | z <- l].
Example C47_ex_and2_or2 :
  let w1 := and2_witness (ex_a [:: 1; 0]%ZZ) (lcv F11 0%N) (lcv F11 1%N) 2%N in
  let w2 := or2_witness (ex_a [:: 1; 0]%ZZ) (lcv F11 0%N) (lcv F11 1%N) 2%N in
  [&& checks (and2_constraints (lcv F11 0%N) (lcv F11 1%N) 2%N) w1, value_at w1 2 0,
      checks (or2_constraints (lcv F11 0%N) (lcv F11 1%N) 2%N) w2 & value_at w2 2 1].
Proof. by vm_compute. Qed.
Example C47_ex_and_or :
  let w1 := and_witness (ex_a [:: 1; 1; 1]%ZZ) (iota 0 3) 3 4 in
  let w2 := or_witness (ex_a [:: 0; 1; 1]%ZZ) (iota 0 3) 3 4 in
  [&& checks (and_constraints repr11 (iota 0 3) 3 4) w1, value_at w1 3 1,
      checks (or_constraints repr11 (iota 0 3) 3 4) w2 & value_at w2 3 1].
Proof. by vm_compute. Qed.
Example C47_ex_equals :
  let w := equals_witness (ex_a [:: 5]%ZZ) (FConst F11 4) (lcv F11 0%N) 1 2 in
  checks (equals_constraints (FConst F11 4) (lcv F11 0%N) 1 2) w && value_at w 1 0.
Proof. by vm_compute. Qed.
Example C47_ex_toggle :
  let w := toggle_witness (ex_a [:: 1; 5; 6]%ZZ) 0 (lcv F11 1%N) (lcv F11 2%N) 3 in
  checks (toggle_constraints 0 (lcv F11 1%N) (lcv F11 2%N) 3) w && value_at w 3 6.
Proof. by vm_compute. Qed.
Example C47_ex_flag :
  let w := condflag_witness (ex_a [:: 5]%ZZ) (lcv F11 0%N) 1 2 in
  let w' := implication_witness (ex_a [:: 1]%ZZ) (lcv F11 0%N) 1 in
  [&& checks (condflag_constraints (lcv F11 0%N) 1 2) w, value_at w 1 1,
      checks (implication_constraints (lcv F11 0%N) 1) w' & value_at w' 1 1].
Proof. by vm_compute. Qed.
Example C47_ex_packing :
  let w := packing2_witness repr11 true (ex_a [:: 5]%ZZ) [:: 1; 2; 3]%N [:: 0%N] in
  let w' := packing2_witness repr11 false (ex_a [:: 0; 1; 0; 1]%ZZ) [:: 1; 2; 3]%N [:: 0%N] in
  [&& checks (packing2_constraints F11 true [:: 1; 2; 3]%N [:: 0%N]) w, value_at w 1 1, value_at w 2 0, value_at w 3 1,
      checks (packing2_constraints F11 false [:: 1; 2; 3]%N [:: 0%N]) w' & value_at w' 0 5].
Proof. by vm_compute. Qed.
Example C47_ex_inner :
  let w := inner_witness (ex_a [:: 1; 2; 3; 1; 2; 1]%ZZ) (iota 0 3) (iota 3 3) 6 [:: 7; 8]%N in
  checks (inner_constraints F11 (iota 0 3) (iota 3 3) 6 [:: 7; 8]%N) w && value_at w 6 8.
Proof. by vm_compute. Qed.
Example C47_ex_mux :
  let ins := [:: [:: 1; 2]; [:: 3; 4]]%N in
  let run i := mux_witness repr11 (ex_a [:: i; 5; 6; 7; 8]%ZZ) ins 0 [:: 5; 6]%N 7 [:: 8; 9]%N [:: [:: 10]; [:: 11]]%N in
  let cs := mux_constraints repr11 ins 0 [:: 5; 6]%N 7 [:: 8; 9]%N [:: [:: 10]; [:: 11]]%N in
  [&& checks cs (run 1%ZZ), value_at (run 1%ZZ) 5 7, value_at (run 1%ZZ) 6 8, value_at (run 1%ZZ) 7 1,
      checks cs (run 2%ZZ), value_at (run 2%ZZ) 5 0 & value_at (run 2%ZZ) 7 0].
Proof. by vm_compute. Qed.
Example C47_ex_comparison :
  let run A B := compare_witness repr11 (ex_a [:: A; B]%ZZ) 2 0 1 2 3 4 [:: 5; 6]%N 7 8 in
  let cs := compare_constraints repr11 2 0 1 2 3 4 [:: 5; 6]%N 7 8 in
  [&& checks cs (run 1%ZZ 3%ZZ), value_at (run 1%ZZ 3%ZZ) 2 1, value_at (run 1%ZZ 3%ZZ) 3 1,
      checks cs (run 2%ZZ 2%ZZ), value_at (run 2%ZZ 2%ZZ) 2 0, value_at (run 2%ZZ 2%ZZ) 3 1,
      checks cs (run 3%ZZ 1%ZZ), value_at (run 3%ZZ 1%ZZ) 2 0 & value_at (run 3%ZZ 1%ZZ) 3 0].
Proof. by vm_compute. Qed.
