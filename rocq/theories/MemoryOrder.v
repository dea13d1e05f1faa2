(** Facts about memory traces routed by a permutation (for C40).  Models nothing
    of /repo. *)
From mathcomp Require Import all_ssreflect fingroup perm zify.
Set Implicit Arguments.
Unset Strict Implicit.
Unset Printing Implicit Defensive.

(** Along a permutation, a set is left as often as it is entered. *)
Lemma perm_crossings (T : finType) (pi : {perm T}) (A : {set T}) :
  #|[set i in A | pi i \notin A]| = #|[set i | (i \notin A) && (pi i \in A)]|.
Proof.
have h1 : #|[set i in A | pi i \in A]| + #|[set i in A | pi i \notin A]| = #|A|.
  rewrite -cardsUI; have -> : [set i in A | pi i \in A] :&: [set i in A | pi i \notin A] = set0.
    by apply/setP => i; rewrite !inE; case: (i \in A); case: (pi i \in A).
  rewrite cards0 addn0; congr #|pred_of_set _|; apply/setP => i; rewrite !inE.
  by case: (i \in A); case: (pi i \in A).
have h2 : #|[set i | (i \notin A) && (pi i \in A)]| + #|[set i in A | pi i \in A]| = #|A|.
  rewrite -cardsUI; have -> : [set i | (i \notin A) && (pi i \in A)] :&: [set i in A | pi i \in A] = set0.
    by apply/setP => i; rewrite !inE; case: (i \in A); case: (pi i \in A).
  rewrite cards0 addn0 -[RHS](card_preimset A (@perm_inj T pi)); congr #|pred_of_set _|; apply/setP => i; rewrite !inE.
  by case: (i \in A); case: (pi i \in A).
lia.
Qed.

Section Order.
Variables (n : nat) (addr : 'I_n -> nat) (pi : {perm 'I_n}).
(** Between equal addresses time increases; the address never decreases except
    when returning to line 0. *)
Hypothesis ordered : forall i, addr i = addr (pi i) -> i < pi i.
Hypothesis one_cycle : forall i, addr (pi i) < addr i -> pi i = 0 :> nat.

Lemma at_most_one_up a i1 i2 : addr i1 < a <= addr (pi i1) -> addr i2 < a <= addr (pi i2) -> i1 = i2.
Proof.
move=> h1 h2; pose A := [set i | addr i < a].
have hA : #|[set i in A | pi i \notin A]| <= 1.
  rewrite perm_crossings; apply/card_le1_eqP => j1 j2; rewrite !inE -!leqNgt => /andP [g1 g2] /andP [g3 g4].
  apply: (@perm_inj _ pi); apply: val_inj; rewrite /= !one_cycle //; lia.
move/card_le1_eqP: hA => hA; apply: hA; rewrite !inE -leqNgt; lia.
Qed.

(** Each address is entered once. *)
Lemma one_entry j1 j2 : addr (pi j1) = addr (pi j2) -> addr j1 != addr (pi j1) -> addr j2 != addr (pi j2) -> j1 = j2.
Proof.
move=> e h1 h2; move: (neq_ltn (addr j1) (addr (pi j1))) (neq_ltn (addr j2) (addr (pi j2))); rewrite h1 h2.
move=> /esym /orP [g1|g1] /esym /orP [g2|g2].
- apply: (@at_most_one_up (addr (pi j1))); lia.
- (* entering upwards the address of line 0 needs a descent below it *)
  have z2 := one_cycle g2; exfalso.
  pose A := [set i | addr i < addr (pi j1)].
  have : 0 < #|[set i in A | pi i \notin A]| by apply/card_gt0P; exists j1; rewrite !inE -leqNgt; lia.
  rewrite perm_crossings => /card_gt0P [k]; rewrite !inE -leqNgt => /andP [k1 k2].
  have z3 : pi k = 0 :> nat by apply: one_cycle; lia.
  have ek : pi k = pi j2 by apply: val_inj; rewrite /= z3 z2.
  by move: k2; rewrite ek e; lia.
- have z2 := one_cycle g1; exfalso.
  pose A := [set i | addr i < addr (pi j2)].
  have : 0 < #|[set i in A | pi i \notin A]| by apply/card_gt0P; exists j2; rewrite !inE -leqNgt; lia.
  rewrite perm_crossings => /card_gt0P [k]; rewrite !inE -leqNgt => /andP [k1 k2].
  have z3 : pi k = 0 :> nat by apply: one_cycle; lia.
  have ek : pi k = pi j1 by apply: val_inj; rewrite /= z3 z2.
  by move: k2; rewrite ek -e; lia.
- by apply: (@perm_inj _ pi); apply: val_inj; rewrite /= !one_cycle.
Qed.

(** The line entered is the first at its address. *)
Lemma entry_first i k : addr i != addr (pi i) -> addr k = addr (pi i) -> pi i <= k.
Proof.
move=> hi; move: {2}(nat_of_ord k).+1 (ltnSn k) => m; elim: m k => // m IH k hk ek.
pose p := (pi^-1)%g k; have ep : pi p = k by rewrite /p permKV.
case e: (addr p == addr k).
  move/eqP: e => e; have := ordered (i := p); rewrite ep => /(_ e) lt.
  have := IH p; rewrite e ek => /(_ _ erefl) h; have : pi i <= p by apply: h; lia.
  lia.
have -> : i = p by apply: one_entry; rewrite ?ep ?e ?ek //; rewrite -ek e.
by rewrite ep.
Qed.

(** Between a line and its successor at the same address there is no other. *)
Lemma next_adjacent i k : addr i = addr (pi i) -> addr k = addr i -> i < k -> pi i <= k.
Proof.
move=> hi hk lt; rewrite leqNgt; apply/negP => hlt.
pose A := [set j : 'I_n | (addr j == addr i) && (j < k)].
have hA : #|[set j in A | pi j \notin A]| <= 1.
  rewrite perm_crossings; apply/card_le1_eqP => j1 j2; rewrite !inE => /andP [g1 /andP [/eqP g2 g2']] /andP [g3 /andP [/eqP g4 g4']].
  have out j : ~~ ((addr j == addr i) && (j < k)) -> addr (pi j) = addr i -> pi j < k -> addr j != addr (pi j).
    move=> h1 h2 h3; apply/eqP => e; have := ordered e => h4.
    by move: h1; rewrite e h2 eqxx /=; lia.
  by apply: one_entry; [rewrite g2 g4|apply: out|apply: out].
(* k's predecessor enters beyond i, or k is first *)
pose p := (pi^-1)%g k; have ep : pi p = k by rewrite /p permKV.
case e: (addr p == addr k); last first.
  have hp : addr p != addr (pi p) by rewrite ep e.
  have := entry_first hp (k := i); rewrite ep hk => /(_ erefl); lia.
move/eqP: e => e; have := ordered (i := p); rewrite ep => /(_ e) ltp.
have ip : p \in [set j in A | pi j \notin A] by rewrite !inE ep e hk eqxx ltp /= ltnn.
have ii : i \in [set j in A | pi j \notin A] by rewrite !inE -hi eqxx lt /= -leqNgt; lia.
move/card_le1_eqP: hA => /(_ _ _ ip ii) epi; move: hlt; rewrite epi ep; lia.
Qed.
End Order.
