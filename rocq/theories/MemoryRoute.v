(** The permutation the prover routes memory lines by (for C40).  Models nothing
    of /repo. *)
From mathcomp Require Import all_ssreflect zify.
From Verif Require Import Outcome IntegerPermutation MemoryChecker.
Set Implicit Arguments.
Unset Strict Implicit.
Unset Printing Implicit Defensive.

Lemma pair_lt_trans : transitive pair_lt.
Proof. by move=> [b1 b2] [a1 a2] [c1 c2]; rewrite /pair_lt /=; lia. Qed.
Lemma pair_le_trans : transitive pair_le.
Proof.
move=> b a c /orP [/eqP->|h1] // /orP [/eqP<-|h2]; first by rewrite /pair_le h1 orbT.
by rewrite /pair_le (pair_lt_trans h1 h2) orbT.
Qed.
Lemma pair_le_total : total pair_le.
Proof. by move=> [a1 a2] [b1 b2]; rewrite /pair_le /pair_lt !xpair_eqE /=; lia. Qed.
Lemma pair_ltNge p q : pair_lt p q = ~~ pair_le q p.
Proof. by case: p q => [a1 a2] [b1 b2]; rewrite /pair_le /pair_lt !xpair_eqE /=; lia. Qed.

Lemma upper_boundP s k : sorted pair_le s ->
  if upper_bound s k is Some q then [/\ q \in s, pair_lt k q & forall r, r \in s -> pair_lt k r -> pair_le q r]
  else forall r, r \in s -> ~~ pair_lt k r.
Proof.
move=> hs; rewrite /upper_bound; have := sorted_filter pair_le_trans (pair_lt k) hs.
case e: [seq q <- s | pair_lt k q] => [|q t] /= hp.
  by move=> r hr; apply/negP => h; have := mem_filter (pair_lt k) r s; rewrite e h hr.
have hq : q \in [seq q <- s | pair_lt k q] by rewrite e inE eqxx.
move: hq; rewrite mem_filter => /andP [h1 h2]; split=> // r hr h.
have : r \in [seq q <- s | pair_lt k q] by rewrite mem_filter h.
rewrite e inE => /orP [/eqP->|hrt]; first by rewrite /pair_le eqxx.
by have /allP := order_path_min pair_le_trans hp; apply.
Qed.

Section Route.
Variables (addrs : seq nat) (n : nat).
Hypothesis sz : size addrs = n.+1.
Let a i := nth 0 addrs i.
Let key i := (a i, i).
Let pairs := sort pair_le (zip addrs (iota 0 (size addrs))).
Definition next_line (i : nat) : nat := if upper_bound pairs (key i) is Some q then q.2 else 0.

Lemma mem_pairs q : (q \in pairs) = (q.2 <= n) && (q.1 == a q.2).
Proof.
rewrite mem_sort; have e : zip addrs (iota 0 (size addrs)) = [seq key i | i <- iota 0 n.+1].
  apply: (@eq_from_nth _ (0, 0)); first by rewrite size_zip size_map !size_iota minnn sz.
  move=> i; rewrite size_zip size_iota minnn sz => hi.
  by rewrite nth_zip ?size_iota // (nth_map 0) ?size_iota ?sz // !nth_iota.
rewrite e; apply/mapP/idP => [[i]|].
  by rewrite mem_iota => hi ->; rewrite /= eqxx andbT; lia.
case: q => [q1 q2]; cbn [fst snd] => /andP [h1 /eqP ->]; exists q2; [rewrite (mem_iota 0 n.+1)|]; first by lia.
by [].
Qed.

(** The successor of a line: the next in the order, or line 0. *)
Lemma next_lineP i :
  ([/\ next_line i <= n, pair_lt (key i) (key (next_line i)) &
       forall r, r <= n -> pair_lt (key i) (key r) -> pair_le (key (next_line i)) (key r)]) \/
  (next_line i = 0 /\ forall r, r <= n -> ~~ pair_lt (key i) (key r)).
Proof.
have := @upper_boundP pairs (key i) (sort_sorted pair_le_total _); rewrite /next_line.
case: upper_bound => [q|] h.
  case: h => hq lt hr; left; move: hq; rewrite mem_pairs => /andP [h1 /eqP h2].
  have ek : key q.2 = q by rewrite /key -h2 -surjective_pairing.
  rewrite ek; split=> // r hrn; apply: hr; by rewrite mem_pairs /= hrn eqxx.
by right; split=> // r hr; apply: h; rewrite mem_pairs /= hr eqxx.
Qed.

Hypothesis a0 : forall i, i <= n -> a 0 <= a i.

Lemma next_line_le i : next_line i <= n.
Proof. by case: (next_lineP i) => [[]|[-> _]]. Qed.

Lemma key0 i : i <= n -> ~~ pair_lt (key i) (key 0).
Proof. by move=> /a0; rewrite /pair_lt /=; lia. Qed.

Lemma next_line_inj i j : i <= n -> j <= n -> next_line i = next_line j -> i = j.
Proof.
suff gen i' j' : i' <= n -> j' <= n -> pair_lt (key i') (key j') -> next_line i' <> next_line j'.
  move=> hi hj e; case h1: (pair_lt (key i) (key j)); first by case: (gen i j hi hj h1).
  case h2: (pair_lt (key j) (key i)); first by case: (gen j i hj hi h2).
  by move: h1 h2; rewrite /pair_lt /=; lia.
move=> hi hj lt e; case: (next_lineP i') => [[h1 h2 h3]|[_ h]]; last by have := h _ hj; rewrite lt.
have := h3 _ hj lt; case: (next_lineP j') => [[g1 g2 g3]|[g1 g2]].
  by rewrite e; move: g2; rewrite pair_ltNge => /negP.
by have := key0 hi; move: h2; rewrite e g1 => ->.
Qed.

Lemma memory_permutation_ok : exists pi,
  [/\ memory_permutation addrs = Ok pi, ip_wf pi, ip_bounds pi 0 n &
      forall i, i <= n -> ip_at pi (next_line i) = i].
Proof.
rewrite /memory_permutation sz -sz -/pairs.
have [p0 [e0 w0 b0 _]] := ip_of_size_ok n; rewrite {1}sz e0.
suff gen m : m <= n.+1 -> exists pi, [/\ ofold (fun pi i => ip_set pi (next_line i) i) p0 (iota 0 m) = Ok pi,
    ip_wf pi, ip_bounds pi 0 n & forall i, i < m -> ip_at pi (next_line i) = i].
  by have [pi [h1 h2 h3 h4]] := gen n.+1 (leqnn _); rewrite sz; exists pi; split.
elim: m => [|m IH] hm; first by exists p0.
have [pi [h1 h2 h3 h4]] := IH (ltnW hm).
have hb : between 0 n (next_line m) by rewrite /between next_line_le.
have [q [g1 g2 g3 g4]] := ip_set_ok m h2 h3 hb; exists q.
rewrite -addn1 iotaD ofold_cat h1 /= add0n g1; split=> // i hi.
rewrite g4 /between ?next_line_le //; case: eqP => [e|ne].
  by apply: next_line_inj => //; lia.
by apply: h4; case: (ltngtP i m) => // [|e]; [lia|case: ne; rewrite e].
Qed.

Lemma next_line_surj j : j <= n -> exists2 i, i <= n & next_line i = j.
Proof.
move=> hj; have hu : uniq [seq next_line i | i <- iota 0 n.+1].
  apply/(map_uniqP next_line (iota_uniq 0 n.+1)) => i k; rewrite !mem_iota => hi hk; apply: next_line_inj; lia.
have hsub : {subset [seq next_line i | i <- iota 0 n.+1] <= iota 0 n.+1}.
  by move=> v /mapP [i _ ->]; rewrite mem_iota /= add0n ltnS next_line_le.
have [_ hm] := uniq_min_size hu hsub (eq_leq (esym (size_map _ _))).
have : j \in [seq next_line i | i <- iota 0 n.+1] by rewrite hm (mem_iota 0 n.+1); lia.
by case/mapP => i; rewrite mem_iota => hi ->; exists i => //; lia.
Qed.

Lemma memory_permutation_valid pi : memory_permutation addrs = Ok pi -> ip_is_valid pi.
Proof.
have [q [-> hw hb hq]] := memory_permutation_ok; case=> <-.
apply/(ip_validP hw hb); have inv := hq.
have wit j : between 0 n j -> exists2 i, i <= n & next_line i = j /\ ip_at q j = i.
  by move=> /= hj; have [i hi e] := next_line_surj hj; exists i => //; split=> //; rewrite -e hq.
split.
- by move=> j /wit [i hi [_ ->]].
- by move=> j1 j2 /wit [i1 h1 [e1 ->]] /wit [i2 h2 [e2 ->]] e; rewrite -e1 -e2 e.
- by move=> i hi; exists (next_line i); rewrite /between ?next_line_le //; apply: hq.
Qed.
End Route.
