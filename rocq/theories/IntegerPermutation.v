(** Permutations of the integers in {min_element,...,max_element}
    (common/data_structures/integer_permutation.{hpp,cpp}).

    [size_t] values are unbounded naturals, except that the constructor for size
    0 sets [max_element] to [0 - 1], which wraps: [ip_max] is [None] then.
    Not modelled: [next_permutation] and [random_shuffle], which only call the
    functions of the same name of the C++ standard library. *)
From mathcomp Require Import all_ssreflect zify.
From Verif Require Import Outcome.
Set Implicit Arguments.
Unset Strict Implicit.
Unset Printing Implicit Defensive.

(** integer_permutation.hpp:22-28 *)
Record int_perm := IntPerm { ip_contents : seq nat; ip_min : nat; ip_max : option nat }.

(** integer_permutation.cpp:23-28: constructor from a size. *)
Definition ip_of_size (size : nat) : int_perm :=
  IntPerm (iota 0 size) 0 (if size is n.+1 then Some n else None).
(** integer_permutation.cpp:30-37: constructor from the two ends. *)
Definition ip_range (min_element max_element : nat) : outcome int_perm :=
  assert! min_element <= max_element in
  Ok (IntPerm (iota min_element (max_element - min_element + 1)) min_element (Some max_element)).
(** integer_permutation.cpp:39-42: size() (0 for the wrapped [max_element], as
    [min_element] is 0 then). *)
Definition ip_size (p : int_perm) : nat := if ip_max p is Some m then m - ip_min p + 1 else 0.
(** integer_permutation.cpp:44-49: operator== *)
Definition ip_eq (p q : int_perm) : bool :=
  [&& ip_min p == ip_min q, ip_max p == ip_max q & ip_contents p == ip_contents q].
(** [min_element <= position && position <= max_element] *)
Definition ip_has (p : int_perm) (position : nat) : bool :=
  (ip_min p <= position) && (if ip_max p is Some m then position <= m else true).
(** integer_permutation.cpp:51-55: set *)
Definition ip_set (p : int_perm) (position value : nat) : outcome int_perm :=
  assert! ip_has p position in
  let! c := oput (ip_contents p) (position - ip_min p) value in Ok (IntPerm c (ip_min p) (ip_max p)).
(** integer_permutation.cpp:57-61: get *)
Definition ip_get (p : int_perm) (position : nat) : outcome nat :=
  assert! ip_has p position in oget (ip_contents p) (position - ip_min p).
(** integer_permutation.cpp:64-79: is_valid; the state is the set of elements
    seen, [None] after [return false]. *)
Definition ip_is_valid (p : int_perm) : bool :=
  isSome (foldl (fun elems el =>
    if elems is Some es then if ~~ ip_has p el || (el \in es) then None else Some (el :: es) else None)
    (Some [::]) (ip_contents p)).
(** integer_permutation.cpp:81-95: inverse.  An element below [min_element] gives
    a wrapped, out of range index.  For the wrapped [max_element] the first
    iteration reads out of range. *)
Definition ip_inverse (p : int_perm) : outcome int_perm :=
  if ip_max p is Some m then
    let! result := ip_range (ip_min p) m in
    let! c := ofold (fun c position =>
      let! el := oget (ip_contents p) (position - ip_min p) in
      if el < ip_min p then UB else oput c (el - ip_min p) position)
      (ip_contents result) (iota (ip_min p) (m - ip_min p + 1)) in
    Ok (IntPerm c (ip_min p) (Some m))
  else UB.
(** integer_permutation.cpp:97-109: slice.  Reading beyond the contents is
    undefined behaviour. *)
Definition ip_slice (p : int_perm) (slice_min slice_max : nat) : outcome int_perm :=
  assert! [&& ip_min p <= slice_min, slice_min <= slice_max & ip_has p slice_max] in
  let! result := ip_range slice_min slice_max in
  if size (ip_contents p) < slice_max - ip_min p + 1 then UB else
  Ok (IntPerm (drop (slice_min - ip_min p) (take (slice_max - ip_min p + 1) (ip_contents p)))
              slice_min (Some slice_max)).

(** * Specification *)

(** What every constructor and every later call guarantees. *)
Definition ip_wf (p : int_perm) : Prop :=
  size (ip_contents p) = ip_size p /\ if ip_max p is Some m then ip_min p <= m else ip_min p = 0.
(** The value at a position of [min..max]. *)
Definition ip_at (p : int_perm) (position : nat) : nat := nth 0 (ip_contents p) (position - ip_min p).
(** [a <= i <= b] *)
Definition between (a b i : nat) : bool := a <= i <= b.
(** A bijection of {a,...,b} onto itself. *)
Definition bijection_on (a b : nat) (f : nat -> nat) : Prop :=
  [/\ forall i, between a b i -> between a b (f i),
      forall i j, between a b i -> between a b j -> f i = f j -> i = j &
      forall j, between a b j -> exists2 i, between a b i & f i = j].

(** * Facts *)
Definition ip_bounds p a b := ip_min p = a /\ ip_max p = Some b.

Lemma ip_get_ok p a b i : ip_wf p -> ip_bounds p a b -> between a b i -> ip_get p i = Ok (ip_at p i).
Proof.
case=> h1 h2 [e1 e2] /andP [h3 h4]; rewrite /ip_get /ip_has e1 e2 h3 h4 /=.
by rewrite (oget_nth 0) ?h1 /ip_at ?e1 // /ip_size e2 e1; lia.
Qed.
Lemma ip_get_abort p a b i : ip_bounds p a b -> ~~ between a b i -> ip_get p i = AssertFail.
Proof. by case=> e1 e2 h; rewrite /ip_get /ip_has e1 e2; move: h; rewrite /between => /negbTE->. Qed.

Lemma ip_set_ok p a b i v : ip_wf p -> ip_bounds p a b -> between a b i ->
  exists q, [/\ ip_set p i v = Ok q, ip_wf q, ip_bounds q a b &
    forall j, between a b j -> ip_at q j = if j == i then v else ip_at p j].
Proof.
case=> h1 h2 [e1 e2] /andP [h3 h4]; rewrite /ip_set /ip_has e1 e2 h3 h4 /=.
have hi : i - a < size (ip_contents p) by rewrite h1 /ip_size e2 e1; lia.
rewrite (oput_set_nth 0) //=; eexists; split; first by [].
- split=> /=; last by rewrite e2 e1 in h2.
  by rewrite size_set_nth (maxn_idPr hi) h1 /ip_size e2 e1.
- by [].
- move=> j /andP [h5 h6]; rewrite /ip_at /= nth_set_nth /= e1.
  have -> : (j - a == i - a) = (j == i) by lia.
  by [].
Qed.
Lemma ip_set_abort p a b i v : ip_bounds p a b -> ~~ between a b i -> ip_set p i v = AssertFail.
Proof. by case=> e1 e2 h; rewrite /ip_set /ip_has e1 e2; move: h; rewrite /between => /negbTE->. Qed.

Lemma ip_range_ok a b : a <= b -> exists p, [/\ ip_range a b = Ok p, ip_wf p, ip_bounds p a b &
  forall i, between a b i -> ip_at p i = i].
Proof.
move=> h; rewrite /ip_range h /=; eexists; split; first by [].
- by split=> /=; rewrite ?size_iota.
- by [].
- by move=> i /andP [h1 h2]; rewrite /ip_at /= nth_iota; lia.
Qed.
Lemma ip_of_size_ok n : exists p, [/\ ip_of_size n.+1 = p, ip_wf p, ip_bounds p 0 n &
  forall i, i <= n -> ip_at p i = i].
Proof.
exists (ip_of_size n.+1); split=> //.
- by split=> /=; rewrite ?size_iota /ip_size /=; lia.
- by move=> i hi; rewrite /ip_at; change (ip_contents _) with (iota 0 n.+1); rewrite nth_iota /=; lia.
Qed.

Lemma ip_is_validE p : ip_is_valid p = all (ip_has p) (ip_contents p) && uniq (ip_contents p).
Proof.
rewrite /ip_is_valid; set f := (fun _ _ => _).
have fN s : foldl f None s = None by elim: s.
suff gen s es : isSome (foldl f (Some es) s) = [&& all (ip_has p) s, uniq s & all (fun e => e \notin es) s].
  rewrite gen; congr (_ && _); rewrite -[RHS]andbT; congr (_ && _); exact/allP.
elim: s es => [|e s IH] es //=; case: (ip_has p e) => //=; last by rewrite fN.
case: (boolP (e \in es)) => he /=; first by rewrite fN /= !andbF.
rewrite IH -!andbA; congr (_ && _).
have -> : all (fun e0 => e0 \notin e :: es) s = (e \notin s) && all (fun e0 => e0 \notin es) s.
  elim: s {IH} => [|x s IH] //=; rewrite IH !inE !negb_or (eq_sym e x).
  by case: (x == e); case: (e \in s); case: (x \in es) => //=; rewrite andbF.
by rewrite andbCA.
Qed.

Lemma ip_contentsE p a b : ip_wf p -> ip_bounds p a b -> ip_contents p = map (ip_at p) (iota a (b - a + 1)).
Proof.
case=> h1 h2 [e1 e2]; rewrite e2 e1 in h2; apply: (@eq_from_nth _ 0).
  by rewrite size_map size_iota h1 /ip_size e1 e2.
move=> i; rewrite h1 /ip_size e1 e2 => hi; rewrite (nth_map 0) ?size_iota // nth_iota //.
by rewrite /ip_at e1; congr nth; lia.
Qed.

Lemma mem_betw a b i : a <= b -> (i \in iota a (b - a + 1)) = between a b i.
Proof. by move=> h; rewrite mem_iota /between; lia. Qed.

Lemma map_uniqP (f : nat -> nat) s : uniq s ->
  (uniq (map f s) <-> forall i j, i \in s -> j \in s -> f i = f j -> i = j).
Proof.
elim: s => [|x s IH] //= /andP [hx hs]; split.
- case/andP => h1 /(IH hs) h2 i j; rewrite !inE => /orP [/eqP->|hi] /orP [/eqP->|hj] // e.
  + by case/negP: h1; rewrite e map_f.
  + by case/negP: h1; rewrite -e map_f.
  + exact: h2.
- move=> h; apply/andP; split; last by apply/(IH hs) => i j hi hj; apply: h; rewrite inE ?hi ?hj orbT.
  apply/negP => /mapP [y hy e]; move: hx; rewrite (h x y) ?hy //; rewrite inE ?eqxx ?hy ?orbT //.
Qed.

Lemma ip_validP p a b : ip_wf p -> ip_bounds p a b -> ip_is_valid p <-> bijection_on a b (ip_at p).
Proof.
move=> hw hb; have hab : a <= b by case: hw => _; case: hb => -> ->.
have [e1 e2] := hb.
have hh i : ip_has p i = between a b i by rewrite /ip_has e1 e2.
have hu := map_uniqP (ip_at p) (iota_uniq a (b - a + 1)).
rewrite ip_is_validE {1 2}(ip_contentsE hw hb) all_map; split.
- case/andP => /allP h1 h2.
  have inr i : between a b i -> between a b (ip_at p i).
    by move=> hi; have := h1 i; rewrite mem_betw //= hh; apply.
  split=> //.
    by move=> i j hi hj; apply: (proj1 hu h2); rewrite mem_betw.
  move=> j hj; have : j \in map (ip_at p) (iota a (b - a + 1)).
    have [||_ ->] := uniq_min_size (s2 := iota a (b - a + 1)) h2.
    + by move=> x /mapP [i]; rewrite mem_betw // => hi ->; rewrite mem_betw // inr.
    + by rewrite size_map.
    by rewrite mem_betw.
  by case/mapP => i; rewrite mem_betw // => hi ->; exists i.
- case=> h1 h2 _; apply/andP; split.
    by apply/allP => i; rewrite mem_betw //= hh; apply: h1.
  by apply/hu => i j; rewrite !mem_betw //; apply: h2.
Qed.

Lemma scatter_ok (g : nat -> nat) (f : seq nat -> nat -> outcome (seq nat)) s c :
  (forall c i, i \in s -> f c i = oput c (g i) i) ->
  (forall i, i \in s -> g i < size c) -> {in s &, injective g} ->
  exists c', [/\ ofold f c s = Ok c', size c' = size c & forall i, i \in s -> nth 0 c' (g i) = i].
Proof.
elim/last_ind: s => [|s x IH] hf hg hi; first by exists c.
have sub i : i \in s -> i \in rcons s x by move=> h; rewrite mem_rcons inE h orbT.
have hx : x \in rcons s x by rewrite mem_rcons inE eqxx.
have [||i j h1 h2|c' [e1 e2 e3]] := IH.
- by move=> c0 i h; apply: hf; apply: sub.
- by move=> i h; apply: hg; apply: sub.
- by apply: hi; apply: sub.
exists (set_nth 0 c' (g x) x); split.
- by rewrite -cats1 ofold_cat e1 /= hf // (oput_set_nth 0) // e2 hg.
- by rewrite size_set_nth e2; apply/maxn_idPr; apply: hg.
- move=> i; rewrite mem_rcons inE nth_set_nth /= => /orP [/eqP->|h]; first by rewrite eqxx.
  by case: eqP => [/(hi _ _ (sub _ h) hx)->|_] //; apply: e3.
Qed.

Lemma bijection_inverse a b f g : bijection_on a b f -> (forall i, between a b i -> g (f i) = i) ->
  [/\ bijection_on a b g & forall j, between a b j -> f (g j) = j].
Proof.
case=> h1 h2 h3 hg.
have hfg j : between a b j -> f (g j) = j by move=> /h3 [i hi <-]; rewrite hg.
split=> //; split.
- by move=> j /h3 [i hi <-]; rewrite hg.
- by move=> i j hi hj e; rewrite -(hfg i hi) e hfg.
- by move=> i hi; exists (f i); [exact: h1|exact: hg].
Qed.

Lemma ip_inverse_ok p a b : ip_wf p -> ip_bounds p a b -> bijection_on a b (ip_at p) ->
  exists q, [/\ ip_inverse p = Ok q, ip_wf q, ip_bounds q a b & forall i, between a b i -> ip_at q (ip_at p i) = i].
Proof.
move=> hw hb hbij; have hab : a <= b by case: hw => _; case: hb => -> ->.
have [e1 e2] := hb; have [hr hinj _] := hbij.
rewrite /ip_inverse e2 e1 /ip_range hab /=.
set f := (X in ofold X).
have [||i j hi hj e|c' [h1 h2 h3]] := @scatter_ok (fun i => ip_at p i - a) f (iota a (b - a + 1)) (iota a (b - a + 1)).
- move=> c i; rewrite mem_betw // => hi; rewrite /f.
  have := ip_get_ok hw hb hi; rewrite /ip_get /ip_has e1 e2; move: (hi); rewrite /between => -> /= -> /=.
  by rewrite ltnNge; case/andP: (hr i hi) => -> _.
- by move=> i; rewrite mem_betw // size_iota => /hr; rewrite /between; lia.
- rewrite !mem_betw // in hi hj; apply: hinj => //.
  by move: (hr i hi) (hr j hj) e; rewrite /between; lia.
rewrite h1 /=; eexists; split; first by [].
- by split=> //=; rewrite h2 size_iota.
- by [].
- by move=> i hi; rewrite /ip_at /=; apply: h3; rewrite mem_betw.
Qed.

Lemma ip_ext p q a b : ip_wf p -> ip_wf q -> ip_bounds p a b -> ip_bounds q a b ->
  (forall i, between a b i -> ip_at p i = ip_at q i) -> p = q.
Proof.
move=> hp hq bp bq h; have hab : a <= b by case: hp => _; case: bp => -> ->.
have e : ip_contents p = ip_contents q.
  rewrite (ip_contentsE hp bp) (ip_contentsE hq bq); apply/eq_in_map => i; rewrite mem_betw //; apply: h.
by case: p bp e {hp h} => c m M [/= -> ->] ->; case: q bq {hq} => c' m' M' [/= -> ->].
Qed.

Lemma ip_slice_ok p a b c d : ip_wf p -> ip_bounds p a b -> a <= c -> c <= d -> d <= b ->
  exists q, [/\ ip_slice p c d = Ok q, ip_wf q, ip_bounds q c d & forall i, between c d i -> ip_at q i = ip_at p i].
Proof.
move=> [h1 h2] [e1 e2] hac hcd hdb; rewrite e2 e1 in h2.
have hs : size (ip_contents p) = b - a + 1 by rewrite h1 /ip_size e2 e1.
rewrite /ip_slice /ip_has e1 e2 hac hcd hdb (leq_trans hac hcd) /= /ip_range hcd /= hs.
rewrite ifN; last by rewrite -leqNgt; lia.
eexists; split; first by [].
- by split=> //=; rewrite size_drop size_take hs /ip_size /=; case: ltnP; lia.
- by [].
- move=> i /andP [hi hj]; rewrite /ip_at /= nth_drop nth_take ?e1; last lia.
  by congr nth; lia.
Qed.

(** Reading a position after setting it, and other calls in terms of positions. *)
Lemma ip_setK p a b i v q : ip_wf p -> ip_bounds p a b -> ip_set p i v = Ok q ->
  [/\ between a b i, ip_wf q, ip_bounds q a b &
    forall j, between a b j -> ip_at q j = if j == i then v else ip_at p j].
Proof.
move=> hw hb; case: (boolP (between a b i)) => h; last by rewrite (ip_set_abort _ hb h).
by have [q' [-> h2 h3 h4]] := ip_set_ok v hw hb h; case=> <-.
Qed.
