(** [std::map<size_t, T>]: a list of (key, value) pairs in increasing order of
    the keys, which is the order of iteration.  Part of the C++ standard
    library, so this file models no code of /repo. *)
From mathcomp Require Import all_ssreflect zify.
Set Implicit Arguments.
Unset Strict Implicit.
Unset Printing Implicit Defensive.

Section StdMap.
Variable T : Type.
Definition nmap := seq (nat * T).

(** [m.find(k)] *)
Fixpoint nm_find (m : nmap) (k : nat) : option T :=
  if m is (k', v) :: m' then if k' == k then Some v else nm_find m' k else None.
(** [m[k] = v] *)
Fixpoint nm_set (m : nmap) (k : nat) (v : T) : nmap :=
  match m with
  | [::] => [:: (k, v)]
  | (k', v') :: m' =>
      if k < k' then (k, v) :: m else if k == k' then (k, v) :: m' else (k', v') :: nm_set m' k v
  end.
(** [m.erase(k)] *)
Definition nm_erase (m : nmap) (k : nat) : nmap := [seq kv <- m | kv.1 != k].
(** [m[k]] as an expression: a missing key is inserted with the default value. *)
Definition nm_index (dflt : T) (m : nmap) (k : nat) : T * nmap :=
  if nm_find m k is Some v then (v, m) else (dflt, nm_set m k dflt).

Definition nm_keys (m : nmap) : seq nat := [seq kv.1 | kv <- m].
(** The order every [std::map] is in. *)
Definition nm_ordered (m : nmap) : bool := sorted ltn (nm_keys m).

Lemma nm_find_set m k v k' : nm_find (nm_set m k v) k' = if k' == k then Some v else nm_find m k'.
Proof.
elim: m => [|[i x] m IH] /=; first by rewrite eq_sym.
case: (ltngtP k i) => [h|h|<-] /=.
- by rewrite (eq_sym k).
- rewrite IH; case: (@eqP _ k' k) => [->|_] //; case: eqP => [e|//]; lia.
- by rewrite (eq_sym k); case: eqP.
Qed.

Lemma nm_find_erase m k k' : nm_find (nm_erase m k) k' = if k' == k then None else nm_find m k'.
Proof.
elim: m => [|[i x] m IH] /=; first by case: eqP.
case: (@eqP _ i k) => [->|h] /=; rewrite IH.
  by rewrite (eq_sym k); case: (@eqP _ k' k).
by case: (@eqP _ i k') => [<-|//]; case: eqP.
Qed.

Lemma nm_find_keys m k : isSome (nm_find m k) = (k \in nm_keys m).
Proof.
elim: m => [|[i x] m IH] //=; rewrite in_cons (eq_sym k).
by case: eqP.
Qed.

Lemma nm_keys_set m k v : nm_keys (nm_set m k v) =i k :: nm_keys m.
Proof.
move=> j; rewrite -nm_find_keys nm_find_set in_cons -nm_find_keys.
by case: (j == k).
Qed.

Lemma nm_set_ordered m k v : nm_ordered m -> nm_ordered (nm_set m k v).
Proof.
rewrite /nm_ordered; elim: m => [|[i x] m IH] //= h.
case: (ltngtP k i) => [hi|hi|hi] /=; [by rewrite hi| |by rewrite hi].
have := IH (path_sorted h); case: m h {IH} => [|[j y] m] /=; first by rewrite hi.
move=> /andP[h1 h2]; case: (ltngtP k j) => [hj|hj|->] /=.
- by rewrite hi.
- by rewrite h1.
- by rewrite h1.
Qed.

(** In an ordered map a pair is found iff it is listed. *)
Lemma nm_find_In m k v : nm_ordered m -> (nm_find m k = Some v <-> List.In (k, v) m).
Proof.
rewrite /nm_ordered; elim: m => [|[i x] m IH] //= h; split.
- case: eqP => [-> [->]|_ /(IH (path_sorted h)) h']; [by left|by right].
- case=> [[-> ->]|h']; first by rewrite eqxx.
  case: (@eqP _ i k) => [e|_]; last by apply/(IH (path_sorted h)).
  suff : i < k by rewrite e ltnn.
  have /allP : all (ltn i) (nm_keys m) by apply: order_path_min h => ? ? ?; apply: ltn_trans.
  apply; elim: m h' {h IH} => //= a m IHm [->|/IHm]; rewrite in_cons ?eqxx // => ->; by rewrite orbT.
Qed.
End StdMap.

Section StdMapFacts.
Variable T : Type.
Implicit Type m : nmap T.

Lemma nm_find_filter (P : pred nat) m k :
  nm_find [seq kv <- m | P kv.1] k = if P k then nm_find m k else None.
Proof.
elim: m => [|[i x] m IH] /=; first by case: (P k).
case: (boolP (P i)) => hi /=; rewrite IH; case: eqP => [<-|] //=; by rewrite ?hi // (negbTE hi).
Qed.

Lemma nm_filter_ordered (P : pred nat) m : nm_ordered m -> nm_ordered [seq kv <- m | P kv.1].
Proof.
rewrite /nm_ordered /nm_keys => h.
have -> : [seq kv.1 | kv <- [seq kv <- m | P kv.1]] = [seq k <- [seq kv.1 | kv <- m] | P k].
  by elim: m {h} => //= -[i x] m IH /=; case: (P i); rewrite /= IH.
by apply: sorted_filter h => ? ? ?; apply: ltn_trans.
Qed.

(** The keys after the first one are larger. *)
Lemma nm_ordered_lt i x m k : nm_ordered ((i, x) :: m) -> k <= i -> nm_find m k = None.
Proof.
rewrite /nm_ordered /= => h hk; case e: nm_find => [y|//].
have : k \in nm_keys m by rewrite -nm_find_keys e.
have /allP ha : all (ltn i) (nm_keys m) by apply: order_path_min h => ? ? ?; apply: ltn_trans.
by move/ha => /=; lia.
Qed.

Lemma nm_ordered_tail kv m : nm_ordered (kv :: m) -> nm_ordered m.
Proof. exact: path_sorted. Qed.

(** The first key is the least one. *)
Lemma nm_head_min m k : nm_ordered m -> k \in nm_keys m -> head 0 (nm_keys m) <= k.
Proof.
case: m => [|[i x] m] //= h; rewrite in_cons => /orP[/eqP ->//|hk].
have /allP ha : all (ltn i) (nm_keys m) by apply: order_path_min h => ? ? ?; apply: ltn_trans.
by apply: ltnW; apply: ha.
Qed.

Lemma nm_last_max m k : nm_ordered m -> k \in nm_keys m -> k <= last 0 (nm_keys m).
Proof.
rewrite /nm_ordered; elim/last_ind: m => [|m kv _] //.
rewrite /nm_keys map_rcons last_rcons mem_rcons in_cons => h /orP[/eqP ->//|hk].
have := h; rewrite sorted_pairwise; last by move=> ? ? ?; apply: ltn_trans.
rewrite pairwise_rcons => /andP[/allP h1 _]; by apply: ltnW; apply: h1.
Qed.
End StdMapFacts.
