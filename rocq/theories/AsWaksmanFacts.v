(** Proofs about AS-Waksman routing: positions, switches and the loop that fixes
    the outer columns. *)
From mathcomp Require Import all_ssreflect zify.
From Verif Require Import Outcome StdMap IntegerPermutation Benes AsWaksman.
Set Implicit Arguments.
Unset Strict Implicit.
Unset Printing Implicit Defensive.

(** * Rows and positions of a subnetwork *)
Section Block.
Variables (lo hi : nat).
Notation s := (hi - lo + 1).
Notation B := (between lo hi).
Notation canon := (aw_canonical lo).
Notation other := (aw_other lo).

Definition isodd_in : bool := (hi - lo + 1) %% 2 == 1.
Definition paired_in (x : nat) : bool := ~~ (isodd_in && (x == hi)).
Definition pos_in (x : nat) (t : bool) : nat :=
  if paired_in x then lo + (x - lo) %/ 2 + (if t then 0 else (hi - lo + 1) %/ 2) else hi.

Ltac unf := rewrite /paired_in /isodd_in /aw_other /aw_canonical /between; try lia.

Lemma switch_outputE x t : B x -> paired_in x -> aw_switch_output s lo (canon x) t = Ok (pos_in x t).
Proof.
move=> hx hp; rewrite /aw_switch_output /pos_in hp.
have -> : lo <= canon x by unf.
have -> : ((canon x - lo) %% 2 == 0) && (canon x - lo + 1 < s) by move: hx hp; unf.
by rewrite /aw_top_height /=; congr Ok; unf; rewrite addnK mulnK.
Qed.
Lemma B_canon x : B x -> B (canon x). Proof. unf. Qed.
Lemma B_other x : B x -> paired_in x -> B (other x). Proof. unf. Qed.
Lemma other_paired x : B x -> paired_in x -> paired_in (other x). Proof. unf. Qed.
Lemma otherK x : B x -> other (other x) = x. Proof. unf. Qed.
Lemma other_neq x : B x -> (other x == x) = false. Proof. unf. Qed.
Lemma canon_other x : B x -> canon (other x) = canon x. Proof. unf. Qed.
Lemma canonK x : B x -> canon (canon x) = canon x. Proof. unf. Qed.
Lemma canon_paired x : B x -> paired_in x -> paired_in (canon x). Proof. unf. Qed.
Lemma canon_eq x y : B x -> B y -> canon x = canon y -> x = y \/ x = other y. Proof. unf. Qed.
Lemma canon_eqp x y : B x -> B y -> canon x = canon y -> paired_in x = paired_in y. Proof. unf. Qed.
Lemma bottom_other x : B x -> x != canon x -> other x = x - 1 /\ lo < x. Proof. unf. Qed.
Lemma top_other x : B x -> paired_in x -> x == canon x -> other x = x + 1 /\ x < hi. Proof. unf. Qed.
Lemma canonE x : B x -> canon x = if x == canon x then x else x - 1.
Proof. by move=> hx; case: eqP => [<-//|]; move: hx; unf. Qed.

Lemma setting_other x t : B x -> aw_setting lo (other x) (~~ t) = aw_setting lo x t.
Proof.
move=> hx; rewrite /aw_setting canon_other //.
have -> : (other x == canon x) = ~~ (x == canon x) by move: hx; unf.
by case: (x == _); case: t.
Qed.
Lemma decisionK x t : aw_decision lo x (aw_setting lo x t) = t.
Proof. by rewrite /aw_decision /aw_setting eq_sym addbA addbb. Qed.

Lemma B_pos x t : B x -> B (pos_in x t).
Proof. by rewrite /pos_in; case: ifP => _; [|unf]; unf; case: t => /=; lia. Qed.
Lemma pos_half x t : B x -> (~~ paired_in x -> t = false) -> (pos_in x t < lo + s %/ 2) = t.
Proof.
by rewrite /pos_in; case: ifP => hp hx => [_|/(_ isT)->]; move: hp hx; unf; case: t => /=; lia.
Qed.
Lemma pos_inj x y t u : B x -> B y -> (~~ paired_in x -> t = false) -> (~~ paired_in y -> u = false) ->
  pos_in x t = pos_in y u -> x = y \/ [/\ paired_in x, paired_in y, x = other y & t = u].
Proof.
move=> hx hy h1 h2 e.
have tu : t = u by rewrite -(pos_half hx h1) -(pos_half hy h2) e.
case: (@eqP _ x y) => [|ne]; [by left|right].
move: e h1 h2; rewrite /pos_in -tu {tu}; case: (boolP (paired_in x)) => px; case: (boolP (paired_in y)) => py.
- move=> e _ _; split=> //; move: e hx hy px py ne; unf; case: t => /=; lia.
- by move=> e _ /(_ isT) h; subst t; move: e hx hy px py ne; unf.
- by move=> e /(_ isT) h _; subst t; move: e hx hy px py ne; unf.
- by move: hx hy px py ne; unf.
Qed.
Lemma pos_onto u (T : nat -> bool) : B u ->
  (forall x, B x -> paired_in x -> T (other x) = ~~ T x) -> (isodd_in -> T hi = false) ->
  exists x, [/\ B x, pos_in x (T x) = u & T x = (u < lo + s %/ 2)].
Proof.
move=> hu hT hh.
case: (boolP (isodd_in && (u == hi))) => [/andP [ho /eqP ->]|hn].
  exists hi; split; first by move: hu; unf.
    by rewrite /pos_in /paired_in ho eqxx.
  by rewrite hh //; move: hu ho; unf.
pose y := lo + 2 * (if u < lo + s %/ 2 then u - lo else u - lo - s %/ 2).
have By : B y by rewrite /y; move: hu hn; case: ifP; unf.
have py : paired_in y by rewrite /y; move: hu hn; case: ifP; unf.
pose x := if T y == (u < lo + s %/ 2) then y else other y.
have Tx : T x = (u < lo + s %/ 2).
  by rewrite /x; case: eqP => [//|]; rewrite hT //; case: (T y); case: (u < _).
exists x; split=> //; first by rewrite /x; case: eqP => // _; apply: B_other.
have px : paired_in x by rewrite /x; case: eqP => // _; apply: other_paired.
rewrite /pos_in px Tx.
have -> : (x - lo) %/ 2 = (y - lo) %/ 2 by rewrite /x; case: eqP => // _; unf.
by rewrite /y; move: hu hn; case: ifP; unf.
Qed.
End Block.

(** * The routing table *)
Lemma rt_findE r c x : c < size r -> rt_find r c x = Ok (aw_bit r c x).
Proof. by move=> h; rewrite /rt_find (oget_nth [::]). Qed.
Lemma rt_putE r c x b : c < size r -> exists r', [/\ rt_put r c x b = Ok r', size r' = size r &
  forall c' x', aw_bit r' c' x' = if (c' == c) && (x' == x) then Some b else aw_bit r c' x'].
Proof.
move=> h; rewrite /rt_put (oget_nth [::]) //= (oput_set_nth [::]) //; eexists; split; first by [].
- by rewrite size_set_nth; apply/maxn_idPr.
- by move=> c' x'; rewrite /aw_bit nth_set_nth /=; case: eqP => [->|_] //=; rewrite nm_find_set.
Qed.
Lemma rt_eraseE r c x : c < size r -> exists r', [/\ rt_erase r c x = Ok r', size r' = size r &
  forall c' x', aw_bit r' c' x' = if (c' == c) && (x' == x) then None else aw_bit r c' x'].
Proof.
move=> h; rewrite /rt_erase (oget_nth [::]) //= (oput_set_nth [::]) //; eexists; split; first by [].
- by rewrite size_set_nth; apply/maxn_idPr.
- by move=> c' x'; rewrite /aw_bit nth_set_nth /=; case: eqP => [->|_] //=; rewrite nm_find_erase.
Qed.

(** * The loop *)
Section Loop.
Variables (left right lo hi nc : nat) (pi pinv : int_perm) (rt0 : aw_routing).
Notation s := (hi - lo + 1).
Notation B := (between lo hi).
Notation canon := (aw_canonical lo).
Notation other := (aw_other lo).
Notation pos := (pos_in lo hi).
Notation paired := (paired_in lo hi).
Notation isodd := (isodd_in lo hi).
Notation setting := (aw_setting lo).
Hypotheses (hlr : left < right) (hrc : right < nc) (hlh : lo + 2 <= hi).
Hypotheses (wp : ip_wf pi) (bp : ip_bounds pi lo hi) (wi : ip_wf pinv) (bi : ip_bounds pinv lo hi).
Hypothesis hpi : forall x, B x -> B (ip_at pi x) /\ ip_at pinv (ip_at pi x) = x.
Hypothesis hpinv : forall x, B x -> B (ip_at pinv x) /\ ip_at pi (ip_at pinv x) = x.

(** The packet that shares its right-hand switch with [x]. *)
Definition twin x := ip_at pinv (other (ip_at pi x)).
Lemma Bpi x : B x -> B (ip_at pi x). Proof. by case/hpi. Qed.
Lemma pi_inj x y : B x -> B y -> ip_at pi x = ip_at pi y -> x = y.
Proof. by move=> hx hy e; case: (hpi hx) => _ <-; rewrite e; case: (hpi hy). Qed.
Lemma pi_twin x : B x -> paired (ip_at pi x) -> ip_at pi (twin x) = other (ip_at pi x).
Proof. by move=> hx hp; case: (hpinv (B_other (Bpi hx) hp)). Qed.
Lemma B_twin x : B x -> paired (ip_at pi x) -> B (twin x).
Proof. by move=> hx hp; case: (hpinv (B_other (Bpi hx) hp)). Qed.
Lemma twin_paired x : B x -> paired (ip_at pi x) -> paired (ip_at pi (twin x)).
Proof. by move=> hx hp; rewrite pi_twin // other_paired // Bpi. Qed.
Lemma twinK x : B x -> paired (ip_at pi x) -> twin (twin x) = x.
Proof. by move=> hx hp; rewrite {1}/twin pi_twin // (@otherK lo hi) ?Bpi //; case: (hpi hx). Qed.
Lemma twin_neq x : B x -> paired (ip_at pi x) -> (twin x == x) = false.
Proof.
move=> hx hp; apply/eqP => e; have := pi_twin hx hp; rewrite e => /eqP.
by rewrite eq_sym (@other_neq lo hi) // Bpi.
Qed.
Lemma canon_twin x y : B x -> B y -> canon (ip_at pi x) = canon (ip_at pi y) -> x <> y ->
  [/\ paired (ip_at pi x), paired (ip_at pi y) & x = twin y].
Proof.
move=> hx hy e ne; have hx' := Bpi hx; have hy' := Bpi hy.
have epp := canon_eqp hx' hy' e.
case: (canon_eq hx' hy' e) => [/(pi_inj hx hy)//|e2].
have py : paired (ip_at pi y).
  rewrite -epp; case: (boolP (paired (ip_at pi x))) => // h; case: ne; apply: pi_inj => //.
  have h2 : ~~ paired (ip_at pi y) by rewrite -epp.
  by move: h h2; rewrite /paired_in !negbK => /andP [_ /eqP->] /andP [_ /eqP->].
split=> //; first by rewrite epp.
by case: (hpi hx) => _ <-; rewrite e2.
Qed.
Lemma paired_hi x : ip_at pi x <> hi -> paired (ip_at pi x).
Proof. by move/eqP => h; rewrite /paired_in (negbTE h) andbF. Qed.
Lemma paired_even x : ~~ isodd -> paired x.
Proof. by move=> h; rewrite /paired_in (negbTE h). Qed.

Definition routed (st : aw_state) (x : nat) : bool := nth false (aw_routed st) (x - lo).
(** The right-hand switch of [x] is known to be set. *)
Definition rset (st : aw_state) (x : nat) : bool := (ip_at pi x != hi) || (~~ isodd && routed st (twin x)).

Record inv (T : nat -> bool) (st : aw_state) : Prop := Inv {
  i_size : size (aw_routed st) = s;
  i_wp : ip_wf (aw_perm st); i_bp : ip_bounds (aw_perm st) lo hi;
  i_wi : ip_wf (aw_inv st); i_bi : ip_bounds (aw_inv st) lo hi;
  i_rt : size (aw_rt st) = nc;
  i_frame : forall c x, ~~ (((c == left) || (c == right)) && B x) -> aw_bit (aw_rt st) c x = aw_bit rt0 c x;
  i_keys : forall c x, (c == left) || (c == right) -> B x -> (x != canon x) || ~~ paired x -> aw_bit (aw_rt st) c x = None;
  i_max : B (aw_max st) /\ forall x, aw_max st < x -> x <= hi -> routed st x;
  i_odd : isodd -> routed st hi;
  i_T : isodd -> forall x, B x -> routed st x -> (x == hi) || (ip_at pi x == hi) -> T x = false;
  i_even : ~~ isodd -> routed st hi -> T hi = false;
  i_AL : forall x, B x -> routed st x -> paired x -> aw_bit (aw_rt st) left (canon x) = Some (setting x (T x));
  i_AR : forall x, B x -> routed st x -> rset st x ->
    aw_bit (aw_rt st) right (canon (ip_at pi x)) = Some (setting (ip_at pi x) (T x));
  i_P : forall x, B x -> routed st x ->
    ip_at (aw_perm st) (pos x (T x)) = pos (ip_at pi x) (T x) /\ ip_at (aw_inv st) (pos (ip_at pi x) (T x)) = pos x (T x);
  i_B : forall x, B x -> routed st x -> paired x -> routed st (other x) -> T (other x) = ~~ T x;
  i_C : forall x, B x -> routed st x -> paired (ip_at pi x) -> routed st (twin x) -> T (twin x) = ~~ T x;
  i_DL : forall x, B x -> paired x -> ~~ routed st x -> ~~ routed st (other x) ->
    aw_bit (aw_rt st) left (canon x) = if ~~ isodd && (canon x == hi - 1) then Some false else None;
  i_DR : forall x, B x -> ~~ routed st x -> paired (ip_at pi x) -> (routed st (twin x) -> ip_at pi (twin x) = hi) ->
    aw_bit (aw_rt st) right (canon (ip_at pi x)) = None }.

Lemma relE x : B x -> aw_rel lo x = Ok (x - lo).
Proof. by case/andP => h _; rewrite /aw_rel ltnNge h. Qed.
Lemma rel_lt x : B x -> x - lo < s. Proof. rewrite /between; lia. Qed.
Lemma Bhi : B hi. Proof. by rewrite /between; clear - hlh; lia. Qed.

(** Routing one more packet [w] through the top ([t]) or the bottom. *)
Lemma inv_route T st w t st' : inv T st -> B w -> paired w ->
  (routed st w -> T w = t) ->
  (routed st (other w) -> T (other w) = ~~ t) ->
  (paired (ip_at pi w) -> routed st (twin w) -> T (twin w) = ~~ t) ->
  (isodd -> ip_at pi w = hi -> t = false) -> (~~ isodd -> w = hi -> t = false) ->
  (forall x, B x -> routed st' x = (x == w) || routed st x) -> size (aw_routed st') = s ->
  B (aw_max st') -> (forall x, aw_max st' < x -> x <= hi -> routed st' x) ->
  ip_wf (aw_perm st') -> ip_bounds (aw_perm st') lo hi -> ip_wf (aw_inv st') -> ip_bounds (aw_inv st') lo hi ->
  (forall y, B y -> ip_at (aw_perm st') y = if y == pos w t then pos (ip_at pi w) t else ip_at (aw_perm st) y) ->
  (forall y, B y -> ip_at (aw_inv st') y = if y == pos (ip_at pi w) t then pos w t else ip_at (aw_inv st) y) ->
  size (aw_rt st') = nc ->
  (forall c x, aw_bit (aw_rt st') c x =
     if (c == left) && (x == canon w) then Some (setting w t)
     else if (c == right) && (x == canon (ip_at pi w)) && rset st w then Some (setting (ip_at pi w) t)
     else aw_bit (aw_rt st) c x) ->
  inv (fun x => if x == w then t else T x) st'.
Proof.
move=> hinv Bw pw hTw hTo hTt hto hte hR hsz hm1 hm2 hp1 hp2 hi1 hi2 hp hi' hrs hrt.
set T' := fun x => _.
have ne : (right == left) = false by clear - hlr; lia.
have Bpw := Bpi Bw; have Bo := B_other Bw pw.
have Tw : T' w = t by rewrite /T' eqxx.
have Tx x : routed st x -> B x -> T' x = T x.
  by rewrite /T'; case: eqP => [->|//] h _; rewrite hTw.
have hR' x : B x -> x <> w -> routed st' x = routed st x by move=> hx /eqP /negbTE h; rewrite hR // h.
have Rmono x : B x -> routed st x -> routed st' x by move=> hx h; rewrite hR // h orbT.
have Rw : routed st' w by rewrite hR // eqxx.
have pwodd : isodd -> w <> hi by move=> ho e; move: pw; rewrite e /paired_in ho eqxx.
have uT x : B x -> routed st' x -> ~~ paired x -> T' x = false.
  move=> hx hr; rewrite /paired_in negbK => /andP [ho /eqP e].
  have nw : x <> w by move=> e2; apply: (pwodd ho); rewrite -e2.
  have hx' : routed st x by rewrite -hR'.
  by rewrite Tx //; apply: (i_T hinv ho) => //; rewrite e eqxx.
have uT2 x : B x -> routed st' x -> ~~ paired (ip_at pi x) -> T' x = false.
  move=> hx hr; rewrite /paired_in negbK => /andP [ho /eqP e].
  case: (@eqP _ x w) => [ex|nw]; first by rewrite ex Tw; apply: hto => //; rewrite -ex.
  have hx' : routed st x by rewrite -hR'.
  by rewrite Tx //; apply: (i_T hinv ho) => //; rewrite e eqxx orbT.
have Trel x : B x -> routed st x -> x <> w -> T' x = T x by move=> hx h _; apply: Tx.
have Hrset x : B x -> routed st' x -> x <> w -> canon (ip_at pi x) = canon (ip_at pi w) -> rset st' x -> rset st w.
  move=> hx hr nw e hs; have [p1 p2 e2] := canon_twin hx Bw e nw.
  rewrite /rset; case: (@eqP _ (ip_at pi w) hi) => //= epi.
  have ho : ~~ isodd by apply/negP => ho; move: p2; rewrite /paired_in epi ho eqxx.
  by rewrite ho -e2 -hR'.
split=> //.
- move=> c x hcx; rewrite hrt; case: ifP => [/andP [/eqP e1 /eqP e2]|_].
    by move: hcx; rewrite e1 e2 eqxx (B_canon Bw).
  case: ifP => [/andP [/andP [/eqP e1 /eqP e2] _]|_]; last exact: (i_frame hinv).
  by move: hcx; rewrite e1 e2 eqxx orbT (B_canon Bpw).
- move=> c x hc hx hk; rewrite hrt; case: ifP => [/andP [/eqP e1 /eqP e2]|_].
    by move: hk; rewrite e2 (canonK Bw) eqxx canon_paired.
  case: ifP => [/andP [/andP [/eqP e1 /eqP e2] hs]|_]; last exact: (i_keys hinv).
  move: hk; rewrite e2 (canonK Bpw) eqxx canon_paired //.
  case/orP: hs => [/eqP/paired_hi//|/andP [ho _]]; exact: paired_even.
- move=> ho; apply: Rmono; [exact: Bhi|exact: (i_odd hinv)].
- move=> ho x hx hr /orP [/eqP e|/eqP e]; [apply: uT|apply: uT2] => //.
  + by rewrite /paired_in ho e eqxx.
  + by rewrite /paired_in ho e eqxx.
- move=> he hr; rewrite /T'; case: eqP => [e|nw]; first by apply: hte.
  by apply: (i_even hinv) => //; rewrite -hR' //; exact: Bhi.
- move=> x hx hr px; rewrite hrt eqxx /=; case: eqP => [e|nc'].
    case: (canon_eq hx Bw e) => [->|e2]; first by rewrite Tw.
    have nw : x <> w by move=> e3; move: (other_neq Bw); rewrite -e2 e3 eqxx.
    have hx' : routed st x by rewrite -hR'.
    by rewrite Tx // e2 hTo -?e2 // e2 (setting_other _ Bw).
  rewrite (eq_sym left) ne /=.
  have nw : x <> w by move=> e; apply: nc'; rewrite e.
  by have hx' : routed st x; [rewrite -hR'|rewrite Tx // (i_AL hinv)].
- move=> x hx hr hs; rewrite hrt ne eqxx /=; case: (@eqP _ x w) => [e|nw].
    by rewrite e eqxx /= Tw; move: hs; rewrite e /rset => /orP [->//|/andP [ho]]; rewrite ho hR' ?orbT /= => [->||/eqP]; rewrite ?orbT // ?twin_neq ?B_twin ?paired_even.
  have hx' : routed st x by rewrite -hR'.
  case: eqP => [e|nc'] /=.
    rewrite (Hrset x) //; have [p1 p2 e2] := canon_twin hx Bw e nw.
    by rewrite Tx // e2 hTt -?e2 // e2 pi_twin // (setting_other _ Bpw).
  rewrite Tx // (i_AR hinv) //; move: hs; rewrite /rset; case/orP => [->//|/andP [ho hr2]]; rewrite ho /=.
  have pp : paired (ip_at pi x) by apply: paired_even.
  rewrite hR' in hr2; first by rewrite hr2 orbT.
    exact: B_twin.
  by move=> e; apply: nc'; rewrite -e pi_twin // (canon_other (Bpi hx)).
- move=> x hx hr; have h1 := uT x hx hr; have h2 := uT2 x hx hr.
  rewrite hp ?hi' ?B_pos ?Bpi //.
  case: (@eqP _ x w) => [e|nw]; first by rewrite e Tw !eqxx.
  have hx' : routed st x by rewrite -hR'.
  have [P1 P2] := i_P hinv hx hx'.
  have -> : (pos x (T' x) == pos w t) = false.
    apply/eqP => e; have [||//|[q1 q2 q3 q4]] := pos_inj hx Bw _ _ e => //; first by rewrite pw.
    move: q4; rewrite Tx // q3 hTo -?q3 //; by case: (t).
  have -> : (pos (ip_at pi x) (T' x) == pos (ip_at pi w) t) = false.
    apply/eqP => e; have [||/(pi_inj hx Bw)//|[q1 q2 q3 q4]] := pos_inj (Bpi hx) Bpw _ _ e => //.
      by have := uT2 w Bw Rw; rewrite Tw.
    have e2 : x = twin w by rewrite /twin -q3; case: (hpi hx).
    move: q4; rewrite Tx // e2 hTt -?e2 //; by case: (t).
  by rewrite Tx.
- move=> x hx hr px hr2; case: (@eqP _ x w) => [e|nw].
    have nw : other w <> w by apply/eqP; rewrite (other_neq Bw).
    by subst x; rewrite Tw Tx ?hTo // -hR'.
  have hx' : routed st x by rewrite -hR'.
  rewrite (Tx x) //; case: (@eqP _ (other x) w) => [e|nw2].
    have e2 : x = other w by rewrite -e (otherK hx).
    by rewrite e Tw e2 hTo ?negbK -?e2.
  by rewrite Tx -?hR' ?(i_B hinv) -?hR' //; apply: B_other.
- move=> x hx hr px hr2; case: (@eqP _ x w) => [e|nw].
    subst x; have nw : twin w <> w by apply/eqP; rewrite twin_neq.
    by rewrite Tw Tx ?hTt // -?hR' ?B_twin.
  have hx' : routed st x by rewrite -hR'.
  have Bt := B_twin hx px.
  rewrite (Tx x) //; case: (@eqP _ (twin x) w) => [e|nw2].
    have e2 : x = twin w by rewrite -e twinK.
    by rewrite e Tw e2 hTt ?negbK -?e2 // -e twin_paired.
  by rewrite Tx -?hR' ?(i_C hinv) -?hR'.
- move=> x hx px nr1 nr2; rewrite hrt (eq_sym left) ne eqxx /=.
  have nw : x <> w by move=> e; move: nr1; rewrite e Rw.
  have nw2 : other x <> w by move=> e; move: nr2; rewrite e Rw.
  case: eqP => [e|_].
    by case: (canon_eq hx Bw e) => // e2; case: nw2; rewrite e2 (otherK Bw).
  by apply: (i_DL hinv) => //; rewrite -hR' //; apply: B_other.
- move=> x hx nr px hh; rewrite hrt ne eqxx /=.
  have nw : x <> w by move=> e; move: nr; rewrite e Rw.
  have nr1 : ~~ routed st x by rewrite -hR'.
  case: (@eqP _ (canon (ip_at pi x))) => [e|nc'] /=; last first.
    apply: (i_DR hinv) => // h; apply: hh; apply: Rmono => //; exact: B_twin.
  have [p1 p2 e2] := canon_twin hx Bw e nw.
  have e3 : twin x = w by rewrite e2 twinK.
  have epi : ip_at pi w = hi by rewrite -e3; apply: hh; rewrite e3.
  rewrite /rset epi eqxx /= -e2 (negbTE nr1) andbF.
  by apply: (i_DR hinv) => // _; rewrite e3.
Qed.

Record fh (T : nat -> bool) (st : aw_state) (t : bool) (os oz : option nat) : Prop := FH {
  f_left : aw_left st; f_B : B (aw_to st); f_nr : ~~ routed st (aw_to st);
  f_L : forall x, B x -> routed st x -> paired x -> [\/ routed st (other x), x = other (aw_to st) | os = Some x];
  f_R : forall x, B x -> routed st x -> paired (ip_at pi x) -> routed st (twin x) \/ oz = Some x;
  f_o : routed st (other (aw_to st)) -> T (other (aw_to st)) = ~~ t;
  f_fresh : ~~ routed st (other (aw_to st)) ->
    [/\ os = None, oz = None, t = false, aw_to st != canon (aw_to st) & aw_max st = aw_to st];
  f_s : forall x, os = Some x -> [/\ B x, routed st x, T x = false & ~~ routed st (other x)] /\
    [/\ x != canon x, aw_max st = x & x <> other (aw_to st)];
  f_t : t -> os = None /\ exists z, oz = Some z;
  f_z : forall z, oz = Some z -> [/\ ~~ isodd, t, B z, routed st z & ip_at pi z = hi] /\
    (~~ routed st (twin z) /\ T z = false);
  f_odd : isodd -> ~~ routed st (ip_at pinv hi) -> os = None /\ routed st (other (aw_to st));
  f_even : ~~ isodd -> routed st hi \/ (aw_to st = hi /\ t = false);
  f_e : ~~ isodd -> ~~ t -> routed st (other (aw_to st)) -> exists x, os = Some x }.

Record bh (T : nat -> bool) (st : aw_state) (t : bool) (os oz : option nat) (w : nat) : Prop := BH {
  b_left : aw_left st = false; b_to : aw_to st = other (ip_at pi w);
  b_B : B w; b_r : routed st w; b_T : T w = t; b_pi : ip_at pi w <> hi;
  b_L : forall x, B x -> routed st x -> paired x -> routed st (other x) \/ os = Some x;
  b_R : forall x, B x -> routed st x -> paired (ip_at pi x) -> [\/ routed st (twin x), x = w | oz = Some x];
  b_x : ~~ routed st (twin w) \/ oz = Some (twin w);
  b_s : forall x, os = Some x -> [/\ B x, routed st x, T x = false & ~~ routed st (other x)] /\
    (x != canon x /\ aw_max st = x);
  b_t : t -> os = None /\ exists z, oz = Some z;
  b_z : forall z, oz = Some z -> [/\ ~~ isodd, t, B z, routed st z & ip_at pi z = hi] /\
    ((w = twin z \/ ~~ routed st (twin z)) /\ T z = false);
  b_odd : isodd -> ~~ routed st (ip_at pinv hi) -> os = None;
  b_even : ~~ isodd -> routed st hi;
  b_e : ~~ isodd -> ~~ t -> exists x, os = Some x }.

(** Everything is routed in pairs. *)
Record closed (st : aw_state) : Prop := Closed {
  c_L : forall x, B x -> routed st x -> paired x -> routed st (other x);
  c_R : forall x, B x -> routed st x -> paired (ip_at pi x) -> routed st (twin x);
  c_odd : isodd -> routed st (ip_at pinv hi);
  c_even : ~~ isodd -> routed st hi }.

(** Half a cycle was routed, up to the packet [z] for the last row; the other
    half starts at the partner of [x]. *)
Record half (T : nat -> bool) (st : aw_state) (x z : nat) : Prop := Half {
  h_x : [/\ B x, routed st x, T x = false & ~~ routed st (other x)];
  h_x2 : x != canon x /\ aw_max st = x;
  h_L : forall y, B y -> routed st y -> paired y -> routed st (other y) \/ y = x;
  h_R : forall y, B y -> routed st y -> paired (ip_at pi y) -> routed st (twin y) \/ y = z;
  h_z : [/\ ~~ isodd, B z, routed st z & ip_at pi z = hi] /\ (~~ routed st (twin z) /\ T z = false);
  h_even : routed st hi }.

Lemma bottom_paired x : B x -> x != canon x -> paired x.
Proof. clear; rewrite /paired_in /isodd_in /aw_canonical /between; lia. Qed.
Lemma unrouted_paired T st x : inv T st -> B x -> ~~ routed st x -> paired x.
Proof.
move=> hi1 hx; case: (boolP (paired x)) => // h.
by move: h; rewrite /paired_in negbK => /andP [ho /eqP->]; rewrite (i_odd hi1).
Qed.

Lemma lower_ok r k : k < size r -> exists k', [/\ aw_lower r k = Ok k', k' <= k,
  forall j, k' < j -> j <= k -> nth false r j & k' = 0 \/ ~~ nth false r k'].
Proof.
elim: k => [|k IH] hk; first by exists 0; split=> //= [j|]; [lia|left].
rewrite [aw_lower _ _]/= (oget_nth false) //= -/(nth false r k.+1); case: ifP => h.
  have [|k' [e h1 h2 h3]] := IH; first by lia.
  exists k'; split=> //; first by lia.
  move=> j hj; rewrite leq_eqVlt => /orP [/eqP->//|hj2]; exact: h2.
by exists k.+1; split=> // [j|]; [lia|right; rewrite h].
Qed.

Lemma inv_max T st to l m : inv T st -> B m -> (forall x, m < x -> x <= hi -> routed st x) ->
  inv T (AwState to l m (aw_routed st) (aw_perm st) (aw_inv st) (aw_rt st)).
Proof. by case: st => ? ? ? ? ? ? ? []; split. Qed.

Definition tail st := 
  if ~~ aw_left st then Ok (st, false) else
  let! i := aw_rel lo (aw_to st) in
  let! r := oget (aw_routed st) i in
  if ~~ r then Ok (st, false) else
  let! i := aw_rel lo (aw_max st) in
  let! k := aw_lower (aw_routed st) i in
  let! r0 := oget (aw_routed st) 0 in
  if (k == 0) && r0 then
    Ok (AwState (aw_to st) true (lo + k) (aw_routed st) (aw_perm st) (aw_inv st) (aw_rt st), true)
  else Ok (AwState (lo + k) true (lo + k) (aw_routed st) (aw_perm st) (aw_inv st) (aw_rt st), false).

Lemma tail_next T st : inv T st -> aw_left st -> B (aw_to st) -> ~~ routed st (aw_to st) -> tail st = Ok (st, false).
Proof.
by move=> h hl hb hr; rewrite /tail hl /= relE //= (oget_nth false) ?(i_size h) ?rel_lt //= -/(routed st _) hr.
Qed.
Lemma tail_search T st : inv T st -> aw_left st -> B (aw_to st) -> routed st (aw_to st) ->
  exists m b, [/\ tail st = Ok (AwState (if b then aw_to st else m) true m (aw_routed st) (aw_perm st) (aw_inv st) (aw_rt st), b),
    B m, m <= aw_max st, forall x, m < x -> x <= hi -> routed st x &
    if b then m = lo /\ routed st lo else ~~ routed st m].
Proof.
move=> h hl hb hr; have [bm hm] := i_max h.
rewrite /tail hl /= relE //= (oget_nth false) ?(i_size h) ?rel_lt //= -/(routed st _) hr /= relE //=.
have [|k [-> h1 h2 h3]] := @lower_ok (aw_routed st) (aw_max st - lo); first by rewrite (i_size h) rel_lt.
rewrite /= (oget_nth false) ?(i_size h) //=; last by clear; lia.
have e : nth false (aw_routed st) k = routed st (lo + k) by rewrite /routed addKn.
have e0 : nth false (aw_routed st) 0 = routed st lo by rewrite /routed subnn.
have bk : B (lo + k) by move: bm; rewrite /between; clear - h1; lia.
have hk x : lo + k < x -> x <= hi -> routed st x.
  move=> hx1 hx2; case: (ltnP (aw_max st) x) => h4; first exact: hm.
  by rewrite /routed; apply: h2; clear - hx1 h4; lia.
have hkm : lo + k <= aw_max st by move: bm; rewrite /between; clear - h1; lia.
exists (lo + k), ((k == 0) && nth false (aw_routed st) 0); split=> //; first by case: ifP.
case: ifP => [/andP [/eqP-> hr0]|/negbT]; first by rewrite addn0 -e0.
rewrite negb_and => /orP [hk0|hr0].
  by case: h3 => [e1|]; [rewrite e1 eqxx in hk0|rewrite e].
by case: h3 => [e1|]; [rewrite e1 addn0 -e0|rewrite e].
Qed.

Lemma fresh_head T st m : inv T st -> closed st -> aw_left st -> B m -> aw_to st = m -> aw_max st = m ->
  ~~ routed st m -> fh T st false None None.
Proof.
move=> h [hL hR ho he] hl bm eto emax hr.
have pm := unrouted_paired h bm hr.
have nro : ~~ routed st (other m).
  apply/negP => /(hL _ (B_other bm pm)); rewrite other_paired // (otherK bm) (negbTE hr) => /(_ isT) //.
have [_ hm] := i_max h; rewrite emax in hm.
have nc1 : m != canon m.
  apply/negP => hc; have [e1 e2] := top_other bm pm hc.
  by move: nro; rewrite e1 hm //; clear - e2; lia.
split; rewrite ?eto //.
- by move=> x hx hrx px; apply: Or31; apply: hL.
- by move=> x hx hrx px; left; apply: hR.
- by rewrite (negbTE nro).
- by move=> /ho ->.
- by move=> /he; left.
- by rewrite (negbTE nro).
Qed.

Lemma tail_closed T st : inv T st -> aw_left st -> B (aw_to st) -> closed st -> routed st (aw_to st) \/ aw_to st = aw_max st ->
  exists st' b, [/\ tail st = Ok (st', b), inv T st', aw_routed st' = aw_routed st &
    if b then forall x, B x -> routed st' x else fh T st' false None None].
Proof.
move=> h hl hb hc ht; case: (boolP (routed st (aw_to st))) => hr; last first.
  exists st, false; rewrite (tail_next h) //; split=> //.
  case: ht => [hr2|e]; first by rewrite hr2 in hr.
  exact: (fresh_head h hc hl hb).
have [m [b [e bm hm h1 h2]]] := tail_search h hl hb hr.
rewrite e; eexists; exists b; split; [by []|exact: inv_max| by []|].
have hi2 := inv_max (if b then aw_to st else m) true h bm h1.
case: b h2 {e} hi2 => [[e hr0] hi2 x hx|hr0 hi2].
  case: (ltnP m x) => hx2; first by apply: h1 => //; case/andP: hx.
  have -> : x = lo by move: hx; rewrite /between; clear - hx2 e; lia.
  exact: hr0.
by apply: (@fresh_head _ _ m hi2) => //; case: hc => ? ? ? ?; split.
Qed.

Lemma tail_half T st x z : inv T st -> aw_left st -> aw_to st = aw_max st -> half T st x z ->
  exists st', [/\ tail st = Ok (st', false), inv T st', aw_routed st' = aw_routed st & fh T st' true None (Some z)].
Proof.
move=> h hl hto [[h1 h2 h3 h4] [h5 h6] h7 h8 [[z1 z2 z3 z4] [z5 z6]] h9].
have [e1 e2] := bottom_other h1 h5; have px := bottom_paired h1 h5.
have [||m [b [e bm hm g1 g2]]] := tail_search h hl; rewrite ?hto ?h6 //.
have em : m = other x.
  rewrite h6 in hm; case: (ltngtP m (other x)) => // hl2.
    by move: h4; rewrite g1 //; case/andP: (B_other h1 px).
  have ex : m = x by rewrite e1 in hl2; clear - hl2 hm; lia.
  case: b g2 {e} => [[e3 _]|]; last by rewrite ex h2.
  by rewrite e3 in ex; rewrite ex ltnn in e2.
have eb : b = false by case: b g2 {e} => // -[e3]; rewrite -e3 em (negbTE h4).
rewrite eb in e; rewrite e; eexists; split; [by []|exact: inv_max|by []|].
split=> //=; rewrite ?em //.
- by move=> y hy hr py; case: (h7 y hy hr py) => [|->]; [apply: Or31|apply: Or32; rewrite (otherK h1)].
- by move=> y hy hr py; case: (h8 y hy hr py) => [|->]; [left|right].
- by rewrite (otherK h1).
- by rewrite (otherK h1) => hq; rewrite /routed /= in hq; move: h2; rewrite /routed (negbTE hq).
- by move=> _; split=> //; exists z.
- by move=> y [<-].
- by move=> ho; rewrite ho in z1.
- by left.
Qed.

Lemma count_set (r : seq bool) i : i < size r ->
  count id (set_nth false r i true) = if nth false r i then count id r else (count id r).+1.
Proof.
elim: r i => [|a r IH] [|i] //=; first by case: a.
by move=> h; rewrite IH //; case: ifP => // _; rewrite addnS.
Qed.

Lemma fwd_ok T st t os oz : inv T st -> fh T st t os oz ->
  exists T' st', [/\ aw_forward left right lo hi s pi st = Ok st', inv T' st',
    count id (aw_routed st') = (count id (aw_routed st)).+1 &
    (exists os', bh T' st' t os' oz (aw_to st)) \/
    [/\ aw_left st', aw_to st' = aw_max st' & closed st' \/ exists x z, half T' st' x z]].
Proof.
case: st => w l m rd np' ni rt hinv; set st := AwState _ _ _ _ _ _ _ in hinv *.
case=> /= f1 Bw nw fL fR fo ff fs ft fz fodd feven fe.
have pw := unrouted_paired hinv Bw nw; have Bpw := Bpi Bw; have Bo := B_other Bw pw.
have lr : left < size rt by rewrite (i_rt hinv); clear - hlr hrc; lia.
have ne : (right == left) = false by clear - hlr; lia.
have tw : paired (ip_at pi w) -> routed st (twin w) -> oz = Some (twin w).
  move=> pp hr; case: (fR _ (B_twin Bw pp) hr (twin_paired Bw pp)) => //.
  by rewrite twinK // (negbTE nw).
have [rt1 [o [e1 e2 e3 [sz1 g1]]]] : exists rt1 o, [/\ rt_find rt left (canon w) = Ok o,
    (if o is None then rt_put rt left (canon w) false else Ok rt) = Ok rt1,
    (if o is Some b then b else false) = setting w t &
    size rt1 = nc /\ forall c x, aw_bit rt1 c x = if (c == left) && (x == canon w) then Some (setting w t) else aw_bit rt c x].
  rewrite rt_findE //; case: (boolP (routed st (other w))) => hr.
    have := i_AL hinv Bo hr (other_paired Bw pw).
    rewrite (canon_other Bw) fo // (setting_other _ Bw) /= => e.
    exists rt, (Some (setting w t)); rewrite e; split=> //; split; first exact: (i_rt hinv).
    by move=> c x; case: ifP => // /andP [/eqP-> /eqP->].
  have [_ _ et hc _] := ff hr; have es : setting w t = false by rewrite /aw_setting et (negbTE hc).
  have := i_DL hinv Bw pw nw hr; rewrite /= => e; rewrite e es.
  case: ifP e => _ e.
    exists rt, (Some false); split=> //; split; first exact: (i_rt hinv).
    by move=> c x; case: ifP => // /andP [/eqP-> /eqP->].
  have [rt1 [h1 h2 h3]] := rt_putE (canon w) false lr.
  by exists rt1, None; split=> //; split=> //; rewrite h2 (i_rt hinv).
rewrite /aw_forward /= e1 /= e2 /= e3 decisionK switch_outputE //= (ip_get_ok wp bp Bw) /=.
have hT1 : routed st (twin w) -> paired (ip_at pi w) -> T (twin w) = ~~ t.
  by move=> hr pp; have [[_ tt _ _ _] [_ ->]] := fz _ (tw pp hr); rewrite tt.
have rs : right < size rt1 by rewrite sz1.
have Bpos := B_pos t Bw; have Bpos' := B_pos t Bpw.
have sz2 : size (set_nth false rd (w - lo) true) = s by rewrite size_set_nth (i_size hinv); apply/maxn_idPr; exact: rel_lt.
have Rr x : B x -> nth false (set_nth false rd (w - lo) true) (x - lo) = (x == w) || routed st x.
  move=> hx; rewrite nth_set_nth /=.
  have -> : (x - lo == w - lo) = (x == w) by move: hx Bw; rewrite /between; clear; lia.
  by case: (x == w).
have cnt : count id (set_nth false rd (w - lo) true) = (count id rd).+1.
  by rewrite count_set ?(i_size hinv) ?rel_lt // (negbTE (_ : ~~ nth false rd (w - lo))).
have nodd : isodd -> w <> hi by move=> ho e; move: pw; rewrite e /paired_in ho eqxx.
have hte : ~~ isodd -> w = hi -> t = false.
  by move=> he e; case: (feven he) => [hr|[_ ->//]]; move: nw; rewrite e hr.
set T' := fun x => if x == w then t else T x.
have T'w : T' w = t by rewrite /T' eqxx.
have T'x x : routed st x -> T' x = T x by rewrite /T'; case: eqP => // -> hr; rewrite hr in nw.
have [bm hm] := i_max hinv.
case: (@eqP _ (ip_at pi w) hi) => epi.
(* the special case *)
have et : t = false.
  apply/negP => ht; have [_ [z ez]] := ft ht; have [[z1 z2 z3 z4 z5] _] := fz z ez.
  by move: nw; rewrite -(pi_inj z3 Bw _) ?z4 // z5 epi.
have oz0 : oz = None by case: oz fz {fR ff ft tw} => // z /(_ z erefl) [[_]]; rewrite et.
have ntw : paired (ip_at pi w) -> ~~ routed st (twin w) by move=> pp; apply/negP => /(tw pp); rewrite oz0.
have [p1 [h1 wp1 bp1 a1]] : exists q, [/\ ip_set np' (pos w t) hi = Ok q, ip_wf q, ip_bounds q lo hi &
    forall j, B j -> ip_at q j = if j == pos w t then hi else ip_at np' j].
  exact: (ip_set_ok _ (i_wp hinv) (i_bp hinv)).
have [i1 [h2 wi1 bi1 a2]] : exists q, [/\ ip_set ni hi (pos w t) = Ok q, ip_wf q, ip_bounds q lo hi &
    forall j, B j -> ip_at q j = if j == hi then pos w t else ip_at ni j].
  by apply: (ip_set_ok _ (i_wi hinv) (i_bi hinv)); exact: Bhi.
have ph : pos (ip_at pi w) t = hi.
  rewrite epi et /pos_in; case: (boolP (paired hi)) => // pp; move: pp Bw.
  by rewrite /paired_in /isodd_in /between; clear - hlh; lia.
rewrite h1 /= h2 /= relE //= (oput_set_nth false) ?(i_size hinv) ?rel_lt //=.
set st' := AwState _ _ _ _ _ _ _; exists T', st'.
have R' x : B x -> routed st' x = (x == w) || routed st x by exact: Rr.
have nrset : rset st w = false.
  rewrite /rset epi eqxx /=; case: (boolP isodd) => //= ho; apply/negbTE; apply: ntw; exact: paired_even.
have hinv' : inv T' st'.
  apply: (@inv_route T st w t st' hinv) => //.
  - by rewrite (negbTE nw).
  - by move=> pp /hT1 -> .
  - by move=> x h3 h4; rewrite R' ?(hm x h3 h4) ?orbT //; move: bm h3 h4; rewrite /between /=; clear; lia.
  - by move=> y hy; rewrite ph a1.
  - by move=> y hy; rewrite ph a2.
  - by move=> c x; rewrite g1 nrset andbF.
split=> //; right; split=> //.
case: (boolP isodd) => [ho|he].
  left; have epw : ip_at pinv hi = w by rewrite -epi; case: (hpi Bw).
  have nrw : ~~ routed st (ip_at pinv hi) by rewrite epw.
  have [os0 ro] := fodd ho nrw.
  split.
  - move=> x hx hr px; rewrite R' // in hr; rewrite R'; last exact: B_other.
    case/orP: hr => [/eqP->|hr2]; first by rewrite ro orbT.
    case: (fL x hx hr2 px) => [->|e|]; rewrite ?orbT // ?os0 // e (otherK Bw) eqxx //.
  - move=> x hx hr px; rewrite R' // in hr; rewrite R'; last exact: B_twin.
    case/orP: hr px => [/eqP->|hr] px; first by rewrite /paired_in epi ho eqxx in px.
    by case: (fR x hx hr px) => [->|]; rewrite ?orbT ?oz0.
  - by rewrite epw R' // eqxx.
  - by rewrite ho.
right.
have hhi : routed st' hi.
  rewrite R' ?Bhi //; case: (feven he) => [->|[e _]]; rewrite ?orbT //.
  by apply/orP; left; apply/eqP.
have ptw := ntw (paired_even _ he); have ntwin : twin w <> w by apply/eqP; rewrite twin_neq // paired_even.
have Btw := B_twin Bw (paired_even _ he).
have hz : [/\ ~~ isodd, B w, routed st' w & ip_at pi w = hi] /\ (~~ routed st' (twin w) /\ T' w = false).
  split; first by split=> //; rewrite R' // eqxx.
  by rewrite R' // negb_or ptw andbT T'w; split=> //; apply/eqP.
case: (boolP (routed st (other w))) => hr.
  case eos: os => [x|].
    have [[x1 x2 x3 x4] [x5 x6 x7]] := fs x eos.
    exists x, w; split=> //.
    - split=> //; rewrite ?R' ?x2 ?orbT ?T'x //; last by apply: B_other => //; exact: bottom_paired.
      by rewrite negb_or x4 andbT; apply/eqP => e; apply: x7; rewrite -e (otherK x1).
    - move=> y hy hry py; rewrite R' // in hry; rewrite R'; last exact: B_other.
      case/orP: hry => [/eqP->|hry]; first by rewrite hr orbT; left.
      case: (fL y hy hry py) => [->|->|]; rewrite ?orbT; [by left|by left; rewrite (otherK Bw) eqxx|by rewrite eos => -[->]; right].
    - move=> y hy hry py; rewrite R' // in hry; rewrite R'; last exact: B_twin.
      case/orP: hry => [/eqP->|hry]; [by right|left].
      by case: (fR y hy hry py) => [->|]; rewrite ?orbT ?oz0.
  (* nothing dangles: impossible in an even network *)
  have nt : ~~ t by rewrite et.
  by have [x ex'] := fe he nt hr; rewrite ex' in eos.
have [os0 _ _ hc em] := ff hr; exists w, w; split=> //.
- split=> //; [by rewrite R' // eqxx|by rewrite T'w|].
  by rewrite R' // negb_or hr andbT (other_neq Bw).
- move=> y hy hry py; rewrite R' // in hry; rewrite R'; last exact: B_other.
  case/orP: hry => [/eqP->|hry]; [by right|left].
  by case: (fL y hy hry py) => [->|->|]; rewrite ?orbT ?os0 // (otherK Bw) eqxx.
- move=> y hy hry py; rewrite R' // in hry; rewrite R'; last exact: B_twin.
  case/orP: hry => [/eqP->|hry]; [by right|left].
  by case: (fR y hy hry py) => [->|]; rewrite ?orbT ?oz0.
(* the general case *)
have pp := paired_hi epi.
rewrite rt_findE // g1 ne /=.
have -> : aw_bit rt right (canon (ip_at pi w)) = None.
  apply: (i_DR hinv) => // /(tw pp) ez; by have [[]] := fz _ ez.
have [rt2 [-> sz3 g2]] := rt_putE (canon (ip_at pi w)) (setting (ip_at pi w) t) rs.
rewrite /= /aw_switch_input switch_outputE //=.
have [p1 [h1 wp1 bp1 a1]] : exists q, [/\ ip_set np' (pos w t) (pos (ip_at pi w) t) = Ok q, ip_wf q, ip_bounds q lo hi &
    forall j, B j -> ip_at q j = if j == pos w t then pos (ip_at pi w) t else ip_at np' j].
  exact: (ip_set_ok _ (i_wp hinv) (i_bp hinv)).
have [i1 [h2 wi1 bi1 a2]] : exists q, [/\ ip_set ni (pos (ip_at pi w) t) (pos w t) = Ok q, ip_wf q, ip_bounds q lo hi &
    forall j, B j -> ip_at q j = if j == pos (ip_at pi w) t then pos w t else ip_at ni j].
  exact: (ip_set_ok _ (i_wi hinv) (i_bi hinv)).
rewrite h1 /= h2 /= relE //= (oput_set_nth false) ?(i_size hinv) ?rel_lt //=.
set st' := AwState _ _ _ _ _ _ _; exists T', st'.
have R' x : B x -> routed st' x = (x == w) || routed st x by exact: Rr.
have hrset : rset st w by rewrite /rset; move/eqP: epi => ->.
have hinv' : inv T' st'.
  apply: (@inv_route T st w t st' hinv) => //.
  - by rewrite (negbTE nw).
  - by move=> _ /hT1 ->.
  - by move=> x h3 h4; rewrite R' ?(hm x h3 h4) ?orbT //; move: bm h3 h4; rewrite /between /=; clear; lia.
  - by rewrite sz3.
  - move=> c x; rewrite g2 g1 hrset andbT.
    by case: (@eqP _ c right) => [->|_] /=; rewrite ?ne //=; case: ifP.
split=> //; left; exists (if routed st (other w) then os else Some w); split=> //=.
- by rewrite R' // eqxx.
- move=> x hx hrx px; rewrite R' // in hrx; rewrite R'; last exact: B_other.
  case/orP: hrx => [/eqP->|hrx].
    by case: (boolP (routed st (other w))) => hr; [left; rewrite orbT|right].
  case: (fL x hx hrx px) => [->|->|e]; [by left; rewrite orbT|by left; rewrite (otherK Bw) eqxx|right].
  by case: (boolP (routed st (other w))) => hr //; have [] := ff hr; rewrite e.
- move=> x hx hrx px; rewrite R' // in hrx; rewrite R'; last exact: B_twin.
  case/orP: hrx => [/eqP->|hrx]; first by apply: Or32.
  by case: (fR x hx hrx px) => [->|->]; [apply: Or31; rewrite orbT|apply: Or33].
- rewrite R'; last exact: B_twin.
  rewrite twin_neq //=; case: (boolP (routed st (twin w))) => hr; [right; exact: tw|by left].
- move=> x; case: (boolP (routed st (other w))) => hr.
    move=> /fs [[x1 x2 x3 x4] [x5 x6 x7]]; split=> //; split=> //.
    + by rewrite R' // x2 orbT.
    + by rewrite T'x.
    + rewrite R'; last by apply: B_other => //; exact: bottom_paired.
      by rewrite negb_or x4 andbT; apply/eqP => e; apply: x7; rewrite -e (otherK x1).
  move=> [<-]; have [_ _ et hc em] := ff hr; split=> //; split=> //.
  + by rewrite R' // eqxx.
  + by rewrite T'w.
  + by rewrite R' // negb_or hr andbT (other_neq Bw).
- by move=> ht; have [h3 h4] := ft ht; split=> //; case: ifP => // /negbT /ff []; rewrite ht.
- move=> z ez; have [[z1 z2 z3 z4 z5] [z6 z7]] := fz z ez; split; first by split=> //; rewrite R' // z4 orbT.
  rewrite T'x //; split=> //; rewrite R'; last by apply: B_twin => //; exact: paired_even.
  by case: eqP => [->|_]; [left|right].
- move=> ho; rewrite R'; last by case: (hpinv Bhi).
  by rewrite negb_or => /andP [_ /(fodd ho) [-> ->]].
- by move=> he; rewrite R' ?Bhi //; case: (feven he) => [->|[<- _]]; rewrite ?orbT ?eqxx.
- move=> he nt; case: (boolP (routed st (other w))) => hr; [exact: (fe he nt hr)|by exists w].
Qed.

Lemma bwd_ok T st t os oz w : inv T st -> bh T st t os oz w ->
  exists T' st', [/\ aw_backward left right lo s pinv st = Ok st', inv T' st',
    count id (aw_routed st) <= count id (aw_routed st') &
    [/\ aw_left st', B (aw_to st') & if routed st' (aw_to st') then closed st' else fh T' st' t os oz]].
Proof.
case: st => y l m rd np' ni rt hinv; set st := AwState _ _ _ _ _ _ _ in hinv *.
case=> /= _ ey Bw rw Tw epi bL bR bx bs bt bz bodd beven be.
have pp := paired_hi epi; have Bpw := Bpi Bw.
have By : B y by rewrite ey; apply: B_other.
set x := twin w; have Bx : B x by apply: B_twin.
have exy : ip_at pinv y = x by rewrite /x /twin ey.
have epx : ip_at pi x = y by rewrite ey pi_twin.
have py : paired (ip_at pi x) by rewrite epx ey other_paired.
have twx : twin x = w by apply: twinK.
have nxw : x <> w by apply/eqP; rewrite twin_neq.
have xcase : (routed st x = false) \/ (routed st x /\ oz = Some x).
  by case: (boolP (routed st x)) => hr; [right|left]; case: bx => //; rewrite -/x hr.
have px : paired x.
  case: xcase => [h|[_ ez]]; first by apply: (unrouted_paired hinv Bx); rewrite h.
  by have [[ho _ _ _ _] _] := bz _ ez; apply: paired_even.
have lr : left < size rt by rewrite (i_rt hinv); clear - hlr hrc; lia.
have rr : right < size rt by rewrite (i_rt hinv).
have ne : (right == left) = false by clear - hlr; lia.
have hbit : aw_bit rt right (canon y) = Some (setting y (~~ t)).
  have := i_AR hinv Bw rw; rewrite /rset; move/eqP: (epi) => -> /(_ isT) /=.
  by rewrite Tw ey (canon_other Bpw) (setting_other _ Bpw).
rewrite /aw_backward /= (ip_get_ok wi bi By) exy /= rt_findE //= hbit /= decisionK.
have [rt1 [-> sz1 g1]] := rt_putE (canon x) (setting x (~~ t)) lr.
have py' : paired y by rewrite -epx.
rewrite /= /aw_switch_input (switch_outputE _ By py') /= (switch_outputE _ Bx px) /=.
have Bpos := B_pos (~~ t) Bx; have Bpos' := B_pos (~~ t) By.
have [p1 [-> wp1 bp1 a1]] : exists q, [/\ ip_set np' (pos x (~~ t)) (pos y (~~ t)) = Ok q, ip_wf q, ip_bounds q lo hi &
    forall j, B j -> ip_at q j = if j == pos x (~~ t) then pos y (~~ t) else ip_at np' j].
  exact: (ip_set_ok _ (i_wp hinv) (i_bp hinv)).
have [i1 [h2 wi1 bi1 a2]] : exists q, [/\ ip_set ni (pos y (~~ t)) (pos x (~~ t)) = Ok q, ip_wf q, ip_bounds q lo hi &
    forall j, B j -> ip_at q j = if j == pos y (~~ t) then pos x (~~ t) else ip_at ni j].
  exact: (ip_set_ok _ (i_wi hinv) (i_bi hinv)).
rewrite /= h2 /= relE //= (oput_set_nth false) ?(i_size hinv) ?rel_lt //=.
have sz2 : size (set_nth false rd (x - lo) true) = s by rewrite size_set_nth (i_size hinv); apply/maxn_idPr; exact: rel_lt.
set T' := fun z => if z == x then ~~ t else T z; set st' := AwState _ _ _ _ _ _ _.
have R' z : B z -> routed st' z = (z == x) || routed st z.
  move=> hz; rewrite /routed /= nth_set_nth /=.
  have -> : (z - lo == x - lo) = (z == x) by move: hz Bx; rewrite /between; clear; lia.
  by case: (z == x).
have Tz : routed st x -> T x = ~~ t.
  by case: xcase => [->//|[_ ez]] _; have [[_ tt _ _ _] [_ ->]] := bz _ ez; rewrite tt.
have T'x : T' x = ~~ t by rewrite /T' eqxx.
have T'o z : routed st z -> T' z = T z by rewrite /T'; case: eqP => // -> /Tz.
have Box := B_other Bx px; have pox := other_paired Bx px.
have nox : other x <> x by apply/eqP; rewrite (other_neq Bx).
have [bm hm] := i_max hinv.
have hinv' : inv T' st'.
  apply: (@inv_route T st x (~~ t) st' hinv) => //.
  - move=> hr; case: xcase => [h|[h ez]].
      case: (bL _ Box hr pox) => [|eo]; first by rewrite (otherK Bx) h.
      have [[_ _ -> _] _] := bs _ eo; case: (t) bt => // /(_ isT) [h0 _]; by rewrite h0 in eo.
    by rewrite (i_B hinv) // Tz.
  - by rewrite twx Tw negbK.
  - move=> ho; rewrite epx => eh; have pyo : ~~ paired y by rewrite /paired_in ho eh eqxx.
    by rewrite -epx py in pyo.
  - move=> he eh; case: xcase => [|[h ez]]; first by rewrite eh beven.
    by have [[_ -> _ _ _] _] := bz _ ez.
  - by move=> z h3 h4; rewrite R' ?(hm z h3 h4) ?orbT //; move: bm h3 h4; rewrite /between /=; clear; lia.
  - by move=> j hj; rewrite epx a1.
  - by move=> j hj; rewrite epx a2.
  - by rewrite sz1 (i_rt hinv).
  - move=> c z; rewrite g1; case: ifP => // _; case: ifP => // /andP [/andP [/eqP-> /eqP->] _].
    by rewrite epx hbit.
exists T', st'; split=> //.
  by rewrite /= count_set ?(i_size hinv) ?rel_lt //; case: ifP.
split=> //=; rewrite R' // (negbTE (introN eqP nox)) /=.
case: ifP => hro.
(* the cycle is closed *)
- have noz z : oz = Some z -> z = x.
    move=> ez; case: xcase => [h|[_]]; last by rewrite ez => -[].
    have [[_ tt _ _ _] _] := bz _ ez; have [os0 _] := bt tt.
    by case: (bL _ Box hro pox); rewrite ?(otherK Bx) ?h ?os0.
  split.
  + move=> z hz hr pz; rewrite R' // in hr; rewrite R'; last exact: B_other.
    case/orP: hr => [/eqP->|hr]; first by rewrite hro orbT.
    case: (bL z hz hr pz) => [->|ez]; first by rewrite orbT.
    case: xcase => [h|[h eo]]; last first.
      have [[_ tt _ _ _] _] := bz _ eo; have [os0 _] := bt tt; by rewrite os0 in ez.
    case: (bL _ Box hro pox) => [|ez2]; first by rewrite (otherK Bx) h.
    by move: ez2; rewrite ez => -[->]; rewrite (otherK Bx) eqxx.
  + move=> z hz hr pz; rewrite R' // in hr; rewrite R'; last exact: B_twin.
    case/orP: hr pz => [/eqP->|hr] pz; first by rewrite twx rw orbT.
    case: (bR z hz hr pz) => [->|->|/noz->]; rewrite ?orbT // -/x ?eqxx //.
    by rewrite twx rw orbT.
  + move=> ho; have Bh : B (ip_at pinv hi) by case: (hpinv Bhi).
    rewrite R' //; case: (boolP (routed st (ip_at pinv hi))) => [|h]; rewrite ?orbT //.
    have os0 := bodd ho h; case: xcase => [h3|[_ ez]].
      by case: (bL _ Box hro pox); rewrite ?(otherK Bx) ?h3 ?os0.
    by have [[]] := bz _ ez; rewrite ho.
  + by move=> he; rewrite R' ?Bhi // beven ?orbT.
(* the path goes on *)
have hnx : routed st x = false.
  case: xcase => // -[h ez]; have [[_ tt _ _ _] _] := bz _ ez; have [os0 _] := bt tt.
  by case: (bL x Bx h px); rewrite ?hro ?os0.
split=> //=.
- by rewrite R' // (negbTE (introN eqP nox)) hro.
- move=> z hz hr pz; rewrite R' // in hr; rewrite R'; last exact: B_other.
  case/orP: hr => [/eqP->|hr]; first by apply: Or32; rewrite (otherK Bx).
  by case: (bL z hz hr pz) => [->|->]; [apply: Or31; rewrite orbT|apply: Or33].
- move=> z hz hr pz; rewrite R' // in hr; rewrite R'; last exact: B_twin.
  case/orP: hr pz => [/eqP->|hr] pz; first by left; rewrite twx rw orbT.
  by case: (bR z hz hr pz) => [->|->|->]; [left; rewrite orbT|left; rewrite -/x eqxx|right].
- by rewrite (otherK Bx).
- by rewrite (otherK Bx) R' // eqxx.
- move=> z /bs [[s1 s2 s3 s4] [s5 s6]]; split.
    split=> //; [by rewrite R' // s2 orbT|by rewrite T'o|].
    rewrite R'; last by apply: B_other => //; exact: bottom_paired.
    rewrite negb_or s4 andbT; apply/eqP => e; move: hro.
    by rewrite -e (otherK s1) s2.
  by split=> //; rewrite (otherK Bx) => e; rewrite e hnx in s2.
- move=> z ez; have [[z1 z2 z3 z4 z5] [z6 z7]] := bz z ez.
  split; first by split=> //; rewrite R' // z4 orbT.
  rewrite T'o //; split=> //; have pz : paired (ip_at pi z) by exact: paired_even.
  rewrite R'; last exact: B_twin.
  have nzw : twin z <> x by move=> e; apply: epi; rewrite -twx -e twinK.
  rewrite negb_or (introN eqP nzw) /=; case: z6 => // e.
  by move: hnx; rewrite /x e twinK // z4.
- move=> ho; rewrite R'; last by case: (hpinv Bhi).
  rewrite negb_or => /andP [_ /(bodd ho) ->]; split=> //.
  by rewrite (otherK Bx) R' // eqxx.
- by move=> he; left; rewrite R' ?Bhi // beven ?orbT.
- by move=> he nt _; apply: be.
Qed.

Definition head T st : Prop := (exists t os oz, fh T st t os oz) \/ (exists t os oz w, bh T st t os oz w).

Lemma loop_ok fuel T st : inv T st -> head T st -> 2 * (s - count id (aw_routed st)) + ~~ aw_left st < fuel ->
  exists T' st', [/\ aw_loop left right lo hi s pi pinv fuel st = Ok st', inv T' st' & forall x, B x -> routed st' x].
Proof.
elim: fuel T st => [|f IH] T st hv hh //= hf.
rewrite /aw_iter -/(tail _); case: hh => [[t [os [oz h]]]|[t [os [oz [w h]]]]].
- have hl := f_left h; rewrite hl in hf *.
  have [T1 [st1 [-> v1 c1 h1]]] := fwd_ok hv h.
  have := count_size id (aw_routed st1); rewrite (i_size v1) => hc.
  rewrite [obind (Ok _) _]/= -/(tail st1); case: h1 => [[os' h1]|[l1 e1 [h1|[x [z h1]]]]].
  + rewrite /tail (b_left h1) /=; apply: (IH T1); [exact: v1|by right; exists t, os', oz, (aw_to st)|].
    by rewrite c1 (b_left h1) /=; move: hf hc; rewrite c1 /=; clear; lia.
  + have bt : B (aw_to st1) by rewrite e1; case: (i_max v1).
    have [|st2 [b [-> v2 e2 h2]]] := tail_closed v1 l1 bt h1; first by right.
    case: b h2 => h2 /=; first by exists T1, st2.
    apply: (IH T1) => //; first by left; exists false, None, None.
    by rewrite e2 (f_left h2); move: hf hc; rewrite c1 /=; clear; lia.
  + have [st2 [-> v2 e2 h2]] := tail_half v1 l1 e1 h1.
    apply: (IH T1) => //=; first by left; exists true, None, (Some z).
    by rewrite e2 (f_left h2); move: hf hc; rewrite c1 /=; clear; lia.
- have hl := b_left h; rewrite hl in hf *.
  have [T1 [st1 [-> v1 c1 [l1 bt h1]]]] := bwd_ok hv h.
  have := count_size id (aw_routed st1); rewrite (i_size v1) => hc.
  rewrite [obind (Ok _) _]/= -/(tail st1).
  case: (boolP (routed st1 (aw_to st1))) h1 => hr h1.
    have [|st2 [b [-> v2 e2 h2]]] := tail_closed v1 l1 bt h1; first by left.
    case: b h2 => h2 /=; first by exists T1, st2.
    apply: (IH T1) => //; first by left; exists false, None, None.
    by rewrite e2 (f_left h2); move: hf hc c1; rewrite /=; clear; lia.
  rewrite (tail_next v1 l1 bt hr) /=; apply: (IH T1) => //; first by left; exists t, os, oz.
  by rewrite l1; move: hf hc c1; rewrite /=; clear; lia.
Qed.

Lemma init_ok : size rt0 = nc ->
  (forall c x, (c == left) || (c == right) -> B x -> aw_bit rt0 c x = None) ->
  exists T st, [/\ aw_init left right lo hi s pi rt0 = Ok st, inv T st & head T st].
Proof.
move=> hsz hno; have hl : lo <= hi by clear - hlh; lia.
have [np0 [e0 w0 b0 a0]] := ip_range_ok hl.
rewrite /aw_init e0 /=; have Bh := Bhi; have Bpi' := Bpi Bh.
have lr : left < size rt0 by rewrite hsz; clear - hlr hrc; lia.
have rr : right < size rt0 by rewrite hsz.
have ne : (right == left) = false by clear - hlr; lia.
have sz1 : size (set_nth false (nseq s false) (hi - lo) true) = s.
  by rewrite size_set_nth size_nseq; apply/maxn_idPr; clear; lia.
have R1 x : B x -> nth false (set_nth false (nseq s false) (hi - lo) true) (x - lo) = (x == hi).
  move=> hx; rewrite nth_set_nth /= nth_nseq; have -> : (x - lo == hi - lo) = (x == hi).
    by move: hx Bh; rewrite /between; clear; lia.
  by case: (x == hi) => //; case: ifP.
have bh1 : B (hi - 1) by rewrite /between; clear - hlh; lia.
have hm1 x : hi - 1 < x -> x <= hi -> x = hi by clear - hlh; lia.
case: ifP => ho; last first.
(* an even number of packets *)
- have ev : ~~ isodd by rewrite /isodd_in ho.
  have cb : canon hi = hi - 1 by move: ho; rewrite /aw_canonical; clear - hlh; lia.
  have cc : canon (hi - 1) = hi - 1 by rewrite -cb (canonK Bh).
  have [rt1 [-> sz2 g]] := rt_putE (hi - 1) false lr.
  rewrite /=; set st := AwState _ _ _ _ _ _ _; exists (fun=> false), st.
  have R0 x : routed st x = false by rewrite /routed /= nth_nseq; case: ifP.
  split=> //.
    split=> //=; rewrite ?size_nseq ?sz2 //.
    - move=> c x; rewrite g; case: ifP => // /andP [/eqP-> /eqP->].
      by rewrite eqxx bh1.
    - move=> c x hc hx hk; rewrite g; case: ifP => [/andP [_ /eqP e]|_]; last exact: hno.
      by move: hk; rewrite e cc eqxx paired_even.
    - by split=> // x h1 h2; move: h1; rewrite ltnNge h2.
    - by rewrite (negbTE ev).
    - by move=> x _; rewrite R0.
    - by move=> x _; rewrite R0.
    - by move=> x _; rewrite R0.
    - by move=> x _; rewrite R0.
    - by move=> x _; rewrite R0.
    - by move=> x hx px _ _; rewrite g eqxx ev /=; case: eqP => // _; apply: hno; rewrite ?eqxx //; exact: B_canon.
    - move=> x hx _ px _; rewrite g ne /=; apply: hno; rewrite ?eqxx ?orbT //; exact: (B_canon (Bpi hx)).
  left; exists false, None, None; split=> //=; rewrite ?R0 //.
  + by move=> x _; rewrite R0.
  + by move=> x _; rewrite R0.
  + by move=> _; split=> //; rewrite cb; clear - hlh; lia.
  + by rewrite (negbTE ev).
  + by right.
(* an odd number *)
have od : isodd by rewrite /isodd_in ho.
have uh : paired hi = false by rewrite /paired_in od eqxx.
rewrite (ip_get_ok wp bp Bh) /=; case: (@eqP _ (ip_at pi hi) hi) => epi.
- have [np1 [-> w1 b1 a1]] := ip_set_ok hi w0 b0 Bh; rewrite /=.
  rewrite (oput_set_nth false) ?size_nseq /=; last by clear; lia.
  set st := AwState _ _ _ _ _ _ _; exists (fun=> false), st.
  have R0 x : B x -> routed st x = (x == hi) by exact: R1.
  have Rh x : B x -> routed st x -> x = hi by move=> hx; rewrite R0 // => /eqP.
  have ph : pos hi false = hi by rewrite /pos_in uh.
  have hinv : inv (fun=> false) st.
    split=> //=.
    - by move=> c x hc hx _; exact: hno.
    - by split=> // x h1 h2; rewrite (hm1 x h1 h2) R0 // eqxx.
    - by rewrite R0 // eqxx.
    - by move=> x hx /(Rh x hx) ->; rewrite uh.
    - by move=> x hx /(Rh x hx) ->; rewrite /rset epi eqxx od.
    - by move=> x hx /(Rh x hx) ->; rewrite epi ph a1 // eqxx.
    - by move=> x hx /(Rh x hx) ->; rewrite uh.
    - by move=> x hx /(Rh x hx) ->; rewrite epi uh.
    - by move=> x hx _ _ _; rewrite od /=; apply: hno; rewrite ?eqxx //; exact: B_canon.
    - by move=> x hx _ _ _; apply: hno; rewrite ?eqxx ?orbT //; exact: (B_canon (Bpi hx)).
  split=> //; left; exists false, None, None; apply: (@fresh_head _ st (hi - 1)) => //=.
    split.
    - by move=> x hx /(Rh x hx) ->; rewrite uh.
    - by move=> x hx /(Rh x hx) ->; rewrite epi uh.
    - by move=> _; rewrite -{1}epi; have [_ ->] := hpi Bh; rewrite R0 // eqxx.
    - by rewrite od.
  by rewrite R0 //; clear - hlh; lia.
have pp := paired_hi epi.
have [rt1 [-> sz2 g]] := rt_putE (canon (ip_at pi hi)) (setting (ip_at pi hi) false) rr.
rewrite /= /aw_switch_input (switch_outputE _ Bpi' pp) /=.
have Bpos := B_pos false Bpi'.
have [np1 [-> w1 b1 a1]] := ip_set_ok (pos (ip_at pi hi) false) w0 b0 Bh; rewrite /=.
have [ni1 [-> w2 b2 a2]] := ip_set_ok hi w0 b0 Bpos; rewrite /=.
rewrite (oput_set_nth false) ?size_nseq /=; last by clear; lia.
set st := AwState _ _ _ _ _ _ _; exists (fun=> false), st.
have R0 x : B x -> routed st x = (x == hi) by exact: R1.
have Rh x : B x -> routed st x -> x = hi by move=> hx; rewrite R0 // => /eqP.
have ph : pos hi false = hi by rewrite /pos_in uh.
have hinv : inv (fun=> false) st.
  split=> //=.
  - by rewrite sz2.
  - move=> c x hcx; rewrite g; case: ifP => // /andP [/eqP e1 /eqP e2].
    by move: hcx; rewrite e1 e2 eqxx orbT (B_canon Bpi').
  - move=> c x hc hx hk; rewrite g; case: ifP => [/andP [_ /eqP e2]|_]; last exact: hno.
    by move: hk; rewrite e2 (canonK Bpi') eqxx canon_paired.
  - by split=> // x h1 h2; rewrite (hm1 x h1 h2) R0 // eqxx.
  - by rewrite R0 // eqxx.
  - by move=> x hx /(Rh x hx) ->; rewrite uh.
  - by move=> x hx /(Rh x hx) -> _; rewrite g !eqxx.
  - by move=> x hx /(Rh x hx) ->; rewrite ph a1 // a2 // !eqxx.
  - by move=> x hx /(Rh x hx) ->; rewrite uh.
  - move=> x hx /(Rh x hx) -> _; rewrite R0 ?B_twin // => /eqP e.
    by have := twin_neq Bh pp; rewrite e eqxx.
  - move=> x hx _ _ _; rewrite g od (eq_sym left) ne /=; apply: hno; rewrite ?eqxx //; exact: B_canon.
  - move=> x hx nr px hh; rewrite g eqxx /=; case: eqP => [e|_]; last by apply: hno; rewrite ?eqxx ?orbT //; exact: (B_canon (Bpi hx)).
    have nx : x <> hi by move=> ex; move: nr; rewrite R0 // ex eqxx.
    have [p1 p2 e2] := canon_twin hx Bh e nx.
    have e3 : twin x = hi by rewrite e2 twinK.
    by case: epi; rewrite -{1}e3; apply: hh; rewrite R0 ?e3 // eqxx.
split=> //; right; exists false, None, None, hi; split=> //=.
- by rewrite R0 // eqxx.
- by move=> x hx /(Rh x hx) ->; rewrite uh.
- by move=> x hx /(Rh x hx) -> _; apply: Or32.
- by left; rewrite R0 ?B_twin // twin_neq.
- by rewrite od.
- by rewrite od.
Qed.
End Loop.
