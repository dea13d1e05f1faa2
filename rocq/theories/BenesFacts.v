(** Proofs about the Benes routing algorithm (Benes.v). *)
From Coq Require Import PeanoNat.
From mathcomp Require Import all_ssreflect zify.
From Verif Require Import Outcome IntegerPermutation Benes.
Set Implicit Arguments.
Unset Strict Implicit.
Unset Printing Implicit Defensive.

(** * Bits *)
Lemma pow_expn a b : Nat.pow a b = a ^ b.
Proof. by elim: b => [|b IH] //=; rewrite IH expnS. Qed.

Lemma testbit_pow k m : Nat.testbit (2 ^ k) m = (m == k).
Proof. by rewrite -pow_expn Nat.pow2_bits_eqb; case: (Nat.eqb_spec k m) => h; case: eqP => h'; congruence. Qed.

Lemma testbit_block c k y : y < 2 ^ k.+1 -> Nat.testbit (c * 2 ^ k.+1 + y) k = (2 ^ k <= y).
Proof.
move=> hy; rewrite Nat.testbit_eqb pow_expn.
have h0 : 0 < 2 ^ k by rewrite expn_gt0.
rewrite expnS in hy *.
case: (leqP (2 ^ k) y) => h.
- have <- : (2 * c).+1 = Nat.div (c * (2 * 2 ^ k) + y) (2 ^ k).
    by apply: (Nat.div_unique _ _ _ (y - 2 ^ k)); lia.
  have <- : 1 = Nat.modulo (2 * c).+1 2 by apply: (Nat.mod_unique _ _ c); lia.
  by [].
- have <- : 2 * c = Nat.div (c * (2 * 2 ^ k) + y) (2 ^ k).
    by apply: (Nat.div_unique _ _ _ y); lia.
  have <- : 0 = Nat.modulo (2 * c) 2 by apply: (Nat.mod_unique _ _ c); lia.
  by [].
Qed.

Lemma ldiff_pow x k : Nat.ldiff x (2 ^ k) = if Nat.testbit x k then x - 2 ^ k else x.
Proof.
case h: (Nat.testbit x k).
- have <- := Nat.sub_nocarry_ldiff x (2 ^ k); first by [].
  apply: Nat.bits_inj => m; rewrite Nat.ldiff_spec Nat.bits_0 testbit_pow.
  by case: eqP => [->|] //=; rewrite h.
- apply: Nat.bits_inj => m; rewrite Nat.ldiff_spec testbit_pow.
  by case: eqP => [->|] //=; rewrite ?h // andbT.
Qed.
Lemma land_pow x k : Nat.testbit x k = false -> Nat.land x (2 ^ k) = 0.
Proof.
move=> h; apply: Nat.bits_inj => m; rewrite Nat.land_spec Nat.bits_0 testbit_pow.
by case: eqP => [->|] //=; rewrite ?h // andbF.
Qed.
Lemma lor_pow x k : Nat.lor x (2 ^ k) = if Nat.testbit x k then x else x + 2 ^ k.
Proof.
case h: (Nat.testbit x k).
- apply: Nat.bits_inj => m; rewrite Nat.lor_spec testbit_pow.
  by case: eqP => [->|] //=; rewrite ?h // orbF.
- by rewrite -Nat.lxor_lor ?land_pow // -Nat.add_nocarry_lxor // land_pow.
Qed.
Lemma lxor_pow x k : Nat.lxor x (2 ^ k) = if Nat.testbit x k then x - 2 ^ k else x + 2 ^ k.
Proof.
case h: (Nat.testbit x k); last by rewrite -Nat.add_nocarry_lxor // land_pow.
have <- : Nat.ldiff x (2 ^ k) = x - 2 ^ k by rewrite ldiff_pow h.
apply: Nat.bits_inj => m; rewrite Nat.lxor_spec Nat.ldiff_spec testbit_pow.
by case: eqP => [->|] //=; rewrite ?h // /=; case: Nat.testbit.
Qed.

(** * Matrices of switch settings *)
Definition rget (r : benes_routing) (c i : nat) : bool := nth false (nth [::] r c) i.
Definition rshape (r : benes_routing) (nc np : nat) : Prop :=
  size r = nc /\ forall c, c < nc -> size (nth [::] r c) = np.

Lemma rt_set_ok r nc np c i b : rshape r nc np -> c < nc -> i < np ->
  exists r', [/\ rt_set r c i b = Ok r', rshape r' nc np &
    forall c' i', rget r' c' i' = if (c' == c) && (i' == i) then b else rget r c' i'].
Proof.
case=> h1 h2 hc hi; rewrite /rt_set (oget_nth [::]) ?h1 //= (oput_set_nth false) ?h2 //= (oput_set_nth [::]) ?h1 //.
eexists; split; first by [].
- split; first by rewrite size_set_nth h1; apply/maxn_idPr.
  move=> c' hc'; rewrite nth_set_nth /=; case: eqP => [e|_]; last exact: h2.
  by rewrite size_set_nth h2 //; apply/maxn_idPr.
- move=> c' i'; rewrite /rget nth_set_nth /=; case: (@eqP _ c' c) => [->|_] //=.
  by rewrite nth_set_nth /=.
Qed.

(** * A block of rows *)
Section Block.
Variables (off k : nat).
Notation H := (2 ^ k).
Let H0 : 0 < H. Proof. by rewrite expn_gt0. Qed.
Let N2 : 2 ^ k.+1 = H + H. Proof. by rewrite expnS mul2n addnn. Qed.

Definition blk (x : nat) : bool := off <= x < off + 2 ^ k.+1.
Definition par (x : nat) : nat := if x - off < H then x + H else x - H.
Definition dst (x : nat) (t : bool) : nat := (if x - off < H then x else x - H) + (if t then 0 else H).

Lemma blk_par x : blk x -> blk (par x). Proof. rewrite /blk /par N2; case: (ltnP (x - off)); lia. Qed.
Lemma parK x : blk x -> par (par x) = x.
Proof.
rewrite /blk /par N2 => h; case: (ltnP (x - off)) => h1.
  by case: (ltnP (x + H - off)); lia.
by case: (ltnP (x - H - off)); lia.
Qed.
Lemma par_neq x : blk x -> (par x == x) = false. Proof. rewrite /blk /par N2; case: (ltnP (x - off)); lia. Qed.
Lemma dst_blk x t : blk x -> blk (dst x t).
Proof. rewrite /blk /dst N2; case: (ltnP (x - off)); case: t; lia. Qed.
Lemma dst_inj x y t u : blk x -> blk y -> dst x t = dst y u -> t = u /\ (x = y \/ x = par y).
Proof.
rewrite /blk /dst /par N2 => hx hy; case: (ltnP (x - off)) => h1; case: (ltnP (y - off)) => h2; case: t; case: u; lia.
Qed.
Lemma dst_par x t : blk x -> dst (par x) t = dst x t.
Proof.
rewrite /blk /dst /par N2 => hx; case: (ltnP (x - off)) => h1.
  by case: (ltnP (x + H - off)); lia.
by case: (ltnP (x - H - off)); lia.
Qed.
Lemma dst_self x t : blk x -> x != dst x t -> dst x t = par x.
Proof. rewrite /blk /dst /par N2 => hx; case: (ltnP (x - off)) => h1; case: t; lia. Qed.
Lemma par_dst x t : blk x -> x != dst x t -> par (dst x t) = x.
Proof. by move=> hx h; rewrite dst_self // parK. Qed.
Lemma dst_half x t : blk x -> (dst x t < off + H) = t.
Proof. rewrite /blk /dst N2; case: (ltnP (x - off)); case: t; lia. Qed.
Lemma dst_id x : blk x -> dst x (x < off + H) = x.
Proof. rewrite /blk /dst N2; case: (ltnP (x - off)); case: (ltnP x (off + H)); lia. Qed.

Hypothesis hoff : 2 ^ k.+1 %| off.
Lemma blk_bit x : blk x -> Nat.testbit x k = (H <= x - off).
Proof.
case/andP => h1 h2; have -> : x = (off %/ 2 ^ k.+1) * 2 ^ k.+1 + (x - off) by rewrite divnK //; lia.
by rewrite testbit_block ?divnK //; lia.
Qed.
Variables (dim col : nat).
Hypothesis hm : benes_mask dim col = H.
Lemma lhs_destE x t : blk x -> benes_lhs_dest dim col x t = dst x t.
Proof.
move=> hx; rewrite /benes_lhs_dest hm ldiff_pow lor_pow (blk_bit hx) /dst leqNgt.
by case: ltnP => h; case: t => //=; move: hx; rewrite /blk N2; lia.
Qed.
Lemma cross_destE x : blk x -> benes_cross_dest dim col x = par x.
Proof.
by move=> hx; rewrite /benes_cross_dest hm lxor_pow (blk_bit hx) /par leqNgt; case: ltnP.
Qed.
Lemma settingE x t : blk x -> benes_setting dim col x t = (x != dst x t).
Proof. by move=> hx; rewrite /benes_setting lhs_destE. Qed.
End Block.

(** * The looping algorithm *)
Local Arguments benes_lhs_dest : simpl never.
Local Arguments benes_rhs_source : simpl never.
Local Arguments benes_setting : simpl never.
Local Arguments benes_cross_dest : simpl never.
Local Arguments benes_cross_source : simpl never.
Local Arguments ip_get : simpl never.
Local Arguments ip_set : simpl never.
Local Arguments rt_set : simpl never.
Local Arguments rel : simpl never.
Local Arguments dst : simpl never.
Local Arguments set_nth : simpl never.
Section Loop.
Variables (off k dim cs ce nc np : nat) (pi pinv : int_perm) (rt0 : benes_routing).
Hypothesis hoff : 2 ^ k.+1 %| off.
Hypothesis hcs : cs + k.+1 = dim.
Hypothesis hce : ce = dim + k.+1.
Hypothesis hnc : ce <= nc.
Hypothesis hnp : off + 2 ^ k.+1 <= np.
Notation N := (2 ^ k.+1).
Notation B := (blk off k).
Notation par := (par off k).
Notation dst := (dst off k).
Notation last_row := (off + N - 1).
Hypotheses (wp : ip_wf pi) (bp : ip_bounds pi off last_row) (wi : ip_wf pinv) (bi : ip_bounds pinv off last_row).
Hypothesis hpi : forall x, B x -> B (ip_at pi x) /\ ip_at pinv (ip_at pi x) = x.
Hypothesis hpinv : forall x, B x -> B (ip_at pinv x) /\ ip_at pi (ip_at pinv x) = x.
Let N0 : 0 < N. Proof. by rewrite expn_gt0. Qed.

Lemma blk_between x : B x = between off last_row x. Proof. rewrite /blk /between; lia. Qed.
Lemma mask_cs : benes_mask dim cs = 2 ^ k.
Proof. by clear - hcs hce; rewrite /benes_mask ifT; [congr (_ ^ _)|]; lia. Qed.
Lemma mask_ce : benes_mask dim (ce - 1) = 2 ^ k.
Proof. by clear - hcs hce; rewrite /benes_mask ifN; [congr (_ ^ _)|rewrite -leqNgt]; lia. Qed.

(** The packet that shares its right-hand switch with [x]. *)
Definition twin x := ip_at pinv (par (ip_at pi x)).
Lemma blk_twin x : B x -> B (twin x).
Proof. by move=> /hpi [h _]; case: (hpinv (blk_par h)). Qed.
Lemma pi_twin x : B x -> ip_at pi (twin x) = par (ip_at pi x).
Proof. by move=> /hpi [h _]; case: (hpinv (blk_par h)). Qed.
Lemma twinK x : B x -> twin (twin x) = x.
Proof. by move=> hx; have [h e] := hpi hx; rewrite {1}/twin pi_twin // parK. Qed.
Lemma twin_neq x : B x -> (twin x == x) = false.
Proof.
move=> hx; apply/eqP => e; have [h _] := hpi hx.
by have := pi_twin hx; rewrite e => /eqP; rewrite eq_sym par_neq.
Qed.

Definition routed (st : benes_state) (x : nat) : bool := nth false (bs_routed st) (x - off).

Record linv (T : nat -> bool) (st : benes_state) : Prop := LInv {
  l_size : size (bs_routed st) = N;
  l_wp : ip_wf (bs_perm st); l_bp : ip_bounds (bs_perm st) off last_row;
  l_wi : ip_wf (bs_inv st); l_bi : ip_bounds (bs_inv st) off last_row;
  l_rt : rshape (bs_rt st) nc np;
  l_frame : forall c i, ~~ (((c == cs) || (c == ce - 1)) && B i) -> rget (bs_rt st) c i = rget rt0 c i;
  l_last : off <= bs_last st <= off + N /\ forall x, off <= x < bs_last st -> routed st x;
  l_A : forall x, B x -> routed st x ->
    [/\ rget (bs_rt st) cs x = (x != dst x (T x)),
        ip_at (bs_perm st) (dst x (T x)) = dst (ip_at pi x) (T x),
        rget (bs_rt st) (ce - 1) (dst (ip_at pi x) (T x)) = (ip_at pi x != dst (ip_at pi x) (T x)) &
        ip_at (bs_inv st) (dst (ip_at pi x) (T x)) = dst x (T x)];
  l_B : forall x, B x -> routed st x -> routed st (par x) -> T (par x) = ~~ T x;
  l_C : forall x, B x -> routed st x -> routed st (twin x) /\ T (twin x) = ~~ T x }.

Definition closed st := forall x, B x -> routed st x -> routed st (par x).
Definition lhead (T : nat -> bool) (st : benes_state) : Prop :=
  [/\ B (bs_w st), ~~ routed st (bs_w st) &
    closed st \/
    exists s, [/\ B s, routed st s, ~~ routed st (par s), T s = true & s <> par (bs_w st)] /\
      [/\ routed st (par (bs_w st)), T (par (bs_w st)) = false &
        forall x, B x -> routed st x -> [\/ routed st (par x), x = s | x = par (bs_w st)]]].

Lemma relE x : B x -> rel off x = Ok (x - off).
Proof. by case/andP => h _; rewrite /rel ltnNge h. Qed.
Lemma rel_lt x : B x -> x - off < N. Proof. rewrite /blk; lia. Qed.

Lemma step_ok T st : linv T st -> lhead T st ->
  exists T' st' b, [/\ benes_iter dim pi pinv cs ce off N st = Ok (st', b), linv T' st',
    count id (bs_routed st') = (count id (bs_routed st)).+2 &
    if b then forall x, B x -> routed st' x else lhead T' st'].
Proof.
case: st => w last rd pp ii rt [/= h1 h2 h3 h4 h5 h6 h7 [h8 h8'] h9 h10 h11] [/= Bw nw hd].
set w' := ip_at pi w; set v := twin w; set v' := ip_at pi v.
have [Bw' pw] := hpi Bw.
have Bv : B v := blk_twin Bw; have [Bv' pv] := hpi Bv.
have ev' : v' = par w' by exact: pi_twin.
have vw : (v == w) = false by exact: twin_neq.
have nv : ~~ routed (BenesState w last rd pp ii rt) v.
  by apply/negP => /(h11 v Bv) []; rewrite twinK // (negbTE nw).
(* what is known about the neighbours of w and v *)
have Tpw : routed (BenesState w last rd pp ii rt) (par w) -> T (par w) = false.
  case: hd => [hc|[s [_ [h _]]]] hp //.
  by have := hc _ (blk_par Bw) hp; rewrite parK // (negbTE nw).
have Tpv : routed (BenesState w last rd pp ii rt) (par v) -> T (par v) = true.
  move=> hp; case: hd => [hc|[s [[_ _ _ ts _] [_ _ hx]]]].
    by have := hc _ (blk_par Bv) hp; rewrite parK // (negbTE nv).
  case: (hx _ (blk_par Bv) hp) => [|->//|e].
    by rewrite parK // (negbTE nv).
  by have := congr1 par e; rewrite !parK // => /eqP; rewrite vw.
have bw := Bw; have bw' := Bw'; have bv := Bv; have bv' := Bv'.
have Bd1 := dst_blk true Bw; have Bd2 := dst_blk true Bw'.
have Bd3 := dst_blk false Bv; have Bd4 := dst_blk false Bv'.
have Bx := blk_par Bv.
have lnp x : B x -> x < np by rewrite /blk => /andP [_ h]; apply: leq_trans h hnp.
have lcs : cs < nc by clear - hcs hce hnc; lia.
have lce : ce - 1 < nc by clear - hcs hce hnc; lia.
have cne : (cs == ce - 1) = false by clear - hcs hce hnc; lia.
rewrite /benes_iter /=.
have -> : ip_get pi w = Ok w' by apply: ip_get_ok wp bp _; rewrite -blk_between.
rewrite /= (lhs_destE hoff mask_cs) // (settingE hoff mask_cs) // /benes_rhs_source (lhs_destE hoff mask_ce) //.
have [r1 [-> s1 g1]] := rt_set_ok (w != dst w true) h6 lcs (lnp _ Bw).
rewrite /=; have [p1 [-> wp1 bp1 a1]] : exists q, [/\ ip_set pp (dst w true) (dst w' true) = Ok q, ip_wf q,
   ip_bounds q off last_row & forall j, between off last_row j -> ip_at q j = if j == dst w true then dst w' true else ip_at pp j].
  by apply: ip_set_ok => //; rewrite -blk_between.
rewrite /= relE //= (oput_set_nth false) ?h1 ?rel_lt //= (settingE hoff mask_ce) //.
have [r2 [-> s2 g2]] := rt_set_ok (w' != dst w' true) s1 lce (lnp _ Bd2).
rewrite /=; have [i1 [-> wi1 bi1 a2]] : exists q, [/\ ip_set ii (dst w' true) (dst w true) = Ok q, ip_wf q,
   ip_bounds q off last_row & forall j, between off last_row j -> ip_at q j = if j == dst w' true then dst w true else ip_at ii j].
  by apply: ip_set_ok => //; rewrite -blk_between.
rewrite /= /benes_cross_source (cross_destE hoff mask_ce) // -ev'.
have -> : ip_get pinv v' = Ok v.
  by rewrite (ip_get_ok wi bi) -?blk_between //; rewrite pv.
rewrite /= relE //=.
have sz1 : size (set_nth false rd (w - off) true) = N by rewrite size_set_nth h1; apply/maxn_idPr; exact: rel_lt.
rewrite (oget_nth false) ?sz1 ?rel_lt //= nth_set_nth /=.
have vwo : (v - off == w - off) = false by move: vw Bv Bw; rewrite /blk; clearbody v; clear; lia.
rewrite vwo.
rewrite (_ : nth false rd (v - off) = false) /=; last exact: negbTE nv.
rewrite (lhs_destE hoff mask_ce) // (lhs_destE hoff mask_cs) // (settingE hoff mask_ce) //.
have [r3 [-> s3 g3]] := rt_set_ok (v' != dst v' false) s2 lce (lnp _ Bd4).
rewrite /=; have [i2 [-> wi2 bi2 a3]] : exists q, [/\ ip_set i1 (dst v' false) (dst v false) = Ok q, ip_wf q,
   ip_bounds q off last_row & forall j, between off last_row j -> ip_at q j = if j == dst v' false then dst v false else ip_at i1 j].
  by apply: ip_set_ok => //; rewrite -blk_between.
rewrite /= (settingE hoff mask_cs) //.
have [r4 [-> s4 g4]] := rt_set_ok (v != dst v false) s3 lcs (lnp _ Bv).
rewrite /=; have [p2 [-> wp2 bp2 a4]] : exists q, [/\ ip_set p1 (dst v false) (dst v' false) = Ok q, ip_wf q,
   ip_bounds q off last_row & forall j, between off last_row j -> ip_at q j = if j == dst v false then dst v' false else ip_at p1 j].
  by apply: ip_set_ok => //; rewrite -blk_between.
rewrite /= (oput_set_nth false) ?sz1 ?rel_lt //= (cross_destE hoff mask_cs) // relE //=.
set rd2 := set_nth _ (set_nth _ _ _ _) _ _.
have sz2 : size rd2 = N by rewrite size_set_nth sz1; apply/maxn_idPr; exact: rel_lt.
rewrite (oget_nth false) ?sz2 ?rel_lt //=.
have R2 x : off <= x -> nth false rd2 (x - off) = [|| x == v, x == w | nth false rd (x - off)].
  move=> hx; rewrite !nth_set_nth /= nth_set_nth /=; move: bv bw; rewrite /blk => /andP [hv _] /andP [hw _].
  have -> : (x - off == v - off) = (x == v) by clearbody v; clear - hv hx; lia.
  have -> : (x - off == w - off) = (x == w) by clear - hw hx; lia.
  by case: eqP => // _; case: eqP.
have leB x : B x -> off <= x by case/andP.
have cnt : count id rd2 = (count id rd).+2.
  have cs1 (s : seq bool) i : i < size s -> nth false s i = false -> count id (set_nth false s i true) = (count id s).+1.
    elim: s i => [|a s IH] [|i] //=; first by move=> _ ->.
    by move=> h e; rewrite IH // addnS.
  rewrite /rd2 cs1 ?cs1 ?sz1 ?h1 ?rel_lt //; first exact: negbTE nw.
  by rewrite nth_set_nth /= vwo; exact: negbTE nv.
pose T' x := if x == w then true else if x == v then false else T x.
have T'w : T' w = true by rewrite /T' eqxx.
have T'v : T' v = false by rewrite /T' vw eqxx.
have T'o x : nth false rd (x - off) -> T' x = T x.
  move=> hx; rewrite /T'; case: eqP => [e|_]; first by move: nw; rewrite /routed /= -e hx.
  by case: eqP => // e; move: nv; rewrite /routed /= -e hx.
have inv last' w2 : (off <= last' <= off + N /\ forall x, off <= x < last' -> nth false rd2 (x - off)) ->
   linv T' (BenesState w2 last' rd2 p2 i2 r4).
  move=> hl; split=> //=.
  - move=> c i hci; rewrite g4 g3 g2 g1.
    have bd i' : B i' -> ((c == cs) && (i == i') = false) /\ ((c == ce - 1) && (i == i') = false).
      move=> hi'; split; apply/negP => /andP [/eqP ec /eqP ei]; case/negP: hci; rewrite ec ei hi' eqxx ?orbT //.
    rewrite (proj1 (bd _ bv)) (proj2 (bd _ Bd4)) (proj2 (bd _ Bd2)) (proj1 (bd _ bw)); exact: h7.
  - move=> x Hx; rewrite /routed /= R2 ?leB // => /or3P [/eqP->|/eqP->|rx].
    + rewrite T'v; split.
      * by rewrite g4 !eqxx.
      * by rewrite a4 -?blk_between // eqxx.
      * by rewrite g4 (eq_sym _ cs) cne g3 !eqxx.
      * by rewrite a3 -?blk_between // eqxx.
    + rewrite T'w; split.
      * by rewrite g4 eqxx (eq_sym w) vw g3 cne g2 cne g1 !eqxx.
      * rewrite a4 -?blk_between //; case: eqP => [/(dst_inj Bw Bv) [] //|_].
        by rewrite a1 -?blk_between // eqxx.
      * rewrite g4 (eq_sym _ cs) cne g3 eqxx /=; case: eqP => [/(dst_inj Bw' Bv') [] //|_].
        by rewrite g2 !eqxx.
      * rewrite a3 -?blk_between //; case: eqP => [/(dst_inj Bw' Bv') [] //|_].
        by rewrite a2 -?blk_between // eqxx.
    + rewrite T'o //; have [A1 A2 A3 A4] := h9 x Hx rx; have [Hx' px] := hpi Hx.
      have xw : x <> w by move=> e; move: nw; rewrite /routed /= -e rx.
      have xv : x <> v by move=> e; move: nv; rewrite /routed /= -e rx.
      have Bdx := dst_blk (T x) Hx; have Bdx' := dst_blk (T x) Hx'.
      have n1 : (dst x (T x) == dst w true) = false.
        apply/eqP => /(dst_inj Hx Bw) [e [//|e2]].
        by have := Tpw; rewrite /routed /= -e2 rx e => /(_ isT).
      have n2 : (dst x (T x) == dst v false) = false.
        apply/eqP => /(dst_inj Hx Bv) [e [//|e2]].
        by have := Tpv; rewrite /routed /= -e2 rx e => /(_ isT).
      have n3 : (dst (ip_at pi x) (T x) == dst w' true) = false.
        apply/eqP => /(dst_inj Hx' Bw') [e [e2|e2]].
          by apply: xw; rewrite -px e2 pw.
        by apply: xv; rewrite -px e2 -ev' pv.
      have n4 : (dst (ip_at pi x) (T x) == dst v' false) = false.
        apply/eqP => /(dst_inj Hx' Bv') [e [e2|e2]].
          by apply: xv; rewrite -px e2 pv.
        by apply: xw; rewrite -px e2 -/v' ev' parK // pw.
      split.
      * rewrite g4 eqxx /=; case: eqP => // _; rewrite g3 cne /= g2 cne /= g1 eqxx /=; by case: eqP.
      * by rewrite a4 -?blk_between // n2 a1 -?blk_between // n1.
      * by rewrite g4 (eq_sym _ cs) cne /= g3 eqxx n4 /= g2 eqxx n3 /= g1 (eq_sym _ cs) cne.
      * by rewrite a3 -?blk_between // n4 a2 -?blk_between // n3.
  - move=> x Hx; rewrite /routed /= !R2 ?leB //; last exact: blk_par.
    move=> /or3P hx /or3P hp.
    have key a b : B a -> nth false rd (b - off) -> par b = a -> B b -> a = w \/ a = v -> T' b = ~~ T' a.
      move=> ha rb e hb [ea|ea].
        rewrite ea T'w T'o //; have := Tpw; rewrite /routed /= -ea -e parK // => -> //.
      rewrite ea T'v T'o //; have := Tpv; rewrite /routed /= -ea -e parK // => -> //.
    case: hx => [/eqP ex|/eqP ex|hx]; case: hp => [/eqP ep|/eqP ep|hp].
    + by have := par_neq Hx; rewrite ep ex eqxx.
    + by rewrite ep ex T'w T'v.
    + by apply: key => //; rewrite ?parK ?blk_par //; right.
    + by rewrite ep ex T'w T'v.
    + by have := par_neq Hx; rewrite ep ex eqxx.
    + by apply: key => //; rewrite ?parK ?blk_par //; left.
    + have := key (par x) x (blk_par Hx) hx erefl Hx (or_intror ep) => ->; by rewrite negbK.
    + have := key (par x) x (blk_par Hx) hx erefl Hx (or_introl ep) => ->; by rewrite negbK.
    + rewrite !T'o //; exact: h10.
  - move=> x Hx; rewrite /routed /= !R2 ?leB //; last exact: blk_twin.
    case/or3P => [/eqP->|/eqP->|hx].
    + by rewrite twinK // eqxx orbT T'w T'v.
    + by rewrite eqxx T'w T'v.
    + have [c1 c2] := h11 x Hx hx; rewrite /routed /= in c1.
      by rewrite c1 !orbT !T'o.
exists T'; case hx: (nth false rd2 (par v - off)) => /=; last first.
- exists (BenesState (par v) last rd2 p2 i2 r4), false; split=> //.
    apply: inv; split=> // x hx'; rewrite R2; last by case/andP: hx'.
    by have := h8' x hx'; rewrite /routed /= => ->; rewrite !orbT.
  split=> //=; first by rewrite /routed /= hx.
  rewrite parK // /routed /= in hx *.
  rewrite R2 ?leB // in hx; move: hx => /negbT; rewrite !negb_or => /and3P [_ x2 x3].
  have pvw : par w <> v by move=> e; case/eqP: x2; rewrite -e parK.
  right; case: hd => [hc|[s [[s1' s2' s3' s4' s5'] [s6 s7 s8]]]].
  + exists w; split; split=> //.
    * by rewrite R2 ?leB // eqxx orbT.
    * rewrite R2 ?leB ?blk_par // negb_or (introN eqP pvw) negb_or par_neq //=.
      by apply/negP => hp; have := hc _ (blk_par Bw) hp; rewrite parK // (negbTE nw).
    * by move/eqP; rewrite eq_sym vw.
    * by rewrite R2 ?leB // eqxx.
    * move=> x Hx; rewrite R2 ?leB // => /or3P [/eqP->|/eqP->|h]; [by apply: Or33|by apply: Or32|apply: Or31].
      have := hc x Hx h; rewrite /routed /= => h'; by rewrite R2 ?leB ?blk_par // h' !orbT.
  + rewrite /routed /= in s2' s3' s6.
    have sv : s <> v by move=> e; move: nv; rewrite /routed /= -e s2'.
    exists s; split; split=> //.
    * by rewrite R2 ?leB // s2' !orbT.
    * rewrite R2 ?leB ?blk_par // !negb_or s3' andbT; apply/andP; split; apply/eqP => e.
        by move: x3; rewrite -e parK // s2'.
      by apply: s5'; rewrite -e parK.
    * by rewrite T'o.
    * by rewrite R2 ?leB // eqxx.
    * move=> x Hx; rewrite R2 ?leB // => /or3P [/eqP->|/eqP->|h]; [by apply: Or33| |].
        by apply: Or31; rewrite R2 ?leB ?blk_par // s6 !orbT.
      case: (s8 x Hx h) => [h'|->|->]; [|by apply: Or32|].
        by apply: Or31; move: h'; rewrite /routed /= R2 ?leB ?blk_par // => ->; rewrite !orbT.
      by apply: Or31; rewrite parK // R2 ?leB // eqxx orbT.
- set last' := last + _; exists (BenesState last' last' rd2 p2 i2 r4), (last' == off + N).
  have sl : last - off <= N by clear - h8; lia.
  have hf : find negb (drop (last - off) rd2) <= N - (last - off).
    by rewrite -[X in _ <= X - _]sz2 -size_drop; exact: find_size.
  have hl : off <= last' <= off + N /\ forall x, off <= x < last' -> nth false rd2 (x - off).
    split; first by rewrite /last'; clear - h8 hf; lia.
    move=> x /andP [h h']; case: (ltnP x last) => hxl.
      rewrite R2 //; have := h8' x; rewrite h hxl /routed /= => /(_ isT) ->; by rewrite !orbT.
    have := @before_find _ false negb (drop (last - off) rd2) (x - last).
    rewrite nth_drop; have -> : last - off + (x - last) = x - off by clear - h8 hxl; lia.
    by move=> /(_ _)/negbFE; apply; rewrite /last' in h'; clear - h' hxl; lia.
  split=> //; first exact: inv.
  case: eqP => [e|ne] /=.
    by move=> x /andP [h h']; case: hl => _; apply; rewrite h e h'.
  have lt : last' < off + N by move: hl => [hl _]; clear - hl ne; lia.
  split=> /=; first by rewrite /blk; move: hl => [hl _]; clear - hl lt; lia.
    rewrite /routed /=.
    have hs : has negb (drop (last - off) rd2).
      by rewrite has_find size_drop sz2; move: lt h8; rewrite /last'; clear; lia.
    have := nth_find false hs; rewrite nth_drop /last'.
    by have -> : last - off + find negb (drop (last - off) rd2) = last + find negb (drop (last - off) rd2) - off by clear - h8; lia.
  left=> x Hx; rewrite /routed /= !R2 ?leB ?blk_par //.
  rewrite R2 ?leB // in hx.
  case/or3P => [/eqP->|/eqP->|h]; first by [].
  + case/or3P: hx => [/eqP e|/eqP e|hx].
    * by have := par_neq Bv; rewrite e eqxx.
    * by rewrite -e parK // eqxx.
    * case: hd => [hc|[s [_ [h _ _]]]]; last by move: h; rewrite /routed /= => ->; rewrite !orbT.
      by have := hc _ (blk_par Bv) hx; rewrite parK // (negbTE nv).
  + case: hd => [hc|[s [[_ _ _ _ s5] [s6 _ s8]]]].
      by have := hc x Hx h; rewrite /routed /= => ->; rewrite !orbT.
    case: (s8 x Hx h) => [|e|->]; first by rewrite /routed /= => ->; rewrite !orbT.
      case/or3P: hx => [/eqP e'|/eqP e'|hx].
      * by have := par_neq Bv; rewrite e' eqxx.
      * by have := nv; rewrite /routed /= -(parK Bv) e'; move: s6; rewrite /routed /= => ->.
      * case: (s8 _ (blk_par Bv) hx) => [|e'|e'].
        - by rewrite parK // (negbTE nv).
        - by rewrite e -e' parK // eqxx.
        - by have := congr1 par e'; rewrite !parK // => /eqP; rewrite vw.
    by rewrite parK // eqxx orbT.
Qed.

Lemma loop_ok fuel T st : linv T st -> lhead T st -> N - count id (bs_routed st) < fuel ->
  exists T' st', [/\ benes_loop dim pi pinv cs ce off N fuel st = Ok st', linv T' st' &
    forall x, B x -> routed st' x].
Proof.
elim: fuel T st => [|f IH] T st hl hh //= hf.
have [T' [st' [b [e h1 h2 h3]]]] := step_ok hl hh.
rewrite e /=; case: b h3 {e} => [h3|h3]; first by exists T', st'.
apply: (IH T' st' h1 h3); rewrite h2.
have := count_size id (bs_routed st'); rewrite (l_size h1) h2; clear - hf; lia.
Qed.

Lemma routed_none w last np' ni rt x : routed (BenesState w last (nseq N false) np' ni rt) x = false.
Proof. by rewrite /routed /= nth_nseq; case: ifP. Qed.

Lemma init_ok np' ni : ip_wf np' -> ip_bounds np' off last_row -> ip_wf ni -> ip_bounds ni off last_row ->
  rshape rt0 nc np ->
  linv (fun=> true) (BenesState off off (nseq N false) np' ni rt0) /\
  lhead (fun=> true) (BenesState off off (nseq N false) np' ni rt0).
Proof.
move=> h1 h2 h3 h4 h5; split; split=> //=.
- by rewrite size_nseq.
- by split; [rewrite leqnn leq_addr|move=> x; rewrite leqNgt; case: ltnP].
- by move=> x _; rewrite routed_none.
- by move=> x _; rewrite routed_none.
- by move=> x _; rewrite routed_none.
- by rewrite /blk leqnn /=; clear - N0; lia.
- by rewrite routed_none.
- by left=> x _; rewrite routed_none.
Qed.
End Loop.

(** * The recursion *)

(** Following a packet, with the edges given by the masks. *)
Fixpoint bfollow (dim : nat) (r : benes_routing) (c n x : nat) : nat :=
  if n is m.+1 then bfollow dim r c.+1 m (if rget r c x then Nat.lxor x (benes_mask dim c) else x) else x.
Lemma bfollow_add dim r c m n x : bfollow dim r c (m + n) x = bfollow dim r (c + m) n (bfollow dim r c m x).
Proof. by elim: m c x => [|m IH] c x /=; rewrite ?addn0 // IH addSnnS. Qed.

Definition mutual p q a b := forall x, between a b x ->
  [/\ between a b (ip_at p x), ip_at q (ip_at p x) = x, between a b (ip_at q x) & ip_at p (ip_at q x) = x].

Lemma bfollow1 dim r c x : bfollow dim r c 1 x = if rget r c x then Nat.lxor x (benes_mask dim c) else x.
Proof. by []. Qed.
Lemma bfollow0 dim r c x : bfollow dim r c 0 x = x.
Proof. by []. Qed.
Local Arguments benes_loop : simpl never.
Local Arguments bfollow : simpl never.
Lemma inner_ok fuel k dim off cs ce nc np pi pinv rt :
  k <= fuel -> 2 ^ k %| off -> cs + k = dim -> ce = dim + k -> ce <= nc -> off + 2 ^ k <= np ->
  ip_wf pi -> ip_bounds pi off (off + 2 ^ k - 1) -> ip_wf pinv -> ip_bounds pinv off (off + 2 ^ k - 1) ->
  mutual pi pinv off (off + 2 ^ k - 1) -> rshape rt nc np ->
  exists rt', [/\ benes_route_inner fuel dim pi pinv cs ce off (2 ^ k) rt = Ok rt', rshape rt' nc np,
    forall c i, ~~ ((cs <= c < ce) && between off (off + 2 ^ k - 1) i) -> rget rt' c i = rget rt c i &
    forall r2, (forall c i, cs <= c < ce -> between off (off + 2 ^ k - 1) i -> rget r2 c i = rget rt' c i) ->
      forall x, between off (off + 2 ^ k - 1) x -> bfollow dim r2 cs (k + k) x = ip_at pi x].
Proof.
elim: fuel k off cs ce pi pinv rt => [|f IH] [|k] off cs ce pi pinv rt hk hd hcs hce hnc hnp wp bp wi bi hm hr //=.
- have -> : cs = ce by lia.
  rewrite eqxx; exists rt; split=> // r2 _ x hx; rewrite addn0 bfollow0.
  by have [h _ _ _] := hm x hx; move: h hx; rewrite /between expn0; lia.
- have -> : cs = ce by lia.
  rewrite eqxx; exists rt; split=> // r2 _ x hx; rewrite addn0 bfollow0.
  by have [h _ _ _] := hm x hx; move: h hx; rewrite /between expn0; lia.
have -> : (cs == ce) = false by lia.
set N := 2 ^ k.+1 in hd hnp bp bi hm *.
have N2 : N = 2 ^ k + 2 ^ k by rewrite /N expnS mul2n addnn.
have H0 : 0 < 2 ^ k by rewrite expn_gt0.
have hoff : off <= off + N - 1 by lia.
have [np0 [e0 w0 b0 _]] := ip_range_ok hoff; rewrite e0 /=.
have BB x : blk off k x = between off (off + N - 1) x by rewrite /blk /between -/N; clear - N2 H0; lia.
have hpi x : blk off k x -> blk off k (ip_at pi x) /\ ip_at pinv (ip_at pi x) = x.
  by rewrite !BB => /hm [].
have hpinv x : blk off k x -> blk off k (ip_at pinv x) /\ ip_at pi (ip_at pinv x) = x.
  by rewrite !BB => /hm [].
have [hl hh] := @init_ok off k cs ce nc np pi pinv rt np0 np0 w0 b0 w0 b0 hr.
have [|T [st [-> inv hall]]] := @loop_ok off k dim cs ce nc np pi pinv rt hd hcs hce hnc hnp wp bp wi bi hpi hpinv N.+1 _ _ hl hh.
  by rewrite /= count_nseq mul0n; lia.
rewrite [obind (Ok _) _]/=.
have -> : N %/ 2 = 2 ^ k by rewrite N2 addnn -mul2n mulKn.
(* the new permutation in terms of T *)
have TB x : blk off k x -> T (par off k x) = ~~ T x.
  by move=> hx; apply: (l_B inv) => //; apply: hall => //; apply: blk_par.
have full u : blk off k u -> exists x, [/\ blk off k x, dst off k x (T x) = u & T x = (u < off + 2 ^ k)].
  move=> hu; pose x := if T u == (u < off + 2 ^ k) then u else par off k u; exists x.
  have hx : T x = (u < off + 2 ^ k).
    by rewrite /x; case: eqP => [//|]; rewrite TB //; case: (T u); case: (u < _).
  split=> //; first by rewrite /x; case: eqP => _ //; apply: blk_par.
  by rewrite hx /x; case: eqP => _; rewrite ?dst_par // dst_id.
have fullr u : blk off k u -> exists x, [/\ blk off k x, dst off k (ip_at pi x) (T x) = u & T x = (u < off + 2 ^ k)].
  move=> hu; pose y := ip_at pinv u; have [hy ey] := hpinv u hu.
  pose x := if T y == (u < off + 2 ^ k) then y else twin off k pi pinv y; exists x.
  have [t1 t2] := l_C inv hy (hall _ hy).
  have hx : T x = (u < off + 2 ^ k).
    by rewrite /x; case: eqP => [//|]; rewrite t2; case: (T y); case: (u < _).
  split=> //; first by rewrite /x; case: eqP => _ //; apply: blk_twin.
  rewrite hx /x; case: eqP => _; first by rewrite ey dst_id.
  by rewrite (pi_twin hpi hpinv) // dst_par ?ey ?dst_id.
have npE x : blk off k x -> ip_at (bs_perm st) (dst off k x (T x)) = dst off k (ip_at pi x) (T x) /\
             ip_at (bs_inv st) (dst off k (ip_at pi x) (T x)) = dst off k x (T x).
  by move=> hx; have [] := l_A inv hx (hall _ hx).
have mm (b : bool) u : blk off k u -> (u < off + 2 ^ k) = b ->
  [/\ blk off k (ip_at (bs_perm st) u) && ((ip_at (bs_perm st) u < off + 2 ^ k) == b),
      ip_at (bs_inv st) (ip_at (bs_perm st) u) = u,
      blk off k (ip_at (bs_inv st) u) && ((ip_at (bs_inv st) u < off + 2 ^ k) == b) &
      ip_at (bs_perm st) (ip_at (bs_inv st) u) = u].
  move=> hu hb; have [x [hx e1 e2]] := full u hu; have [h1 h2] := npE x hx; have [hx' _] := hpi x hx.
  have [y [hy e3 e4]] := fullr u hu; have [h3 h4] := npE y hy; have [hy' _] := hpi y hy.
  rewrite -{1 2 3 4}e1 h1 h2 e1; rewrite -{2 3 4 5}e3 h4 h3 e3.
  by rewrite !dst_blk // !dst_half // e2 e4 hb eqxx.
have hupper x : between off (off + 2 ^ k - 1) x = blk off k x && (x < off + 2 ^ k).
  by rewrite BB /between; clear - N2 H0; lia.
have hlower x : between (off + 2 ^ k) (off + N - 1) x = blk off k x && ~~ (x < off + 2 ^ k).
  by rewrite BB /between; clear - N2 H0; lia.
have hoff2 : 2 ^ k %| off by apply: dvdn_trans hd; rewrite /N expnS dvdn_mull.
have wq := l_wp inv; have bq := l_bp inv; have wj := l_wi inv; have bj := l_bi inv.
have [pu [-> wpu bpu apu]] : exists q, [/\ ip_slice (bs_perm st) off (off + 2 ^ k - 1) = Ok q, ip_wf q,
    ip_bounds q off (off + 2 ^ k - 1) & forall i, between off (off + 2 ^ k - 1) i -> ip_at q i = ip_at (bs_perm st) i].
  by apply: ip_slice_ok wq bq _ _ _; clear - N2 H0; lia.
rewrite [obind (Ok _) _]/=.
have [pl [-> wpl bpl apl]] : exists q, [/\ ip_slice (bs_perm st) (off + 2 ^ k) (off + N - 1) = Ok q, ip_wf q,
    ip_bounds q (off + 2 ^ k) (off + N - 1) & forall i, between (off + 2 ^ k) (off + N - 1) i -> ip_at q i = ip_at (bs_perm st) i].
  by apply: ip_slice_ok wq bq _ _ _; clear - N2 H0; lia.
rewrite [obind (Ok _) _]/=.
have [iu [-> wiu biu aiu]] : exists q, [/\ ip_slice (bs_inv st) off (off + 2 ^ k - 1) = Ok q, ip_wf q,
    ip_bounds q off (off + 2 ^ k - 1) & forall i, between off (off + 2 ^ k - 1) i -> ip_at q i = ip_at (bs_inv st) i].
  by apply: ip_slice_ok wj bj _ _ _; clear - N2 H0; lia.
rewrite [obind (Ok _) _]/=.
have [il [-> wil bil ail]] : exists q, [/\ ip_slice (bs_inv st) (off + 2 ^ k) (off + N - 1) = Ok q, ip_wf q,
    ip_bounds q (off + 2 ^ k) (off + N - 1) & forall i, between (off + 2 ^ k) (off + N - 1) i -> ip_at q i = ip_at (bs_inv st) i].
  by apply: ip_slice_ok wj bj _ _ _; clear - N2 H0; lia.
rewrite [obind (Ok _) _]/=.
have mu : mutual pu iu off (off + 2 ^ k - 1).
  move=> x hx; rewrite (apu x) // (aiu x) //; move: (hx); rewrite hupper => /andP [hb hlt].
  have [/andP [m1 /eqP m2] m3 /andP [m4 /eqP m5] m6] := mm _ x hb hlt.
  have q1 : between off (off + 2 ^ k - 1) (ip_at (bs_perm st) x) by rewrite hupper m1 m2.
  have q2 : between off (off + 2 ^ k - 1) (ip_at (bs_inv st) x) by rewrite hupper m4 m5.
  by split; rewrite ?aiu ?apu.
have ml : mutual pl il (off + 2 ^ k) (off + N - 1).
  move=> x hx; rewrite (apl x) // (ail x) //; move: (hx); rewrite hlower => /andP [hb /negbTE hlt].
  have [/andP [m1 /eqP m2] m3 /andP [m4 /eqP m5] m6] := mm _ x hb hlt.
  have q1 : between (off + 2 ^ k) (off + N - 1) (ip_at (bs_perm st) x) by rewrite hlower m1 m2.
  have q2 : between (off + 2 ^ k) (off + N - 1) (ip_at (bs_inv st) x) by rewrite hlower m4 m5.
  by split; rewrite ?ail ?apl.
have hcs' : cs.+1 + k = dim by clear - hcs; lia.
have hce' : ce - 1 = dim + k by clear - hce; lia.
have eN : off + N - 1 = off + 2 ^ k + 2 ^ k - 1 by rewrite N2 addnA.
rewrite eN in bpl bil ml apl ail hlower.
have [||rt1 [-> s1 f1 g1]] := IH k off cs.+1 (ce - 1) pu iu (bs_rt st) hk hoff2 hcs' hce' _ _ wpu bpu wiu biu mu (l_rt inv).
- by clear - hnc; lia.
- by clear - hnp N2; lia.
rewrite [obind (Ok _) _]/=.
have [|||rt2 [-> s2 f2 g2]] := IH k (off + 2 ^ k) cs.+1 (ce - 1) pl il rt1 hk _ hcs' hce' _ _ wpl bpl wil bil ml s1.
- by rewrite dvdn_addr.
- by clear - hnc; lia.
- by clear - hnp N2; lia.
exists rt2; split=> //.
- move=> c i hci; rewrite f2 ?f1 ?(l_frame inv) //; apply: contra hci; rewrite ?BB ?eN.
  + by clear - hcs hce; rewrite /between; lia.
  + by clear - N2 H0; rewrite /between; lia.
  + by clear - N2 H0; rewrite /between; lia.
move=> r2 hr2 x hx; have hb : blk off k x by rewrite BB.
have [A1 A2 A3 A4] := l_A inv hb (hall _ hb); have [hb' _] := hpi x hb.
have keep c i : (c == cs) || (c == ce - 1) -> between off (off + N - 1) i -> rget r2 c i = rget (bs_rt st) c i.
  move=> hc hi; rewrite hr2 // ?f2 ?f1 //.
  + by move: hc; clear; lia.
  + by move: hc; clear; lia.
  + by clear - hc hcs hce; lia.
have -> : k.+1 + k.+1 = 1 + (k + k) + 1 by clear; lia.
rewrite 2!bfollow_add !bfollow1.
rewrite (keep cs x) ?eqxx // A1.
have mcs : benes_mask dim cs = 2 ^ k by clear - hcs hce; rewrite /benes_mask ifT; [congr (_ ^ _)|]; lia.
have mce : benes_mask dim (ce - 1) = 2 ^ k by clear - hcs hce; rewrite /benes_mask ifN; [congr (_ ^ _)|rewrite -leqNgt]; lia.
have e1 : (if x != dst off k x (T x) then Nat.lxor x (benes_mask dim cs) else x) = dst off k x (T x).
  case: ifP => [h|/negbT]; last by rewrite negbK => /eqP.
  by rewrite -/(benes_cross_dest dim cs x) (cross_destE hd mcs) // dst_self.
rewrite e1; set u := dst off k x (T x) in A2 *; have hu : blk off k u by apply: dst_blk.
have e2 : bfollow dim r2 (cs + 1) (k + k) u = ip_at (bs_perm st) u.
  rewrite addn1; case: (boolP (u < off + 2 ^ k)) => hlt.
  - have hbu : between off (off + 2 ^ k - 1) u by rewrite hupper hu.
    rewrite g1 ?apu // => c i hc hi; rewrite hr2 ?f2 //.
    + by clear - hi N2 H0; move: hi; rewrite /between; lia.
    + by clear - hc; lia.
    + by clear - hi N2 H0; move: hi; rewrite /between; lia.
  - have hbu : between (off + 2 ^ k) (off + 2 ^ k + 2 ^ k - 1) u by rewrite hlower hu.
    rewrite g2 ?apl // => c i hc hi; rewrite hr2 //.
    + by clear - hc; lia.
    + by clear - hi N2 H0; move: hi; rewrite /between; lia.
rewrite e2 A2.
have -> : cs + (1 + (k + k)) = ce - 1 by clear - hcs hce; lia.
set v := dst off k (ip_at pi x) (T x) in A3 *.
rewrite (keep (ce - 1) v) ?eqxx ?orbT -?BB // ?dst_blk // A3.
case: ifP => [h|/negbT]; last by rewrite negbK => /eqP.
by rewrite -/(benes_cross_dest dim (ce - 1) v) (cross_destE hd mce) ?dst_blk // par_dst.
Qed.
