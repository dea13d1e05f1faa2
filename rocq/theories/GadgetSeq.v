(** Sequencing gadgets: how the completeness of a gadget built from others
    follows from theirs.  Models nothing of /repo. *)
From mathcomp Require Import all_ssreflect all_algebra zify.
From Verif Require Import Outcome Lincomb LincombSpec LincombFacts R1CS R1CSSpec R1CSFacts Fieldtac.
From Verif Require Import Protoboard GadgetSpec GadgetLogic BasicGadgets BasicGadgetsFacts GadgetNew.
From Verif Require Import Sha256Gadget.
Set Implicit Arguments.
Unset Strict Implicit.
Unset Printing Implicit Defensive.
Local Open Scope ring_scope.
Import GRing.Theory.

(** Keeps an equation about a long computation out of reach of automation. *)
Inductive hid (P : Prop) : Prop := Hid of P.
Lemma unhid P : hid P -> P. Proof. by case. Qed.

(** * Loops of constructors *)
Section NewAll.
Variables (T G St : Type) (mk : T -> St -> outcome (G * St)).

Lemma new_all_cat ts1 ts2 s : new_all mk (ts1 ++ ts2) s =
  let! r1 := new_all mk ts1 s in let! r2 := new_all mk ts2 r1.2 in Ok (r1.1 ++ r2.1, r2.2).
Proof.
elim: ts1 s => [|t ts1 IH] s /=; first by case: (new_all mk ts2 s) => // -[].
case: (mk t s) => //= gs; rewrite IH; case: (new_all mk ts1 gs.2) => //= r1.
by case: (new_all mk ts2 r1.2).
Qed.
Lemma new_all_rcons ts t s : new_all mk (rcons ts t) s =
  let! r1 := new_all mk ts s in let! r2 := mk t r1.2 in Ok (rcons r1.1 r2.1, r2.2).
Proof.
rewrite -cats1 new_all_cat; case: (new_all mk ts s) => //= r1.
by case: (mk t r1.2) => //= r2; rewrite cats1.
Qed.

Lemma new_all_ind (Inv : seq T -> seq G -> St -> Prop) ts s0 gs s1 :
  Inv [::] [::] s0 ->
  (forall ts1 t ts2 gs1 s g s', ts = ts1 ++ t :: ts2 -> new_all mk ts1 s0 = Ok (gs1, s) -> Inv ts1 gs1 s ->
     mk t s = Ok (g, s') -> Inv (rcons ts1 t) (rcons gs1 g) s') ->
  new_all mk ts s0 = Ok (gs, s1) -> Inv ts gs s1.
Proof.
move=> h0 hS.
have H : forall ts1 ts2 gs s, ts = ts1 ++ ts2 -> new_all mk ts1 s0 = Ok (gs, s) -> Inv ts1 gs s.
  elim/last_ind => [|ts1 t IH] ts2 gs' s' ets; first by case=> <- <-.
  rewrite new_all_rcons; case e1: (new_all mk ts1 s0) => [[gs1 s]| |] //=.
  case e2: (mk t s) => [[g s'']| |] //= -[<- <-].
  have e3 : ts = ts1 ++ t :: ts2 by rewrite ets cat_rcons.
  by apply: (hS ts1 t ts2 gs1 s g s'' e3 e1 (IH (t :: ts2) _ _ e3 e1) e2).
by apply: (H ts [::]); rewrite cats0.
Qed.

(** A constructor in the middle of the loop. *)
Lemma new_all_mid ts1 t ts2 s0 gs s1 : new_all mk (ts1 ++ t :: ts2) s0 = Ok (gs, s1) ->
  exists gs1 s g s' gs2, [/\ new_all mk ts1 s0 = Ok (gs1, s), mk t s = Ok (g, s'),
    new_all mk ts2 s' = Ok (gs2, s1) & gs = gs1 ++ g :: gs2].
Proof.
rewrite new_all_cat; case: (new_all mk ts1 s0) => [[gs1 s]| |] //=; case e1: (mk t s) => [[g s']| |] //=.
case e2: (new_all mk ts2 s') => [[gs2 s2]| |] //= -[<- <-].
by exists gs1, s, g, s', gs2.
Qed.

Lemma new_all_size ts s gs s' : new_all mk ts s = Ok (gs, s') -> size gs = size ts.
Proof. by apply: (new_all_ind (Inv := fun a b _ => size b = size a)) => // *; rewrite !size_rcons; congr S. Qed.

(** Construction succeeds if every step does. *)
Lemma new_all_ok (I : nat -> St -> Prop) ts s0 : I 0%N s0 ->
  (forall ts1 t ts2 s, ts = ts1 ++ t :: ts2 -> I (size ts1) s ->
     exists g s', mk t s = Ok (g, s') /\ I (size ts1).+1 s') ->
  exists gs s1, new_all mk ts s0 = Ok (gs, s1) /\ I (size ts) s1.
Proof.
move=> h0 hS.
have H : forall ts1 ts2, ts = ts1 ++ ts2 -> exists gs s1, new_all mk ts1 s0 = Ok (gs, s1) /\ I (size ts1) s1.
  elim/last_ind => [|ts1 t IH] ts2 ets; first by exists [::], s0.
  have e3 : ts = ts1 ++ t :: ts2 by rewrite ets cat_rcons.
  have [gs [s1 [e1 i1]]] := IH _ e3; have [g [s2 [e2 i2]]] := hS _ _ _ _ e3 i1.
  by exists (rcons gs g), s2; rewrite new_all_rcons e1 /= e2 size_rcons.
by apply: (H ts [::]); rewrite cats0.
Qed.
End NewAll.

Lemma iota_split a n (ts1 ts2 : seq nat) t : iota a n = ts1 ++ t :: ts2 ->
  ts1 = iota a (size ts1) /\ t = (a + size ts1)%N /\ (size ts1 < n)%N.
Proof.
elim: ts1 a n => [|u ts1 IH] a [|n] //=; first by case=> <- _; rewrite addn0.
by case=> <- /IH [h1 [h2 h3]]; rewrite -h1 h2 addnS addSn.
Qed.

Section Seq.
Variable F : fieldType.
Variable slot : nat -> linear_combination F.
(** The numbers of variables and slots when the witness is generated. *)
Variables N K : nat.
Implicit Types (x k : seq F) (P Q : pred nat) (m : seq nat) (cs : seq (r1cs_constraint F)).
Implicit Types (pre : seq F -> seq F -> Prop) (W : protoboard F -> outcome (protoboard F)).

(** Combinations and constraints over the variables satisfying [P]. *)
Definition within P (l : seq (nat * F)) : bool := all (fun t => (t.1 == 0%N) || P t.1) l.
Definition cwithin P (c : r1cs_constraint F) : bool := [&& within P (c_a c), within P (c_b c) & within P (c_c c)].
Definition cs_within P cs : bool := all (cwithin P) cs.

Lemma within_sub P Q l : subpred P Q -> within P l -> within Q l.
Proof. by move=> h; apply: sub_all => t /orP [->//|/h ->]; rewrite orbT. Qed.
Lemma cs_within_sub P Q cs : subpred P Q -> cs_within P cs -> cs_within Q cs.
Proof. by move=> h; apply: sub_all => c /and3P [h1 h2 h3]; apply/and3P; split; apply: within_sub h _. Qed.
Lemma cs_within_cat P cs1 cs2 : cs_within P (cs1 ++ cs2) = cs_within P cs1 && cs_within P cs2.
Proof. exact: all_cat. Qed.
Lemma cs_within_cons P c cs : cs_within P (c :: cs) = cwithin P c && cs_within P cs.
Proof. by []. Qed.

Lemma within_cat P a b : within P (a ++ b) = within P a && within P b. Proof. exact: all_cat. Qed.
Lemma within_add_term P l t : within P (add_term l t) = within P l && ((t.1 == 0%N) || P t.1).
Proof. by rewrite /add_term -cats1 within_cat /= andbT. Qed.
Lemma within_scale P (l : linear_combination F) c : within P (lc_scale l c) = within P l.
Proof. by rewrite /within all_map. Qed.
Lemma within_neg P (l : linear_combination F) : within P (lc_neg l) = within P l.
Proof. exact: within_scale. Qed.
Lemma within_add P (a b : linear_combination F) : within P (lc_add a b) = within P a && within P b.
Proof.
elim: a b => [|t a IH] b; first by rewrite lc_add_nil.
elim: b => [|u b IHb]; first by rewrite lc_add_nilr /= andbT.
rewrite lc_add_cons; case: ltnP => h1; first by rewrite /within /= -!/(within P _) IH /= -!andbA.
case: ltnP => h2.
  rewrite /within /= -!/(within P _) IHb /=.
  by case: ((u.1 == 0%N) || P u.1); case: ((t.1 == 0%N) || P t.1); rewrite ?andbF.
have e : t.1 = u.1 by lia.
by rewrite /within /= -!/(within P _) IH /= e; case: ((u.1 == 0%N) || P u.1) => //=; rewrite andbF.
Qed.
Lemma within_sub_lc P (a b : linear_combination F) : within P (lc_sub a b) = within P a && within P b.
Proof. by rewrite within_add within_neg. Qed.
Lemma within_zero P : within P (@lc_zero F). Proof. by []. Qed.
Lemma within_var P v : within P (lc_of_var F v) = (v == 0%N) || P v. Proof. by rewrite within_add_term. Qed.
Lemma within_const P c : within P (lc_of_const (c : F)). Proof. by rewrite within_add_term. Qed.
Lemma within_int P c : within P (lc_of_int F c). Proof. by rewrite within_add_term. Qed.
Lemma within_term P (t : linear_term F) : within P (lc_of_term t) = (t.1 == 0%N) || P t.1.
Proof. by rewrite within_add_term. Qed.
Lemma within_var_add P v l : within P (var_add_lc v l) = ((v == 0%N) || P v) && within P l.
Proof. by rewrite /var_add_lc within_cat within_add_term andbC. Qed.
Lemma within_var_sub P v (l : linear_combination F) : within P (var_sub_lc v l) = ((v == 0%N) || P v) && within P l.
Proof. by rewrite within_var_add within_neg. Qed.
Lemma within_const_sub P c (l : linear_combination F) : within P (const_sub_lc c l) = within P l.
Proof. by rewrite within_sub_lc within_const. Qed.
Lemma within_const_add P c (l : linear_combination F) : within P (const_add_lc c l) = within P l.
Proof. by rewrite within_add within_const. Qed.
Lemma within_plc P v : within P (lc_terms (plc_of_var F v)) = (v == 0%N) || P v.
Proof. by rewrite /= /within /= andbT. Qed.
Definition wiE := (within_zero, within_var, within_const, within_int, within_term, within_add_term, within_var_add,
  within_var_sub, within_const_add, within_const_sub, within_add, within_sub_lc, within_neg, within_scale, within_plc).

Lemma within_merge_loop P done cur rest :
  within P (@merge_loop F done cur rest) = [&& within P done, (cur.1 == 0%N) || P cur.1 & within P rest].
Proof.
elim: rest done cur => [|t rest IH] done cur /=.
  by rewrite /within rev_cons all_rcons all_rev andbT andbC.
rewrite /lt_index; case: eqP => e.
  by rewrite IH /= e; congr (_ && _); rewrite andbA andbb.
by rewrite IH /=; case: ((cur.1 == 0%N) || P cur.1); rewrite ?andbF //=; case: (within P done).
Qed.
Lemma within_merge P (l : seq (linear_term F)) : within P (merge_sorted_terms l) = within P l.
Proof. by case: l => [|t l] //; rewrite /merge_sorted_terms within_merge_loop. Qed.
Lemma within_from_terms P (ts : seq (linear_term F)) : within P (lc_from_terms ts) = within P ts.
Proof. by rewrite /lc_from_terms within_merge /within; apply: perm_all; rewrite perm_sort. Qed.
Lemma within_packing_sum P (ls : pb_linear_combination_array F) :
  within P (pb_packing_sum ls) = all (fun l => within P (lc_terms l)) ls.
Proof.
rewrite /pb_packing_sum within_from_terms.
suff H : forall ts c, within P (foldl (fun (st : seq (linear_term F) * F) l =>
     (st.1 ++ [seq lt_scale t st.2 | t <- lc_terms l], st.2 + st.2)) (ts, c) ls).1
  = within P ts && all (fun l => within P (lc_terms l)) ls by rewrite H.
elim: ls => [|l ls IH] ts c /=; first by rewrite andbT.
by rewrite IH within_cat -/(lc_scale (lc_terms l) c) within_scale andbA.
Qed.
Lemma packing_within P (g : packing F) e :
  all (fun l => within P (lc_terms l)) (pk_bits g) -> within P (lc_terms (pk_packed g)) ->
  cs_within P (packing_constraints g e).
Proof.
move=> h1 h2; rewrite /cs_within /= /cwithin /= within_packing_sum h1 h2 /=.
case: e => //; rewrite all_map; apply: sub_all h1 => l /= hl.
by rewrite /cwithin /= !wiE hl.
Qed.
Lemma within_plcs P vs : all P vs -> all (fun l => within P (lc_terms l)) (plcs_of_vars F vs).
Proof. by rewrite all_map; apply: sub_all => v /= hv; rewrite /within /= hv orbT. Qed.

(** [m] is a set of variables outside [P]. *)
Definition outside P m : Prop := forall v, v \in m -> (0 < v <= N)%N /\ ~~ P v.

Lemma avoids_within P m (l : seq (nat * F)) : outside P m -> within P l -> avoids m l.
Proof.
move=> hm /allP hl; apply/allP => t /hl ht; apply/negP => /hm [h1 h2].
by move: ht; rewrite (negbTE h2) orbF; lia.
Qed.
Lemma holds_frame P m x x' cs : changes_only m x x' -> outside P m -> cs_within P cs -> holds cs x -> holds cs x'.
Proof.
move=> hc hm; elim: cs => [|c cs IH]; first by rewrite !holds_nil.
rewrite cs_within_cons !holds_cons => /andP [/and3P [h1 h2 h3] hcs] [hx hxs]; split; last exact: IH.
by move: hx; rewrite /constraint_holds !(changes_fs hc (avoids_within hm _)).
Qed.

(** A condition that depends on the variables of [P] only (and on up-to-date
    value slots). *)
Definition stable P pre : Prop := forall m x k x' k',
  size x = N -> size k = K -> wstep slot m x k x' k' -> outside P m -> pre x k -> pre x' k'.

(** Inputs. *)
Definition inp P (l : pb_linear_combination F) : Prop := lc_proper slot N K l /\ within P (lc_terms l).
Definition inps P (ls : pb_linear_combination_array F) : Prop := forall l, List.In l ls -> inp P l.
Lemma inp_sub P Q l : subpred P Q -> inp P l -> inp Q l.
Proof. by move=> h [h1 h2]; split=> //; apply: within_sub h h2. Qed.
Lemma inps_sub P Q ls : subpred P Q -> inps P ls -> inps Q ls.
Proof. by move=> h hl l hi; apply: inp_sub h (hl l hi). Qed.
Lemma inp_var P v : (v <= N)%N -> (v == 0%N) || P v -> inp P (plc_of_var F v).
Proof. by move=> h1 h2; split=> //; rewrite within_plc. Qed.
Lemma inps_vars P vs : all (fun v => (v <= N)%N && P v) vs -> inps P (plcs_of_vars F vs).
Proof.
move=> h l; rewrite /plcs_of_vars => /List.in_map_iff [v [<- hv]].
have /andP [h1 h2] : (v <= N)%N && P v by apply: (allP h); rewrite -In_mem.
by apply: inp_var => //; rewrite h2 orbT.
Qed.
Lemma inps_within P ls : inps P ls -> all (fun l => within P (lc_terms l)) ls.
Proof. by move=> h; apply/all_InP => l /h []. Qed.

(** Boolean inputs with up-to-date values. *)
Definition bits_ready (ls : pb_linear_combination_array F) x k : Prop :=
  forall l, List.In l ls -> isbit (lval x l) /\ cached x k l.
Lemma stable_ready P ls : inps P ls -> stable P (bits_ready ls).
Proof.
move=> hl m x k x' k' sx sk hw hm hb l hi; have [h1 h2] := hl l hi; have [b1 b2] := hb l hi.
have ha := avoids_within hm h2.
split; first by rewrite /lval (wstep_fs hw ha).
exact: wstep_cached hw h1 ha b2.
Qed.
Lemma stable_and P pre1 pre2 : stable P pre1 -> stable P pre2 -> stable P (fun x k => pre1 x k /\ pre2 x k).
Proof. by move=> h1 h2 m x k x' k' sx sk hw hm [p1 p2]; split; [apply: h1 hw hm p1|apply: h2 hw hm p2]. Qed.
Lemma stable_holds P cs : cs_within P cs -> stable P (fun x _ => holds cs x).
Proof. by move=> hc m x k x' k' sx sk [hw _ _] hm; apply: holds_frame hw hm hc. Qed.
Lemma stable_true P : stable P (fun _ _ => True). Proof. by []. Qed.
Lemma stable_sub P Q pre : subpred P Q -> stable P pre -> stable Q pre.
Proof.
move=> h hp m x k x' k' sx sk hw hm; apply: hp hw _ => // v /hm [h1 h2]; split=> //.
by apply: contra h2; apply: h.
Qed.

(** The witness generator [W] sets only variables in [m] and establishes the
    constraints [cs], which are over [P] and [m]. *)
Definition gok P m W cs pre : Prop :=
  [/\ cs_within [predU P & mem m] cs, outside P m &
      forall pb x k, size x = N -> size k = K -> pre x k ->
        exists x' k', [/\ W (upd pb x k) = Ok (upd pb x' k'), wstep slot m x k x' k' & holds cs x']].

Lemma gok_seq P m1 m2 W1 W2 cs1 cs2 pre :
  gok P m1 W1 cs1 pre -> stable P pre ->
  gok [predU P & mem m1] m2 W2 cs2 (fun x k => pre x k /\ holds cs1 x) ->
  gok P (m1 ++ m2) (fun pb => let! pb := W1 pb in W2 pb) (cs1 ++ cs2) pre.
Proof.
move=> [w1 o1 h1] hs [w2 o2 h2].
have o2' : outside P m2.
  by move=> v /o2 [-> /=]; rewrite negb_or => /andP [].
have hsub1 : {subset m1 <= m1 ++ m2} by move=> v hv; rewrite mem_cat hv.
have hsub2 : {subset m2 <= m1 ++ m2} by move=> v hv; rewrite mem_cat hv orbT.
split.
- rewrite cs_within_cat; apply/andP; split.
    apply: cs_within_sub w1 => v /= /orP [->//|hv]; rewrite mem_cat hv !orbT //.
  apply: cs_within_sub w2 => v /=; rewrite mem_cat -orbA //.
- by move=> v; rewrite mem_cat => /orP [/o1|/o2'].
move=> pb x k sx sk hp; have [x1 [k1 [e1 s1 c1]]] := h1 pb x k sx sk hp.
have sx1 : size x1 = N by rewrite (wstep_size s1).
have sk1 : size k1 = K by rewrite (wstep_ksize s1).
have hp1 := hs _ _ _ _ _ sx sk s1 o1 hp.
have [x2 [k2 [e2 s2 c2]]] := h2 pb x1 k1 sx1 sk1 (conj hp1 c1).
exists x2, k2; rewrite e1 /= e2; split=> //; first exact: wstep_trans s1 s2.
by rewrite holds_cat; split=> //; apply: holds_frame (wstep_changes_only s2) o2 w1 c1.
Qed.

Lemma gok_nil P pre : gok P [::] (fun pb => Ok pb) [::] pre.
Proof.
split=> // pb x k sx sk hp; exists x, k; split=> //; exact: wstep_refl.
Qed.

Lemma gok_conv P P' m m' W W' cs cs' pre pre' :
  gok P m W cs pre ->
  (forall v, P v -> P' v) -> outside P' m' -> {subset m <= m'} ->
  W =1 W' -> (forall c, List.In c cs' -> List.In c cs) -> (forall x k, size x = N -> size k = K -> pre' x k -> pre x k) ->
  gok P' m' W' cs' pre'.
Proof.
move=> [w o h] hP ho hm hW hc hp; split=> //.
  apply/all_InP => c /hc; move: w; rewrite /cs_within => /all_InP w /w /and3P [h1 h2 h3].
  have hs : subpred [predU P & mem m] [predU P' & mem m'].
    by move=> v /orP [/hP h0|/hm h0]; apply/orP; [left|right].
  by apply/and3P; split; apply: within_sub hs _.
move=> pb x k sx sk /hp pr; have [x' [k' [e s c]]] := h pb x k sx sk (pr sx sk).
exists x', k'; rewrite -hW; split=> //; first exact: wstep_sub s.
by move=> d /hc; apply: c.
Qed.

(** ** Loops *)
Lemma gok_loop (G : Type) (Wit : G -> protoboard F -> outcome (protoboard F)) (Con : G -> seq (r1cs_constraint F))
    (mods : G -> seq nat) (gs : seq G) P pre :
  stable P pre ->
  (forall gs1 g gs2, gs = gs1 ++ g :: gs2 ->
     gok [predU P & mem (flatten (map mods gs1))] (mods g) (Wit g) (Con g)
       (fun x k => pre x k /\ holds (flatten (map Con gs1)) x)) ->
  gok P (flatten (map mods gs)) (fun pb => ofold (fun pb g => Wit g pb) pb gs) (flatten (map Con gs)) pre.
Proof.
move=> hs H; have H' : forall gs1 gs2, gs = gs1 ++ gs2 ->
  gok P (flatten (map mods gs1)) (fun pb => ofold (fun pb g => Wit g pb) pb gs1) (flatten (map Con gs1)) pre.
  elim/last_ind => [|gs1 g IH] gs2 e; first exact: gok_nil.
  have e' : gs = gs1 ++ g :: gs2 by rewrite e cat_rcons.
  have := gok_seq (IH _ e') hs (H _ _ _ e') => h; apply: (gok_conv h) => //.
  - by case: h => _ o _; rewrite !map_rcons -!cats1 !flatten_cat /= cats0.
  - by move=> v; rewrite !map_rcons -!cats1 !flatten_cat /= cats0.
  - move=> pb; rewrite -cats1 ofold_cat; case: (ofold _ pb gs1) => //= pb1.
    by case: (Wit g pb1).
  - by move=> c; rewrite !map_rcons -!cats1 !flatten_cat /= cats0.
by apply: (H' gs [::]); rewrite cats0.
Qed.

(** A single assignment. *)
Lemma gok_set P v W cs pre (f : seq F -> F) :
  (0 < v <= N)%N -> ~~ P v -> cs_within [predU P & mem [:: v]] cs ->
  (forall pb x k, size x = N -> size k = K -> pre x k -> W (upd pb x k) = pb_set (upd pb x k) v (f x)) ->
  (forall x k, size x = N -> size k = K -> pre x k -> holds cs (put x v (f x))) ->
  gok P [:: v] W cs pre.
Proof.
move=> hv hP hc hW hh; split=> //; first by move=> w; rewrite inE => /eqP ->.
move=> pb x k sx sk hp; exists (put x v (f x)), k; rewrite hW // pb_set_upd ?sx //; split=> //.
  by apply: wstep_put; rewrite sx; lia.
exact: hh hp.
Qed.

(** The condition that the following gadget may use. *)
Lemma stable_next P m W cs pre : gok P m W cs pre -> stable P pre ->
  stable [predU P & mem m] (fun x k => pre x k /\ holds cs x).
Proof.
move=> [hc _ _] hs; apply: stable_and; last exact: stable_holds.
by apply: stable_sub hs => v h; apply/orP; left.
Qed.

(** Weakening in the common cases. *)
Lemma gok_pre P m W cs pre pre' : gok P m W cs pre ->
  (forall x k, size x = N -> size k = K -> pre' x k -> pre x k) -> gok P m W cs pre'.
Proof. by move=> h hp; apply: (gok_conv h) => //; case: h. Qed.
Lemma gok_mods P m m' W cs pre : gok P m W cs pre -> m =i m' -> gok P m' W cs pre.
Proof.
move=> h hm; apply: (gok_conv h) => //; last by move=> v; rewrite hm.
by case: h => _ ho _ v; rewrite -hm; apply: ho.
Qed.
Lemma gok_sub P P' m W cs pre : gok P m W cs pre -> subpred P P' -> outside P' m -> gok P' m W cs pre.
Proof. by move=> h hP ho; apply: (gok_conv h). Qed.

(** Gadgets made by a loop of constructors; [M ts s] is the set of variables that
    those constructed for [ts], ending in the state [s], assign. *)
Lemma gok_new_all_st (T G St : Type) (mk : T -> St -> outcome (G * St))
    (Wit : G -> protoboard F -> outcome (protoboard F)) (Con : G -> seq (r1cs_constraint F))
    (M : seq T -> St -> seq nat) ts s0 gs s1 P pre :
  stable P pre -> M [::] s0 =i [::] ->
  (forall ts1 t ts2 gs1 s g s' gs2, ts = ts1 ++ t :: ts2 -> new_all mk ts1 s0 = Ok (gs1, s) -> mk t s = Ok (g, s') ->
     new_all mk ts2 s' = Ok (gs2, s1) -> gs = gs1 ++ g :: gs2 ->
     stable [predU P & mem (M ts1 s)] (fun x k => pre x k /\ holds (flatten (map Con gs1)) x) ->
     exists m, gok [predU P & mem (M ts1 s)] m (Wit g) (Con g)
       (fun x k => pre x k /\ holds (flatten (map Con gs1)) x) /\ M (rcons ts1 t) s' =i M ts1 s ++ m) ->
  new_all mk ts s0 = Ok (gs, s1) ->
  gok P (M ts s1) (fun pb => ofold (fun pb g => Wit g pb) pb gs) (flatten (map Con gs)) pre.
Proof.
move=> hs h0 hS e0; apply: (new_all_ind (Inv := fun ts gs s =>
  gok P (M ts s) (fun pb => ofold (fun pb g => Wit g pb) pb gs) (flatten (map Con gs)) pre)) (e0).
  by apply: gok_mods (gok_nil _ _) _ => v; rewrite h0.
move=> ts1 t ts2 gs1 s g s' ets e1 IH e2.
have [gs1' [u [g' [u' [gs2 [f1 f2 f3 f4]]]]]] : exists gs1 s g s' gs2, [/\ new_all mk ts1 s0 = Ok (gs1, s),
    mk t s = Ok (g, s'), new_all mk ts2 s' = Ok (gs2, s1) & gs = gs1 ++ g :: gs2].
  by apply: new_all_mid; rewrite -ets.
have [eg es] : gs1' = gs1 /\ u = s by move: f1; rewrite e1 => -[-> ->].
rewrite eg es in f2 f4; have [eg' es'] : g' = g /\ u' = s' by move: f2; rewrite e2 => -[-> ->].
rewrite eg' in f4; rewrite es' in f3.
have [m [h hm]] := hS _ _ _ _ _ _ _ _ ets e1 e2 f3 f4 (stable_next IH hs).
have h' := gok_seq IH hs h; apply: (gok_conv h') => //.
- by case: h' => _ ho _ v; rewrite hm; apply: ho.
- by move=> v; rewrite hm.
- move=> pb; rewrite -cats1 ofold_cat; case: (ofold _ pb gs1) => //= pb1.
  by case: (Wit g pb1).
- by move=> c; rewrite !map_rcons -!cats1 !flatten_cat /= cats0.
Qed.

Lemma gok_new_all (T G St : Type) (mk : T -> St -> outcome (G * St))
    (Wit : G -> protoboard F -> outcome (protoboard F)) (Con : G -> seq (r1cs_constraint F))
    (M : seq T -> St -> seq nat) ts s0 gs s1 P pre :
  stable P pre -> M [::] s0 =i [::] ->
  (forall ts1 t ts2 gs1 s g s' gs2, ts = ts1 ++ t :: ts2 -> new_all mk ts1 s0 = Ok (gs1, s) -> mk t s = Ok (g, s') ->
     new_all mk ts2 s' = Ok (gs2, s1) -> gs = gs1 ++ g :: gs2 ->
     exists m, gok [predU P & mem (M ts1 s)] m (Wit g) (Con g)
       (fun x k => pre x k /\ holds (flatten (map Con gs1)) x) /\ M (rcons ts1 t) s' =i M ts1 s ++ m) ->
  new_all mk ts s0 = Ok (gs, s1) ->
  gok P (M ts s1) (fun pb => ofold (fun pb g => Wit g pb) pb gs) (flatten (map Con gs)) pre.
Proof.
move=> hs h0 hS; apply: gok_new_all_st => // ts1 t ts2 gs1 s g s' gs2 h1 h2 h3 h4 h5 _.
exact: hS h1 h2 h3 h4 h5.
Qed.

(** A loop over the images of a list. *)
Lemma gok_map_loop (T G : Type) (f : T -> G) (Wit : G -> protoboard F -> outcome (protoboard F))
    (Con : G -> seq (r1cs_constraint F)) (mods : T -> seq nat) (ts : seq T) P pre :
  stable P pre ->
  (forall ts1 t ts2, ts = ts1 ++ t :: ts2 ->
     gok [predU P & mem (flatten (map mods ts1))] (mods t) (Wit (f t)) (Con (f t)) pre) ->
  gok P (flatten (map mods ts)) (fun pb => ofold (fun pb g => Wit g pb) pb (map f ts)) (flatten (map Con (map f ts))) pre.
Proof.
move=> hs H; have h := @gok_loop T (fun t => Wit (f t)) (fun t => Con (f t)) mods ts P pre hs _.
have {}h : gok P (flatten (map mods ts)) (fun pb => ofold (fun pb t => Wit (f t) pb) pb ts) (flatten (map (fun t => Con (f t)) ts)) pre.
  by apply: h => ts1 t ts2 e; apply: (gok_pre (H _ _ _ e)) => x k _ _ [].
apply: (gok_conv h) => //; first by case: h.
  by move=> pb; elim: ts pb {H h} => [|t ts IH] pb //=; case: (Wit (f t) pb) => //= pb1; apply: IH.
by move=> c; rewrite -map_comp.
Qed.

(** ** The packing gadget *)
Definition all_bits (ls : pb_linear_combination_array F) x (k : seq F) : Prop := all (fun l => isbit (lval x l)) ls.
Lemma stable_bits P ls : inps P ls -> stable P (all_bits ls).
Proof.
move=> hl m x k x' k' sx sk hw hm /all_InP hb; apply/all_InP => l hi; have [h1 h2] := hl l hi.
by rewrite /lval (wstep_fs hw (avoids_within hm h2)); apply: hb.
Qed.
Lemma ready_bits ls x k : bits_ready ls x k -> all_bits ls x k.
Proof. by move=> h; apply/all_InP => l /h []. Qed.
Lemma vars_ready vs x k : all_bits (plcs_of_vars F vs) x k -> bits_ready (plcs_of_vars F vs) x k.
Proof.
move=> /all_InP h l hl; split; first exact: h.
by left; move: hl => /List.in_map_iff [v [<- _]].
Qed.

Lemma gok_pack P ls v e : inps P ls -> (0 < v <= N)%N -> ~~ P v ->
  gok P [:: v] (packing_witness_from_bits (Packing ls (plc_of_var F v)))
    (packing_constraints (Packing ls (plc_of_var F v)) e) (all_bits ls).
Proof.
move=> hl hv hP; have ho : outside P [:: v] by move=> w; rewrite inE => /eqP ->.
split=> //.
  apply: packing_within => /=.
    have := inps_within hl; apply: sub_all => l; apply: within_sub => w h; by apply/orP; left.
  by rewrite /within /= !inE eqxx !orbT.
move=> pb x k sx sk hb.
have [|||x' [k' [e1 s1 v1 c1]]] := @packing_from_bits_ok F pb x k slot ls v _ _ _ hb.
- by move=> l /hl []; rewrite sx sk.
- by rewrite sx.
- by have := inps_within hl; apply: sub_all => l; apply: avoids_within.
exists x', k'; split=> //; apply/packing_constraintsE; move/packing_constraintsE: c1 => [h1 h2]; split=> // _.
exact: h2.
Qed.

Lemma gok_unpack (R : bigint_repr F) P l vs e : inp P l -> uniq vs -> outside P vs ->
  gok P vs (packing_witness_from_packed R (Packing (plcs_of_vars F vs) l))
    (packing_constraints (Packing (plcs_of_vars F vs) l) e) (fun x k => as_bigint R (lval x l) < 2 ^ size vs)%N.
Proof.
move=> [hp hw] hu ho; split=> //.
  apply: packing_within => /=.
    by apply: within_plcs; apply/allP => v hv; apply/orP; right.
  by apply: within_sub hw => w h; apply/orP; left.
move=> pb x k sx sk hb.
have [|||x' [k' [e1 s1 v1 c1]]] := @packing_from_packed_ok F R pb x k slot vs l _ _ _ hb.
- by split=> //; apply/allP => v /ho []; rewrite sx.
- by rewrite sx sk.
- exact: avoids_within ho hw.
exists x', k'; split=> //; apply/packing_constraintsE; move/packing_constraintsE: c1 => [h1 h2]; split=> // _.
exact: h2.
Qed.

(** Variables that a constructor called on [pb] may be told to assign. *)
Definition below (pb : protoboard F) P : Prop := forall v, P v -> (v <= size (pb_values pb))%N.
Definition outs (pb : protoboard F) P (vs : seq nat) : Prop :=
  uniq vs /\ forall v, v \in vs -> (0 < v <= size (pb_values pb))%N /\ ~~ P v.
Lemma outs_fresh pb0 pb1 P vs : allocates pb0 pb1 -> below pb0 P -> outs pb0 P vs ->
  (size (pb_values pb1) <= N)%N -> outside P (vs ++ fresh_vars pb0 pb1) /\ uniq (vs ++ fresh_vars pb0 pb1).
Proof.
move=> ha hb [hu ho] hN; have hs := allocates_size ha; split.
  move=> v; rewrite mem_cat => /orP [/ho [h1 h2]|]; first by split=> //; lia.
  rewrite mem_fresh // => hv; split; first by lia.
  by apply/negP => /hb; lia.
rewrite cat_uniq hu fresh_uniq andbT /=; apply/hasPn => v; rewrite mem_fresh // => hv.
by apply/negP => /= /ho [h _]; lia.
Qed.
End Seq.

Lemma new_all_eq (T : eqType) (G St : Type) (mk mk' : T -> St -> outcome (G * St)) ts s :
  (forall t s, t \in ts -> mk t s = mk' t s) -> new_all mk ts s = new_all mk' ts s.
Proof.
elim: ts s => [|t ts IH] s h //=; rewrite h ?mem_head //; case: (mk' t s) => //= gs.
by rewrite IH // => u s' hu; apply: h; rewrite inE hu orbT.
Qed.
