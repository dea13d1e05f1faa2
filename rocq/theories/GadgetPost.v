(** Sequencing gadgets with postconditions: a variant of GadgetSeq.v in which a
    witness generator establishes an arbitrary condition on the values, not just
    constraints.  Models nothing of /repo. *)
From mathcomp Require Import all_ssreflect all_algebra zify.
From Verif Require Import Outcome Lincomb LincombSpec LincombFacts R1CS R1CSSpec R1CSFacts Fieldtac.
From Verif Require Import Protoboard GadgetSpec GadgetLogic BasicGadgets BasicGadgetsFacts BasicGadgetsMore BasicGadgetsCopy GadgetNew.
From Verif Require Import Sha256Gadget GadgetSeq Sha256Hash.
Set Implicit Arguments.
Unset Strict Implicit.
Unset Printing Implicit Defensive.
Local Open Scope ring_scope.
Import GRing.Theory.

Section Post.
Variable F : fieldType.
Variable slot : nat -> linear_combination F.
Variables N K : nat.
Implicit Types (x k : seq F) (P Q : pred nat) (m : seq nat) (cs : seq (r1cs_constraint F)).
Implicit Types (pre post : seq F -> seq F -> Prop) (W : protoboard F -> outcome (protoboard F)).
Local Notation stable := (stable slot N K).
Local Notation outside := (outside N).

Definition gq P m W pre post : Prop :=
  [/\ stable [predU P & mem m] post, outside P m &
      forall pb x k, size x = N -> size k = K -> pre x k ->
        exists x' k', [/\ W (upd pb x k) = Ok (upd pb x' k'), wstep slot m x k x' k' & post x' k']].

Lemma gok_gq P m W cs pre : gok slot N K P m W cs pre -> gq P m W pre (fun x _ => holds cs x).
Proof. by case=> h1 h2 h3; split=> //; apply: stable_holds. Qed.

Lemma gq_seq P m1 m2 W1 W2 pre post1 post2 :
  gq P m1 W1 pre post1 -> stable P pre ->
  gq [predU P & mem m1] m2 W2 (fun x k => pre x k /\ post1 x k) post2 ->
  gq P (m1 ++ m2) (fun pb => let! pb := W1 pb in W2 pb) pre (fun x k => post1 x k /\ post2 x k).
Proof.
move=> [w1 o1 h1] hs [w2 o2 h2].
have o2' : outside P m2 by move=> v /o2 [-> /=]; rewrite negb_or => /andP [].
have hsub1 : {subset m1 <= m1 ++ m2} by move=> v hv; rewrite mem_cat hv.
have hsub2 : {subset m2 <= m1 ++ m2} by move=> v hv; rewrite mem_cat hv orbT.
split.
- apply: stable_and.
    by apply: stable_sub w1 => v /= /orP [->//|hv]; rewrite mem_cat hv !orbT.
  by apply: stable_sub w2 => v /=; rewrite mem_cat -orbA.
- by move=> v; rewrite mem_cat => /orP [/o1|/o2'].
move=> pb x k sx sk hp; have [x1 [k1 [e1 s1 c1]]] := h1 pb x k sx sk hp.
have sx1 : size x1 = N by rewrite (wstep_size s1).
have sk1 : size k1 = K by rewrite (wstep_ksize s1).
have hp1 := hs _ _ _ _ _ sx sk s1 o1 hp.
have [x2 [k2 [e2 s2 c2]]] := h2 pb x1 k1 sx1 sk1 (conj hp1 c1).
exists x2, k2; rewrite e1 /= e2; split=> //; first exact: wstep_trans s1 s2.
by split=> //; apply: w1 s2 o2 c1.
Qed.

Lemma gq_conv P P' m m' W W' pre pre' post post' :
  gq P m W pre post -> subpred P P' -> outside P' m' -> {subset m <= m'} -> W =1 W' ->
  (forall x k, size x = N -> size k = K -> pre' x k -> pre x k) ->
  stable [predU P' & mem m'] post' -> (forall x k, post x k -> post' x k) ->
  gq P' m' W' pre' post'.
Proof.
move=> [w o h] hP ho hm hW hp hs hq; split=> // pb x k sx sk /(hp _ _ sx sk) pr.
have [x' [k' [e s c]]] := h pb x k sx sk pr.
by exists x', k'; rewrite -hW; split=> //; [apply: wstep_sub s|apply: hq].
Qed.
Lemma gq_sub P P' m W pre pre' post : gq P m W pre post -> subpred P P' -> outside P' m ->
  (forall x k, size x = N -> size k = K -> pre' x k -> pre x k) -> gq P' m W pre' post.
Proof.
move=> h hP ho hp; apply: (gq_conv h) => //; case: h => hs _ _.
by apply: stable_sub hs => v /orP [/hP hv|hv]; apply/orP; [left|right].
Qed.
Lemma gq_pre P m W pre pre' post : gq P m W pre post ->
  (forall x k, size x = N -> size k = K -> pre' x k -> pre x k) -> gq P m W pre' post.
Proof. by move=> h hp; apply: (gq_sub h) => //; case: h. Qed.
Lemma gq_post P m W pre post post' : gq P m W pre post -> stable [predU P & mem m] post' ->
  (forall x k, post x k -> post' x k) -> gq P m W pre post'.
Proof. by move=> h hs hp; apply: (gq_conv h) => //; case: h. Qed.
Lemma gq_W P m W W' pre post : gq P m W pre post -> W =1 W' -> gq P m W' pre post.
Proof. by move=> h hW; apply: (gq_conv h) => //; case: h. Qed.
Lemma gq_mods P m m' W pre post : gq P m W pre post -> m =i m' -> gq P m' W pre post.
Proof.
move=> h hm; apply: (gq_conv h) => //; try by move=> v; rewrite hm.
  by case: h => _ ho _ v; rewrite -hm; apply: ho.
by case: h => hs _ _; apply: stable_sub hs => v /=; rewrite hm.
Qed.

Lemma gq_keep P m W pre post : gq P m W pre post -> stable P pre -> gq P m W pre (fun x k => pre x k /\ post x k).
Proof.
move=> [hs ho h] hp; split=> //.
  apply: stable_and => //; apply: stable_sub hp => v hv; by apply/orP; left.
move=> pb x k sx sk pr; have [x' [k' [e w c]]] := h pb x k sx sk pr.
by exists x', k'; split=> //; split=> //; apply: hp w ho pr.
Qed.
Lemma gq_nil P pre : gq P [::] (fun pb => Ok pb) pre (fun _ _ => True).
Proof. by split=> // pb x k sx sk hp; exists x, k; split=> //; apply: wstep_refl. Qed.

Lemma stable_all (T : Type) (s : seq T) P (Q : T -> seq F -> seq F -> Prop) :
  (forall t, List.In t s -> stable P (Q t)) -> stable P (fun x k => forall t, List.In t s -> Q t x k).
Proof. by move=> h m x k x' k' sx sk hw hm hp t ht; apply: (h t ht) hw hm (hp t ht). Qed.

(** ** Loops *)
Lemma gq_loop (T : Type) (Wit : T -> protoboard F -> outcome (protoboard F)) (mods : T -> seq nat)
    (post : T -> seq F -> seq F -> Prop) (ts : seq T) P pre :
  stable P pre ->
  (forall ts1 t ts2, ts = ts1 ++ t :: ts2 ->
     gq [predU P & mem (flatten (map mods ts1))] (mods t) (Wit t)
       (fun x k => pre x k /\ forall u, List.In u ts1 -> post u x k) (post t)) ->
  gq P (flatten (map mods ts)) (fun pb => ofold (fun pb t => Wit t pb) pb ts) pre
     (fun x k => forall u, List.In u ts -> post u x k).
Proof.
move=> hs H; have H' : forall ts1 ts2, ts = ts1 ++ ts2 ->
  gq P (flatten (map mods ts1)) (fun pb => ofold (fun pb t => Wit t pb) pb ts1) pre
     (fun x k => forall u, List.In u ts1 -> post u x k).
  elim/last_ind => [|ts1 t IH] ts2 e.
    by split=> // pb x k sx sk hp; exists x, k; split=> //; apply: wstep_refl.
  have e' : ts = ts1 ++ t :: ts2 by rewrite e cat_rcons.
  have h := gq_seq (IH _ e') hs (H _ _ _ e').
  have em : flatten [seq mods i | i <- rcons ts1 t] = flatten [seq mods i | i <- ts1] ++ mods t.
    by rewrite map_rcons -cats1 flatten_cat /= cats0.
  have ei x k : ((forall u, List.In u ts1 -> post u x k) /\ post t x k) <-> (forall u, List.In u (rcons ts1 t) -> post u x k).
    rewrite -cats1; split=> [[h1 h2] u|hh].
      by rewrite List.in_app_iff => -[/h1//|[<-|//]].
    by split=> [u hu|]; apply: hh; rewrite List.in_app_iff; [left|right; left].
  apply: (gq_conv h) => //.
  - by case: h => _ o _; rewrite em.
  - by move=> v; rewrite em.
  - move=> pb; rewrite -cats1 ofold_cat; case: (ofold _ pb ts1) => //= pb1.
    by case: (Wit t pb1).
  - case: h => hst _ _ m x k x' k' sx sk hw hm /ei hp; apply/ei; apply: hst sx sk hw _ hp.
    by move: hm; rewrite em.
  by move=> x k /ei.
by apply: (H' ts [::]); rewrite cats0.
Qed.

(** ** Running *)
Lemma gq_run P m W pre post pb : pb_wf pb -> size (pb_values pb) = N -> size (pb_lc_values pb) = K ->
  gq P m W pre post -> pre (pb_values pb) (pb_lc_values pb) ->
  exists pb', [/\ W pb = Ok pb', assigns m pb pb', wstep slot m (pb_values pb) (pb_lc_values pb) (pb_values pb') (pb_lc_values pb') &
                  post (pb_values pb') (pb_lc_values pb')].
Proof.
move=> hw sx sk [_ _ h] hp; have [x' [k' [e hs hh]]] := h pb _ _ sx sk hp.
exists (upd pb x' k'); split=> //; first by rewrite -e (board_of hw).
exact: assigns_upd hw hs.
Qed.

(** ** Conditions on variables *)
Lemma stable_vals P vs (Q : seq F -> Prop) : all P vs -> stable P (fun x _ => Q (map (xval x) vs)).
Proof.
move=> hv m x k x' k' sx sk hw hm; suff -> : map (xval x') vs = map (xval x) vs by [].
apply/eq_in_map => v hvv; apply: (wstep_val hw); apply/negP => /hm [_].
by rewrite (allP hv v hvv).
Qed.
Lemma stable_isbits P vs : all P vs -> stable P (fun x _ => all (fun v => isbit (xval x v)) vs).
Proof.
move=> hv m x k x' k' sx sk hw hm.
by have := @stable_vals P vs (fun s => all (@isbit F) s) hv m x k x' k' sx sk hw hm; rewrite !all_map.
Qed.
Lemma stable_valsC P (Q : Prop) : stable P (fun x k => Q).
Proof. by []. Qed.

(** Constant value slots that are up to date. *)
Definition ready (a b : nat) (k : seq F) : Prop :=
  forall i, (a <= i < b)%N -> within pred0 (slot i) -> nth 0 k i = formal_sum (slot i) [::].
Lemma within_pred0_avoids m (l : seq (nat * F)) : 0%N \notin m -> within pred0 l -> avoids m l.
Proof. by move=> h0; apply: sub_all => t /=; rewrite orbF => /eqP ->. Qed.
Lemma within_pred0_fs x (l : seq (nat * F)) : within pred0 l -> formal_sum l x = formal_sum l [::].
Proof.
rewrite /formal_sum; elim: l => [|t l IH]; first by rewrite !big_nil.
by rewrite /= orbF => /andP [/eqP h /IH e]; rewrite !big_cons e h.
Qed.
Lemma stable_ready0 P a b : stable P (fun _ k => ready a b k).
Proof.
move=> m x k x' k' sx sk [_ _ h] hm hr i hi hw.
have h0 : 0%N \notin m by apply/negP => /hm [].
by case: (h i (within_pred0_avoids h0 hw)) => ->; [apply: hr|apply: within_pred0_fs].
Qed.
Lemma ready_sub a b a' b' k : (a <= a')%N -> (b' <= b)%N -> ready a b k -> ready a' b' k.
Proof. by move=> ha hb h i hi; apply: h; lia. Qed.
End Post.
