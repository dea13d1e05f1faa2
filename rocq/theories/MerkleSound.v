(** Soundness of the Merkle-tree gadgets. *)
From Coq Require Import NArith.
From mathcomp Require Import all_ssreflect all_algebra zify.
From Verif Require Import Outcome Lincomb LincombSpec LincombFacts R1CS R1CSSpec R1CSFacts Fieldtac.
From Verif Require Import Protoboard GadgetSpec GadgetLogic BasicGadgets BasicGadgetsFacts BasicGadgetsMore BasicGadgetsCopy GadgetNew.
From Verif Require Import Sha256Gadget GadgetSeq Knapsack MerkleSpec MerkleGadget MerkleGadgetSpec.
Set Implicit Arguments.
Unset Strict Implicit.
Unset Printing Implicit Defensive.
Local Open Scope ring_scope.
Import GRing.Theory.

(** * Climbing *)
Lemma climbs_graph H p cur sibs root : climbs (graph H) p cur sibs root <-> root = climb H p cur sibs.
Proof.
elim: sibs p cur => [|s sibs IH] p cur //=; split.
  by case=> parent -> /IH; case: (odd p).
by move=> h; exists (H (if odd p then s ++ cur else cur ++ s)) => //; apply/IH; move: h; case: (odd p).
Qed.
Lemma path_connects_graph H root address leaf path :
  path_connects (graph H) root address leaf path <-> path_verifies H root address leaf path.
Proof. by rewrite /path_connects climbs_graph; split=> ->. Qed.

Lemma climbs_levels (rel : seq bool -> seq bool -> Prop) D (A : seq bool) (lv s : nat -> seq bool) : size A = D ->
  (forall i, (i < D)%N -> rel (if nth false A (D - 1 - i) then s i ++ lv i.+1 else lv i.+1 ++ s i) (lv i)) ->
  forall i, (i <= D)%N -> climbs rel (bits_nat (drop (D - i) A)) (lv i) (rev [seq s j | j <- iota 0 i]) (lv 0%N).
Proof.
move=> hA h; elim=> [|i IH] hi //.
rewrite -[in iota 0 _](addn1 i) iotaD map_cat rev_cat /=.
have hd : (D - i.+1 < size A)%N by lia.
have ed : drop (D - i.+1) A = nth false A (D - i.+1) :: drop (D - i) A.
  by rewrite (drop_nth false hd); congr (_ :: drop _ _); lia.
exists (lv i).
  have := h i hi; rewrite ed /=; have -> : (D - 1 - i = D - i.+1)%N by lia.
  by rewrite oddD oddM /= addbF oddb.
have -> : (bits_nat (drop (D - i.+1) A) %/ 2 = bits_nat (drop (D - i) A))%N.
  by rewrite ed /=; case: (nth false A _) => /=; rewrite -?divn2; lia.
by apply: IH; lia.
Qed.

Section Sound.
Variable F : fieldType.
Variable R : bigint_repr F.
Implicit Types (x : seq F) (pb : protoboard F).

Lemma size_var_bits x vs : size (var_bits x vs) = size vs. Proof. exact: size_map. Qed.
Lemma var_bits_cat x a b : var_bits x (a ++ b) = var_bits x a ++ var_bits x b. Proof. exact: map_cat. Qed.
Lemma var_isbits_cat x a b : var_isbits x (a ++ b) = var_isbits x a && var_isbits x b. Proof. exact: all_cat. Qed.
Lemma var_bits_val x vs : var_isbits x vs -> [seq bit_val F b | b <- var_bits x vs] = map (xval x) vs.
Proof. by elim: vs => [|v vs IH] //= /andP [h /IH ->]; rewrite bit_valE -(isbitP h). Qed.
Lemma eq_var_bits x a b : map (xval x) a = map (xval x) b -> var_bits x a = var_bits x b.
Proof. by move=> h; rewrite /var_bits (map_comp (@bit_of F) (xval x)) h -map_comp. Qed.
Lemma eq_var_isbits x a b : map (xval x) a = map (xval x) b -> var_isbits x a = var_isbits x b.
Proof. by move=> h; rewrite /var_isbits -(all_map (xval x) (@isbit F)) h all_map. Qed.

Lemma digest_constraintsE vs x : holds (digest_variable_constraints F vs) x <-> var_isbits x vs.
Proof.
rewrite /digest_variable_constraints /var_isbits holds_map; split=> h.
  by apply/allP => v hv; have /boolean_constraintE := h v (iffRL (GadgetLogic.In_mem _ _) hv); rewrite -lval_var.
move=> v /(iffLR (GadgetLogic.In_mem _ _)) hv; apply/boolean_constraintE.
by have := allP h v hv; rewrite -lval_var.
Qed.

Lemma path_constraintsE (path : path_variable) depth n x : path_shape depth n path ->
  holds (path_variable_constraints F path) x <->
  forall i, (i < depth)%N -> var_isbits x (nth [::] (pv_left path) i) /\ var_isbits x (nth [::] (pv_right path) i).
Proof.
case=> h1 h2 _ _; rewrite /path_variable_constraints holds_flatten; split=> [h i hi|h [l r] hin].
  have := h (nth [::] (pv_left path) i, nth [::] (pv_right path) i).
  rewrite holds_cat !digest_constraintsE; apply.
  by apply: In_zip_nth; rewrite ?h1 ?h2.
rewrite holds_cat !digest_constraintsE /=.
have [i hi [-> ->]] : exists2 i, (i < depth)%N & l = nth [::] (pv_left path) i /\ r = nth [::] (pv_right path) i.
  move: h1 h2 hin {h}; move: (pv_left path) (pv_right path) => a b; elim: a b depth => [|u a IH] [|v b] [|d] //= [ha] [hb].
  by case=> [[-> ->]|/(IH _ _ ha hb) [i hi [-> ->]]]; [exists 0%N|exists i.+1].
exact: h.
Qed.

Lemma digest_selectorE (g : digest_selector F) n x : ds_size g = n ->
  size (ds_input g) = n -> size (ds_left g) = n -> size (ds_right g) = n ->
  isbit (lval x (ds_is_right g)) -> holds (digest_selector_constraints g) x ->
  map (xval x) (ds_input g) = map (xval x) (if bit_of (lval x (ds_is_right g)) then ds_right g else ds_left g).
Proof.
move=> hn h1 h2 h3 hb; rewrite /digest_selector_constraints hn => /holds_iota hh.
apply: (@eq_from_nth _ 0); rewrite !size_map; first by case: ifP; rewrite ?h1 ?h2 ?h3.
rewrite h1 => i hi; have := hh i hi.
rewrite /constraint_holds [c_a _]/= [c_b _]/= [c_c _]/= !formal_sum_var_sub -!/(lval x _).
have lv v : formal_sum (lc_of_var F v) x = xval x v by rewrite -lval_var.
rewrite !lv (isbitP hb) => e.
rewrite (nth_map 0%N) ?h1 // bit_of_nat; move: e; case: (bit_of _) => /=.
  by rewrite mul1r (nth_map 0%N) ?h3 // => /(addIr _) ->.
by rewrite mul0r (nth_map 0%N) ?h2 // => /eqP; rewrite eq_sym subr_eq0 => /eqP.
Qed.

Lemma copy_packs (g : bit_vector_copy F) c e1 e2 x : bc_shape g c ->
  holds (bit_vector_copy_constraints g e1 e2) x -> lval x (bc_do_copy g) <> 0 ->
  map (@pack F) (chunks (map (xval x) (bc_source g)) c) = map (@pack F) (chunks (map (xval x) (bc_target g)) c).
Proof.
move=> hs; rewrite /bit_vector_copy_constraints 2!holds_cat => -[h1 [h2 h3]] hd.
move/(multipackingE _ _ (bcs_source hs)): h1 => [h1 _].
move/(multipackingE _ _ (bcs_target hs)): h2 => [h2 _].
rewrite (bcs_copier hs) in h3.
case/(field_vector_copyE (g := FieldVectorCopy _ _ _) _ (bcs_ps hs)): h3 => /= [//|h3].
have [c0 ns _ _] := multipacking_newE (bcs_source hs).
rewrite !size_map in h1 h2 ns.
rewrite /chunks !size_map -(bcs_size hs) -!map_comp.
apply/eq_in_map => i; rewrite mem_iota add0n /= => hi.
have hi' : (i < div_ceil (size (bc_target g)) c)%N by rewrite -(bcs_size hs).
have e1' := h1 i hi; have e2' := h2 i hi'.
rewrite plc_nth ?ns // lval_var in e1'; rewrite plc_nth -?(bcs_ps hs) ?ns // lval_var in e2'.
have e3 : xval x (nth 0%N (bc_packed_source g) i) = xval x (nth 0%N (bc_packed_target g) i).
  have := congr1 (fun s => nth 0 s i) h3.
  by rewrite !(nth_map 0%N) // -?(bcs_ps hs) ns.
move: e1' e2'; rewrite e3 => ->; rewrite !chunk_slice_map -!/(plcs_of_vars F _) !lval_vars //.
Qed.

Lemma capacity_lt : (2 ^ capacity R <= fp_order R)%N.
Proof.
rewrite leqNgt -num_bits_le /capacity /size_in_bits -ltnNge.
have : (0 < num_bits (fp_order R))%N.
  by rewrite lt0n; apply/eqP => h; have := num_bits_le (fp_order R) 0; rewrite h leqnn expn0; case: (fp_order R) (prime_gt0 (fp_prime R)).
lia.
Qed.

Variable HashT : hash_gadget F.
Local Notation n := (hg_digest_len HashT).
Variable rel : seq bool -> seq bool -> Prop.

Lemma In_zip_l (A B : Type) (s : seq A) (t : seq B) a : size s = size t -> List.In a s -> exists b, List.In (a, b) (zip s t).
Proof.
elim: s t => [|c s IH] [|d t] //= [hs] [->|/(IH _ hs) [b hb]]; first by exists d; left.
by exists b; right.
Qed.
Lemma new_all_zip (T G St : Type) (mk : T -> St -> outcome (G * St)) (I : St -> Prop) ts s0 gs s1 :
  I s0 -> (forall t s g s', List.In t ts -> I s -> mk t s = Ok (g, s') -> I s') -> new_all mk ts s0 = Ok (gs, s1) ->
  [/\ size gs = size ts, I s1 & forall t g, List.In (t, g) (zip ts gs) -> exists s s', I s /\ mk t s = Ok (g, s')].
Proof.
move=> h0 hS; elim: ts s0 gs h0 hS => [|t ts IH] s0 gs h0 hS /=; first by case=> <- <-.
case e: (mk t s0) => [[g s]| |] //=; case e': (new_all mk ts s) => [[gs' s']| |] //= -[<- es].
have hI : I s by apply: hS h0 e; left.
rewrite es in e'; have [|h1 h2 h3] := IH _ _ hI _ e'; first by move=> u ? ? ? hu; apply: hS; right.
split=> //=; first by rewrite h1.
by move=> t' g' [[<- <-]|/h3//]; exists s0, s.
Qed.

Lemma digest_var_new pb m vs pb' : pb_wf pb -> digest_variable_new pb m = (vs, pb') -> size vs = m /\ pb_wf pb'.
Proof.
by rewrite /digest_variable_new => hw /(allocate_array_new hw) [h1 -> _]; rewrite size_iota; split=> //; apply: allocates_wf h1.
Qed.

Lemma new_digests_shape (T : Type) (ts : seq T) pb ds pb' m : pb_wf pb ->
  new_all (fun (_ : T) pb => Ok (digest_variable_new pb m)) ts pb = Ok (ds, pb') ->
  [/\ pb_wf pb', size ds = size ts & all (fun d => size d == m) ds].
Proof.
move=> hw e; have [||h1 h2 h3] := new_all_zip (I := @pb_wf F) _ _ e => //.
  by move=> t s g s' _ hs [/(digest_var_new hs) []].
split=> //; apply/(all_nthP [::]) => i; rewrite h1 => hi.
case: ts hi h1 h3 {e} => [//|t0 ts] hi h1 h3.
have [s [s' [hs [e]]]] := h3 (nth t0 (t0 :: ts) i) (nth [::] ds i) (In_zip_nth t0 [::] (esym h1) hi).
by have [-> _] := digest_var_new hs e; rewrite eqxx.
Qed.

Lemma level_inputE (T : Type) (d0 : T) (lvls : seq T) (leaf : T) depth i : size lvls = (depth - 1)%N -> (i < depth)%N ->
  (if (i < depth - 1)%N then nth d0 lvls i else leaf) = nth d0 (rcons lvls leaf) i.
Proof. by move=> hs hi; rewrite nth_rcons hs; case: ltnP => // h; rewrite ifT //; apply/eqP; lia. Qed.

Lemma hasher_wf (path : path_variable) depth out i pb h pb' : hash_allocates HashT -> pb_wf pb ->
  path_shape depth n path -> (i < depth)%N -> size out = n -> hasher_new HashT path out i pb = Ok (h, pb') -> pb_wf pb'.
Proof.
move=> hal hw [p1 p2 p3 p4] hi ho; rewrite /hasher_new.
have s1 : size (nth [::] (pv_left path) i) = n by apply/eqP; apply: (allP p3); rewrite mem_nth ?p1.
have s2 : size (nth [::] (pv_right path) i) = n by apply/eqP; apply: (allP p4); rewrite mem_nth ?p2.
have g1 : oget (pv_left path) i = Ok (nth [::] (pv_left path) i) by apply: oget_nth; rewrite p1.
have g2 : oget (pv_right path) i = Ok (nth [::] (pv_right path) i) by apply: oget_nth; rewrite p2.
rewrite g1 g2 /= /block_variable_pair s1 s2 eqxx /= => e.
by apply: allocates_wf (hal _ _ _ _ _ _ hw _ ho e); rewrite size_cat s1 s2; lia.
Qed.

(** The propagator of level [i]. *)
Lemma propagator_values (path : path_variable) depth (A : pb_linear_combination_array F) inp i x :
  path_shape depth n path -> (i < depth)%N -> size A = depth -> size inp = n -> lc_isbits x A ->
  holds (digest_selector_constraints (propagator HashT depth A path inp i)) x ->
  map (xval x) inp = map (xval x) (if nth false (lc_bits x A) (depth - 1 - i)
                                   then nth [::] (pv_right path) i else nth [::] (pv_left path) i).
Proof.
move=> [p1 p2 p3 p4] hi hA hinp hb hs.
have s1 : size (nth [::] (pv_left path) i) = n by apply/eqP; apply: (allP p3); rewrite mem_nth ?p1.
have s2 : size (nth [::] (pv_right path) i) = n by apply/eqP; apply: (allP p4); rewrite mem_nth ?p2.
have hiA : (depth - 1 - i < size A)%N by lia.
have eb : nth false (lc_bits x A) (depth - 1 - i) = bit_of (lval x (lc_nth A (depth - 1 - i))).
  by rewrite (nth_map (PbLc false 0%N [::])).
have hbi : isbit (lval x (lc_nth A (depth - 1 - i))).
  by move/all_InP: hb; apply; apply: lc_nth_In.
by rewrite eb; have := @digest_selectorE (propagator HashT depth A path inp i) n x erefl hinp s1 s2 hbi hs.
Qed.

Lemma nth_path_siblings x path A i : (i < size A)%N ->
  nth [::] (path_siblings x path A) i =
  var_bits x (if nth false A (size A - 1 - i) then nth [::] (pv_left path) i else nth [::] (pv_right path) i).
Proof. by move=> hi; rewrite (nth_map 0%N) ?size_iota // nth_iota // add0n; case: ifP. Qed.

(** One level: the hasher and the propagator of level [i]. *)
Definition level_block x path (A : seq bool) inp i : seq bool :=
  if nth false A (size A - 1 - i) then nth [::] (path_siblings x path A) i ++ var_bits x inp
  else var_bits x inp ++ nth [::] (path_siblings x path A) i.
Lemma level_sound (path : path_variable) depth (A : pb_linear_combination_array F) inp out i pb pb' g e x :
  pb_wf pb -> path_shape depth n path -> (i < depth)%N -> size A = depth -> size inp = n -> size out = n ->
  hash_enforces HashT (2 * n) rel ->
  var_isbits x (nth [::] (pv_left path) i) -> var_isbits x (nth [::] (pv_right path) i) ->
  lc_isbits x A ->
  hasher_new HashT path out i pb = Ok (g, pb') -> holds (hg_constraints g e) x ->
  holds (digest_selector_constraints (propagator HashT depth A path inp i)) x ->
  [/\ var_isbits x inp, (e -> var_isbits x out),
      (var_isbits x out -> rel (level_block x path (lc_bits x A) inp i) (var_bits x out)) &
      forall c d, hash_enforces_packed HashT c (2 * n) rel -> size d = n ->
        map (@pack F) (chunks (map (xval x) out) c) = map (@pack F) (chunks [seq bit_val F b | b <- d] c) ->
        rel (level_block x path (lc_bits x A) inp i) d].
Proof.
move=> hw hp hi hA hinp hout hH b1 b2 hb eg hg hs.
have esel := propagator_values hp hi hA hinp hb hs; case: hp => p1 p2 p3 p4.
have s1 : size (nth [::] (pv_left path) i) = n by apply/eqP; apply: (allP p3); rewrite mem_nth ?p1.
have s2 : size (nth [::] (pv_right path) i) = n by apply/eqP; apply: (allP p4); rewrite mem_nth ?p2.
have sA : size (lc_bits x A) = depth by rewrite size_map.
have binp : var_isbits x inp by rewrite (eq_var_isbits esel); case: ifP.
have eblock : level_block x path (lc_bits x A) inp i = var_bits x (nth [::] (pv_left path) i ++ nth [::] (pv_right path) i).
  rewrite /level_block nth_path_siblings ?sA // var_bits_cat (eq_var_bits esel).
  by case: (nth false _ _).
have bblock : var_isbits x (nth [::] (pv_left path) i ++ nth [::] (pv_right path) i) by rewrite var_isbits_cat b1 b2.
have sblock : size (nth [::] (pv_left path) i ++ nth [::] (pv_right path) i) = (2 * n)%N by rewrite size_cat s1 s2; lia.
have eg' : hg_new HashT pb (2 * n) (nth [::] (pv_left path) i ++ nth [::] (pv_right path) i) out = Ok (g, pb').
  move: eg; rewrite /hasher_new.
  have g1 : oget (pv_left path) i = Ok (nth [::] (pv_left path) i) by apply: oget_nth; rewrite p1.
  have g2 : oget (pv_right path) i = Ok (nth [::] (pv_right path) i) by apply: oget_nth; rewrite p2.
  by rewrite g1 g2 /= /block_variable_pair s1 s2 eqxx.
have [h1 h2] := hH _ _ _ _ _ _ _ hw sblock hout eg' bblock hg.
split=> //; first by rewrite eblock.
by move=> c d hc hd ec; rewrite eblock; apply: hc hw sblock hout eg' bblock hg hd ec.
Qed.

(** All levels together. *)
Lemma levels_connect x path (A : seq bool) (lvs : seq pb_variable_array) root :
  size lvs = (size A).+1 -> (0 < size A)%N ->
  rel (level_block x path A (nth [::] lvs 1) 0) root ->
  (forall i, (0 < i < size A)%N -> rel (level_block x path A (nth [::] lvs i.+1) i) (var_bits x (nth [::] lvs i))) ->
  path_connects rel root (bits_nat A) (var_bits x (last [::] lvs)) (path_siblings x path A).
Proof.
move=> hl hA h0 hS; set D := size A.
pose lv i := if i == 0%N then root else var_bits x (nth [::] lvs i).
have hcl := @climbs_levels rel D A lv (nth [::] (path_siblings x path A)) erefl _ D (leqnn _).
have e0 : lv D = var_bits x (last [::] lvs).
  by rewrite /lv -nth_last hl /=; have -> : (D == 0%N) = false by rewrite /D; lia.
move: hcl; rewrite subnn drop0 e0 /path_connects.
have -> : [seq nth [::] (path_siblings x path A) j | j <- iota 0 D] = path_siblings x path A.
  have -> : D = size (path_siblings x path A) by rewrite size_map size_iota.
  by rewrite -/(mkseq _ _) mkseq_nth.
apply=> i hi; rewrite {1 2}/lv /=.
by case: i hi => [|i] hi //; have := hS i.+1; rewrite /level_block /lv; apply.
Qed.

Lemma size_path_siblings x path A : size (path_siblings x path A) = size A.
Proof. by rewrite size_map size_iota. Qed.

(** * The read gadget *)
Lemma check_read_sound pb0 depth (A : pb_linear_combination_array F) leaf root path rs g pb1 x :
  pb_wf pb0 -> hash_allocates HashT -> hash_enforces HashT (2 * n) rel -> hash_enforces_packed HashT (capacity R) (2 * n) rel ->
  path_shape depth n path -> size leaf = n -> size root = n ->
  check_read_new R HashT pb0 depth A leaf root path rs = Ok (g, pb1) ->
  holds (path_variable_constraints F path) x -> lc_isbits x A -> var_isbits x root -> lval x rs <> 0 ->
  holds (check_read_constraints g) x ->
  var_isbits x leaf /\
  path_connects rel (var_bits x root) (bits_nat (lc_bits x A)) (var_bits x leaf) (path_siblings x path (lc_bits x A)).
Proof.
move=> hw hal hH hP hp sl sr; rewrite /check_read_new.
case hd: (0 < depth)%N => //=; case: eqP => //= hA.
case e1: (new_digests HashT pb0 (depth - 1)) => [[internal pb2]| |] //=.
have [w2 s2 a2] := new_digests_shape hw e1; rewrite size_iota in s2.
case e2: (digest_variable_new pb2 n) => [croot pb3]; have [scr w3] := digest_var_new w2 e2.
case e3: (new_all _ _ pb3) => [[hs pb4]| |] //=.
pose lvs := croot :: rcons internal leaf.
have slv i : (i <= depth)%N -> size (nth [::] lvs i) = n.
  case: i => [|i] hi //=; rewrite nth_rcons s2; case: ltnP => h6; last by rewrite ifT //; apply/eqP; lia.
  by apply/eqP; apply: (allP a2); rewrite mem_nth // s2.
have einp i : (i < depth)%N -> level_input depth internal leaf i = nth [::] lvs i.+1.
  by move=> hi; rewrite /level_input level_inputE.
have eout i : (i < depth)%N -> level_output internal croot i = nth [::] lvs i.
  rewrite /level_output; case: i => [//|i] hi /=; rewrite subn1 /= nth_rcons s2 ifT //; lia.
have [||s4 w4 h4] := new_all_zip (I := @pb_wf F) _ _ e3 => //.
  move=> i s h s' /GadgetLogic.In_iota hi hs'; apply: (hasher_wf hal hs' hp) => //.
  by rewrite eout // slv // ltnW.
rewrite size_iota in s4.
case e5: (bit_vector_copy_new pb4 croot root rs _) => [[cp pb5]| |] //= -[<- _].
have [_ h5 [b1 b2 b3] _] := bit_vector_copy_new_spec w4 e5.
move=> /(path_constraintsE _ hp) hpath hbA hbr hrs.
rewrite /check_read_constraints /= 2!holds_cat -map_comp => -[c1 [c2 c3]].
move/holds_flatten_iota: c2 => c2.
have L i : (i < depth)%N ->
   [/\ var_isbits x (nth [::] lvs i.+1), (var_isbits x (nth [::] lvs i) ->
       rel (level_block x path (lc_bits x A) (nth [::] lvs i.+1) i) (var_bits x (nth [::] lvs i))) &
      forall d, size d = n -> map (@pack F) (chunks (map (xval x) (nth [::] lvs i)) (capacity R)) =
         map (@pack F) (chunks [seq bit_val F b | b <- d] (capacity R)) ->
       rel (level_block x path (lc_bits x A) (nth [::] lvs i.+1) i) d].
  move=> hi; have sz : size (iota 0 depth) = size hs by rewrite size_iota.
  have hii : List.In i (iota 0 depth) by apply/GadgetLogic.In_iota.
  have [h hin] := In_zip_l sz hii.
  have [s [s' [ws eh]]] := h4 _ _ hin; have [_ hinh] := BasicGadgetsCopy.In_zip hin.
  have [q1 q2] := hpath i hi.
  have := @level_sound path depth A (nth [::] lvs i.+1) (nth [::] lvs i) i s s' h false x ws hp hi (esym hA)
            (slv _ hi) (slv _ (ltnW hi)) hH q1 q2 hbA.
  rewrite -eout // => /(_ eh (iffLR (holds_flatten _ _ _) c1 h hinh)).
  rewrite -einp // => /(_ (c2 i hi)) [k1 _ k2 k3]; split=> // d; exact: k3 hP.
have eroot : map (@pack F) (chunks (map (xval x) croot) (capacity R)) =
         map (@pack F) (chunks [seq bit_val F b | b <- var_bits x root] (capacity R)).
  have := copy_packs h5 c3; rewrite b1 b2 b3 => -> //.
  by rewrite var_bits_val.
have slvs : size lvs = (size (lc_bits x A)).+1 by rewrite /= size_rcons s2 size_map -hA; lia.
have elast : last [::] lvs = leaf by rewrite /= last_rcons.
have hbl : var_isbits x leaf.
  have [h _ _] := L (depth - 1)%N ltac:(lia); move: h.
  by rewrite /lvs [nth _ _ _]/= nth_rcons s2 ltnn eqxx.
split=> //; rewrite -elast; apply: levels_connect => //.
- by rewrite size_map -hA.
- by have [_ _ k3] := L 0%N hd; apply: k3 => //; rewrite size_var_bits.
by rewrite size_map -hA => i /andP [hi0 hi]; have [_ k2 _] := L i hi; apply: k2; case: i hi0 hi => // i _ hi; have [] := L i (ltnW hi).
Qed.

(** * The update gadget *)
Lemma In_levels2 D i b : (i < D)%N -> List.In (i, b) (levels2 D).
Proof.
move=> hi; apply/(iffRL (GadgetLogic.In_mem _ _)); apply/allpairsP; exists (i, b); split=> //.
- by rewrite mem_iota.
- by case: b.
Qed.
Lemma levels2_In D t : List.In t (levels2 D) -> (t.1 < D)%N.
Proof. by move=> /(GadgetLogic.In_mem _ _) /allpairsP [[i b] /= [h1 _ ->]]; move: h1; rewrite mem_iota. Qed.
Lemma size_levels2 D : size (levels2 D) = (2 * D)%N.
Proof. by rewrite /levels2 size_allpairs size_iota /=; lia. Qed.

Lemma aux_checkE (g : check_update HashT) x i : (i < cu_depth g)%N -> size (cu_address_bits g) = cu_depth g ->
  path_shape (cu_depth g) n (cu_prev_path g) -> path_shape (cu_depth g) n (cu_next_path g) ->
  var_isbits x (cu_address_bits g) ->
  (forall i j, (i < cu_depth g)%N -> (j < n)%N -> constraint_holds (aux_check g i j) x) ->
  let side (p : path_variable) := if nth false (var_bits x (cu_address_bits g)) (cu_depth g - 1 - i)
    then nth [::] (pv_left p) i else nth [::] (pv_right p) i in
  map (xval x) (side (cu_prev_path g)) = map (xval x) (side (cu_next_path g)).
Proof.
move=> hi hA [p1 p2 p3 p4] [q1 q2 q3 q4] hb hc side.
have s1 : size (nth [::] (pv_left (cu_prev_path g)) i) = n by apply/eqP; apply: (allP p3); rewrite mem_nth ?p1.
have s2 : size (nth [::] (pv_right (cu_prev_path g)) i) = n by apply/eqP; apply: (allP p4); rewrite mem_nth ?p2.
have s3 : size (nth [::] (pv_left (cu_next_path g)) i) = n by apply/eqP; apply: (allP q3); rewrite mem_nth ?q1.
have s4 : size (nth [::] (pv_right (cu_next_path g)) i) = n by apply/eqP; apply: (allP q4); rewrite mem_nth ?q2.
have hiA : (cu_depth g - 1 - i < size (cu_address_bits g))%N by lia.
have hbi : isbit (xval x (nth 0%N (cu_address_bits g) (cu_depth g - 1 - i))).
  by apply: (allP hb); rewrite mem_nth.
have eb : nth false (var_bits x (cu_address_bits g)) (cu_depth g - 1 - i) =
   bit_of (xval x (nth 0%N (cu_address_bits g) (cu_depth g - 1 - i))) by rewrite (nth_map 0%N).
rewrite /side eb; apply: (@eq_from_nth _ 0); rewrite !size_map; first by case: ifP; rewrite ?s1 ?s2 ?s3 ?s4.
move=> j hj; have {}hj : (j < n)%N by move: hj; case: ifP; rewrite ?s1 ?s2.
rewrite !(nth_map 0%N); try by case: ifP; rewrite ?s1 ?s2 ?s3 ?s4.
have := hc i j hi hj.
rewrite /constraint_holds [c_a _]/= [c_b _]/= [c_c _]/= formal_sum_add formal_sum_sub !formal_sum_var_sub.
have lv v : formal_sum (lc_of_var F v) x = xval x v by rewrite -lval_var.
rewrite !lv {1}(isbitP hbi); case: (bit_of _) => /=.
  rewrite mul1r => e; apply/eqP; rewrite -subr_eq0; apply/eqP.
  by move: e; rewrite -addrA [- _ + _]addrC -[RHS]add0r => /addIr.
by rewrite mul0r => /eqP; rewrite eq_sym subr_eq0 => /eqP ->.
Qed.

Lemma check_update_sound pb0 depth (A : pb_variable_array) pleaf proot ppath nleaf nroot npath us g pb1 x :
  pb_wf pb0 -> hash_allocates HashT -> hash_enforces HashT (2 * n) rel ->
  path_shape depth n ppath -> path_shape depth n npath ->
  size pleaf = n -> size proot = n -> size nleaf = n -> size nroot = n ->
  check_update_new R HashT pb0 depth A pleaf proot ppath nleaf nroot npath us = Ok (g, pb1) ->
  holds (path_variable_constraints F ppath) x -> var_isbits x A -> var_isbits x proot ->
  holds (check_update_constraints g) x ->
  [/\ var_isbits x pleaf,
      path_connects rel (var_bits x proot) (bits_nat (var_bits x A)) (var_bits x pleaf) (path_siblings x ppath (var_bits x A)) &
      var_isbits x nleaf -> var_isbits x nroot -> lval x us <> 0 ->
      path_connects rel (var_bits x nroot) (bits_nat (var_bits x A)) (var_bits x nleaf) (path_siblings x ppath (var_bits x A))].
Proof.
move=> hw hal hH hpp hpn spl spr snl snr; rewrite /check_update_new.
case hd: (0 < depth)%N => //=; case: eqP => //= hA.
case e1: (new_all _ (levels2 (depth - 1)) pb0) => [[internals pb2]| |] //=.
have [w2 s2 a2] := new_digests_shape hw e1; rewrite size_levels2 in s2.
case e2: (digest_variable_new pb2 n) => [croot pb3]; have [scr w3] := digest_var_new w2 e2.
set internal := (fun b : bool => [seq nth [::] internals (2 * i + b) | i <- iota 0 (depth - 1)]).
case e3: (new_all _ (levels2 depth) pb3) => [[hs pb4]| |] //=.
pose path (b : bool) := if b then npath else ppath.
pose leaf (b : bool) := if b then nleaf else pleaf.
pose root (b : bool) := if b then croot else proot.
pose lvs b := root b :: rcons (internal b) (leaf b).
have sint b : size (internal b) = (depth - 1)%N by rewrite size_map size_iota.
have slv b i : (i <= depth)%N -> size (nth [::] (lvs b) i) = n.
  case: i => [|i] hi /=; first by case: b.
  rewrite nth_rcons sint; case: ltnP => h6; last by rewrite ifT; [case: b|apply/eqP; lia].
  rewrite (nth_map 0%N) ?size_iota // nth_iota // add0n.
  by apply/eqP; apply: (allP a2); rewrite mem_nth // s2; case: b; lia.
have hpb b : path_shape depth n (path b) by case: b.
have einp b i : (i < depth)%N -> level_input depth (internal b) (leaf b) i = nth [::] (lvs b) i.+1.
  by move=> hi; rewrite /level_input level_inputE.
have eout b i : (i < depth)%N -> level_output (internal b) (root b) i = nth [::] (lvs b) i.
  rewrite /level_output; case: i => [//|i] hi /=; rewrite subn1 /= nth_rcons sint ifT //; lia.
have [||s4 w4 h4] := new_all_zip (I := @pb_wf F) _ _ e3 => //.
  move=> [i b] s h s' /levels2_In /= hi hs'; apply: (hasher_wf hal hs' (hpb b)) => //.
  by have -> : (if b then croot else proot) = root b by []; rewrite eout // slv // ltnW.
case e5: (bit_vector_copy_new pb4 croot nroot us _) => [[cp pb5]| |] //= -[<- _].
have [_ h5 [b1 b2 b3] _] := bit_vector_copy_new_spec w4 e5.
move=> /(path_constraintsE _ hpp) hpath hbA hbpr.
rewrite /check_update_constraints [cu_depth _]/= [cu_hashers _]/= [cu_propagators _]/= [cu_check_next_root _]/=.
rewrite 3!holds_cat -map_comp => -[c1 [c2 [c3 c4]]].
pose Al := plcs_of_vars F A.
have eA : lc_bits x Al = var_bits x A by rewrite /lc_bits -map_comp; apply: eq_map => v /=; rewrite lval_var.
have hbAl : lc_isbits x Al by rewrite /lc_isbits isbit_vars.
have sAl : size Al = depth by rewrite size_map -hA.
have sA : size (var_bits x A) = depth by rewrite size_map -hA.
have C2 b i : (i < depth)%N -> holds (digest_selector_constraints (propagator HashT depth Al (path b) (nth [::] (lvs b) i.+1) i)) x.
  move=> hi; rewrite -einp //; have := iffLR (holds_flatten _ _ _) c2 (i, b) (In_levels2 b hi).
  by rewrite /= /leaf; case: b.
have L b i : (i < depth)%N -> var_isbits x (nth [::] (pv_left (path b)) i) -> var_isbits x (nth [::] (pv_right (path b)) i) ->
   [/\ var_isbits x (nth [::] (lvs b) i.+1), (b -> var_isbits x (nth [::] (lvs b) i)) & (var_isbits x (nth [::] (lvs b) i) ->
       rel (level_block x (path b) (var_bits x A) (nth [::] (lvs b) i.+1) i) (var_bits x (nth [::] (lvs b) i)))].
  move=> hi q1 q2.
  have sz : size (levels2 depth) = size hs by rewrite s4.
  have [h hin] := In_zip_l sz (In_levels2 b hi).
  have [s [s' [ws eh]]] := h4 _ _ hin.
  have := @level_sound (path b) depth Al (nth [::] (lvs b) i.+1) (nth [::] (lvs b) i) i s s' h b x ws (hpb b) hi sAl
            (slv _ _ hi) (slv _ _ (ltnW hi)) hH q1 q2 hbAl.
  rewrite -eout // => /(_ eh).
  have hh : holds (hg_constraints h b) x by have := iffLR (holds_flatten _ _ _) c1 ((i, b), h) hin.
  by move=> /(_ hh (C2 b i hi)) [k1 k2 k3 _]; rewrite eA in k3.
have SV b i : (i < depth)%N -> map (xval x) (nth [::] (lvs b) i.+1) =
    map (xval x) (if nth false (var_bits x A) (depth - 1 - i) then nth [::] (pv_right (path b)) i else nth [::] (pv_left (path b)) i).
  by move=> hi; have := propagator_values (hpb b) hi sAl (slv b _ hi) hbAl (C2 b i hi); rewrite eA.
have AUX i : (i < depth)%N ->
   let side (p : path_variable) := if nth false (var_bits x A) (depth - 1 - i) then nth [::] (pv_left p) i else nth [::] (pv_right p) i in
   map (xval x) (side ppath) = map (xval x) (side npath).
  move=> hi side.
  move: c3; set gg := CheckUpdate _ _ _ _ _ _ _ => c3.
  apply: (@aux_checkE gg x i) => // i' j' hi' hj'.
  move: c3 => /holds_flatten_iota /(_ i' hi') /holds_iota; exact.
have PB i : (i < depth)%N -> var_isbits x (nth [::] (lvs false) i).
  by case: i => [|i] hi //; have [q1 q2] := hpath i (ltnW hi); have [] := L false i (ltnW hi) q1 q2.
have slvs b : size (lvs b) = (size (var_bits x A)).+1 by rewrite /= size_rcons sint sA; lia.
have elast b : last [::] (lvs b) = leaf b by rewrite /= last_rcons.
have hbpl : var_isbits x pleaf.
  have hi : (depth - 1 < depth)%N by lia.
  have [q1 q2] := hpath _ hi; have [h _ _] := L false _ hi q1 q2; move: h.
  by rewrite /lvs [nth _ _ _]/= nth_rcons sint ltnn eqxx.
split=> //.
  rewrite -[pleaf](elast false); apply: levels_connect => //; first by rewrite sA.
    by have [q1 q2] := hpath _ hd; have [_ _ k] := L false _ hd q1 q2; apply: k; apply: PB.
  by rewrite sA => i /andP [_ hi]; have [q1 q2] := hpath _ hi; have [_ _ k] := L false _ hi q1 q2; apply: k; apply: PB.
move=> hbnl hbnr hus.
have NP i : (i < depth)%N -> var_isbits x (nth [::] (lvs true) i.+1) ->
    var_isbits x (nth [::] (pv_left npath) i) /\ var_isbits x (nth [::] (pv_right npath) i).
  move=> hi hb; have [q1 q2] := hpath i hi.
  move: (AUX i hi) (SV true i hi) => /= /eq_var_isbits h1 /eq_var_isbits h2; move: h1 h2; rewrite hb.
  by case: (nth false _ _); rewrite ?q1 ?q2 => <- <-.
have NB j : (j <= depth)%N -> var_isbits x (nth [::] (lvs true) (depth - j)).
  elim: j => [|j IH] hj.
    have -> : (depth - 0 = (depth - 1).+1)%N by lia.
    by rewrite /lvs [nth _ _ _]/= nth_rcons sint ltnn eqxx.
  have hi : (depth - j.+1 < depth)%N by lia.
  have hb : var_isbits x (nth [::] (lvs true) (depth - j.+1).+1).
    have -> : ((depth - j.+1).+1 = depth - j)%N by lia.
    by apply: IH; lia.
  by have [q1 q2] := NP _ hi hb; have [_ k _] := L true _ hi q1 q2; apply: k.
have NB' i : (i <= depth)%N -> var_isbits x (nth [::] (lvs true) i).
  by move=> hi; have := NB (depth - i)%N; rewrite subKn //; apply; apply: leq_subr.
have esib : path_siblings x npath (var_bits x A) = path_siblings x ppath (var_bits x A).
  apply: (@eq_from_nth _ [::]); rewrite !size_path_siblings // => i hi.
  rewrite !nth_path_siblings // sA; apply: eq_var_bits; apply: esym; apply: AUX.
  by rewrite -sA.
have ecr : var_bits x nroot = var_bits x croot.
  have := @bit_vector_copy_sound F R cp (capacity R) false false x h5 capacity_lt c4.
  rewrite b1 b2 b3 => -[||//|]; [exact: (NB' 0%N isT)|exact: hbnr|by move/eq_var_bits ->].
rewrite ecr -esib -[nleaf](elast true); apply: levels_connect => //; first by rewrite sA.
  by have [q1 q2] := NP _ hd (NB' 1%N hd); have [_ _ k] := L true _ hd q1 q2; apply: k; apply: NB'.
by rewrite sA => i /andP [_ hi]; have [q1 q2] := NP _ hi (NB' _ hi); have [_ _ k] := L true _ hi q1 q2; apply: k; apply: NB'; apply: ltnW.
Qed.
End Sound.
