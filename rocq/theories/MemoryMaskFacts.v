(** What the constraints of the memory masking gadget force.  Models nothing of /repo. *)
From mathcomp Require Import all_ssreflect all_algebra zify.
From Verif Require Import Outcome Lincomb LincombSpec LincombFacts R1CS R1CSSpec R1CSFacts Fieldtac.
From Verif Require Import Protoboard GadgetSpec GadgetLogic BasicGadgets BasicGadgetsFacts BasicGadgetsMore.
From Verif Require Import BasicGadgetsCopy GadgetNew GadgetSeq Benes Alu AluSpec AluFacts FieldGadgetsFacts TinyramCpuFacts MemoryMask.
Set Implicit Arguments.
Unset Strict Implicit.
Unset Printing Implicit Defensive.
Local Open Scope ring_scope.
Import GRing.Theory.

Section Facts.
Variable F : fieldType.
Variable R : bigint_repr F.
Add Field Ff : (Fth F).
Implicit Types (x : seq F) (pb : protoboard F).
Let bit (b : bool) : F := (nat_of_bool b)%:R.

Lemma slice_sumE x vs bs i j : bits_are x vs bs ->
  formal_sum (slice_sum F i j vs) x = (bits_nat (drop i (take j bs)))%:R.
Proof.
move=> h; rewrite /slice_sum packing_sumE lval_vars; apply: pack_are.
by apply: bits_drop; apply: bits_take.
Qed.

Lemma assign_all_spec pb ls os pb' : pb_wf pb -> assign_all pb ls = (os, pb') ->
  [/\ allocates pb pb', size os = size ls & forall x i, (i < size ls)%N -> lval x (lc_nth os i) = formal_sum (nth [::] ls i) x].
Proof.
elim: ls pb os pb' => [|l ls IH] pb os pb' hw; cbn [assign_all].
  by case=> <- <-; split=> //; exact: allocates_refl.
case e1: (lc_assign pb _) => [o pb1]; have [h1 _ _] := lc_assign_new hw e1.
case e2: (assign_all pb1 _) => [os' pb2] [<- <-].
have [h2 h3 h4] := IH _ _ _ (allocates_wf h1) e2; split; first exact: allocates_trans h1 h2.
  by rewrite /= h3.
by move=> x [|i] hi; [exact: (assign_lval x e1)|exact: h4].
Qed.

Record mm_shape (g : mask F) (w n : nat) x : Prop := MmShape {
  mms_ip : ip_shape (mm_ip g);
  mms_ips : [/\ ip_A (mm_ip g) = plcs_of_vars F (mm_is_word0 g :: mm_is_word1 g :: mm_is_byte g),
                ip_B (mm_ip g) = mm_out_word0 g :: mm_out_word1 g :: mm_out_bytes g & ip_result (mm_ip g) = mm_masked g];
  mms_sub : size (mm_is_sub g) = (2 * n)%N;
  mms_byte : size (mm_is_byte g) = (2 * n)%N;
  mms_out : size (mm_out_bytes g) = (2 * n)%N;
  mms_0 : lval x (mm_out_word0 g) = formal_sum (out_word0 F w (mm_prev g)) x;
  mms_1 : lval x (mm_out_word1 g) = formal_sum (out_word1 F w (mm_prev g)) x;
  mms_b : forall i, (i < 2 * n)%N -> lval x (lc_nth (mm_out_bytes g) i) = formal_sum (out_byte F (mm_prev g) i) x;
  mms_sh : lval x (mm_shift g) = formal_sum (shift_lc F w (mm_is_word0 g) (mm_is_word1 g) (mm_is_byte g) (2 * n)) x }.

Lemma mask_new_spec pb w n prev sub c wd by_ next g pb' x : pb_wf pb ->
  mask_new pb w n prev sub c wd by_ next = Ok (g, pb') ->
  mm_shape g w n x /\ [/\ mm_prev g = prev, mm_sub g = sub, mm_subcontents g = c, mm_word g = wd & mm_byte g = by_ /\ mm_next g = next].
Proof.
move=> hw; rewrite /mask_new.
case e1: (allocate_var pb) => [p1 pb1]; have [h1 _ _] := allocate_var_new hw e1.
case e2: (allocate_var pb1) => [p2 pb2]; have [h2 _ _] := allocate_var_new (allocates_wf h1) e2.
case e3: (allocate_array pb2 _) => [p3 pb3]; have [h3 f3 _] := allocate_array_new (allocates_wf h2) e3.
case e4: (allocate_array pb3 _) => [p4 pb4]; have [h4 f4 _] := allocate_array_new (allocates_wf h3) e4.
case e5: (lc_assign pb4 _) => [p5 pb5]; have [h5 _ _] := lc_assign_new (allocates_wf h4) e5.
case e6: (lc_assign pb5 _) => [p6 pb6]; have [h6 _ _] := lc_assign_new (allocates_wf h5) e6.
case e7: (assign_all pb6 _) => [p7 pb7]; have [h7 s7 f7] := assign_all_spec (allocates_wf h6) e7.
case e8: (allocate_var pb7) => [p8 pb8]; have [h8 _ _] := allocate_var_new (allocates_wf h7) e8.
move=> hh; have [[ip pb9] f1 {}hh] := obind_Ok hh; cbn [fst snd] in hh.
have [a1 b1 c1 _] := inner_product_new_spec (allocates_wf h8) f1.
case e9: (lc_assign pb9 _) hh => [p9 pb10] hh.
case: hh => <- _; split=> //; split=> //; cbn.
- by rewrite f3 size_iota.
- by rewrite f4 size_iota.
- by rewrite s7 size_map size_iota.
- exact: (assign_lval x e5).
- exact: (assign_lval x e6).
- move=> i hi; rewrite f7 ?size_map ?size_iota // (nth_map 0%N) ?size_iota //.
  by rewrite nth_iota.
- exact: (assign_lval x e9).
Qed.

Lemma shift_lcE w (w0 w1 : nat) bytes m x :
  formal_sum (shift_lc F w w0 w1 bytes m) x =
  xval x w0 + 2%:R ^+ w * xval x w1 + \sum_(0 <= i < m) 2%:R ^+ (8 * i) * xval x (nth 0%N bytes i).
Proof.
rewrite /shift_lc; set l0 := lt_add_lc _ _.
have -> : xval x w0 + 2%:R ^+ w * xval x w1 = formal_sum l0 x.
  by rewrite /l0 formal_sum_lt_add formal_sum_term /= mul1r.
rewrite /index_iota subn0; elim: (iota 0 m) l0 => [|i s IH] l /=; first by rewrite big_nil addr0.
by rewrite IH formal_sum_add formal_sum_term big_cons addrA.
Qed.

Lemma sum_one_hot (f : nat -> F) (v : nat -> F) m s : (s < m)%N ->
  (forall i, (i < m)%N -> v i = bit (i == s)) -> \sum_(0 <= i < m) v i * f i = f s.
Proof.
move=> hs h; rewrite (big_cat_nat _ (n := s)) //=; last exact: ltnW.
rewrite big_nat big1 ?add0r; last first.
  move=> j /andP [_ hj]; rewrite h; last exact: ltn_trans hj hs.
  by rewrite /bit (ltn_eqF hj) mulr0n mul0r.
rewrite big_ltn // big_nat big1 ?addr0; last first.
  by move=> j /andP [hj hj']; rewrite h // /bit (gtn_eqF hj) mulr0n mul0r.
by rewrite h // eqxx mul1r.
Qed.
Lemma sum_zero (f : nat -> F) (v : nat -> F) m : (forall i, (i < m)%N -> v i = 0) -> \sum_(0 <= i < m) v i * f i = 0.
Proof. by move=> h; rewrite big_nat big1 // => i /andP [_ hi]; rewrite h // mul0r. Qed.

(** the indicators *)
Lemma indicators_sound g w n sl x s (b : bool) : mm_shape g w n x -> (2 * n <= fp_order R)%N -> (s < 2 * n)%N ->
  xval x (dv_packed (mm_sub g)) = s%:R -> lval x (mm_byte g) = bit b -> lval x (mm_word g) = bit (~~ b) ->
  holds (mask_indicators n sl g) x ->
  [/\ forall i, (i < 2 * n)%N -> xval x (nth 0%N (mm_is_byte g) i) = bit (b && (i == s)),
      xval x (mm_is_word0 g) = bit (~~ b) * (1 - xval x (sub_top sl g)) &
      xval x (mm_is_word1 g) = bit (~~ b) * xval x (sub_top sl g)].
Proof.
move=> hs hn hsn es eb ew; rewrite /mask_indicators 3!holds_cat !holds_iota holds1 holds_cons holds1.
case=> h1 [h2 [h3 [h4 h5]]].
have q1 i : (i < 2 * n)%N -> xval x (nth 0%N (mm_is_sub g) i) * (s%:R - i%:R) = 0.
  by move=> hi; have := h1 i hi; rewrite /constraint_holds [c_a _]/= [c_b _]/= [c_c _]/= !fsE es.
have q2 i : (i < 2 * n)%N -> i != s -> xval x (nth 0%N (mm_is_sub g) i) = 0.
  move=> hi hne; move/eqP: (q1 i hi); rewrite mulf_eq0 subr_eq0 => /orP [/eqP //|/eqP e].
  have e' := natF_eq (R := R) (leq_trans hsn hn) (leq_trans hi hn) e.
  by rewrite e' eqxx in hne.
have q3 : xval x (nth 0%N (mm_is_sub g) s) = 1.
  have : \sum_(a <- map (xval x) (mm_is_sub g)) a = 1.
    have := h2; rewrite /constraint_holds [c_a _]/= [c_b _]/= [c_c _]/= pb_sumE !fsE mul1r.
    rewrite /plcs_of_vars !big_map => e; transitivity (1%:~R : F) => //; rewrite -e.
    by apply: eq_bigr => v _; rewrite lval_var.
  rewrite (@sum_nth_one _ _ s) ?size_map ?(mms_sub hs) // ?(nth_map 0%N) ?(mms_sub hs) //.
  by move=> j hj hji; rewrite (nth_map 0%N) ?(mms_sub hs) // q2.
split.
- move=> i hi; have := h3 i hi; rewrite /constraint_holds [c_a _]/= [c_b _]/= [c_c _]/= !fsE -/(lval x (mm_byte g)) eb.
  move=> <-; rewrite /bit; case: eqP => [->|/eqP ne]; first by rewrite q3 mulr1 andbT.
  by rewrite q2 // mulr0 andbF.
- by have := h4; rewrite /constraint_holds [c_a _]/= [c_b _]/= [c_c _]/= !fsE -/(lval x (mm_word g)) ew => <-.
- by have := h5; rewrite /constraint_holds [c_a _]/= [c_b _]/= [c_c _]/= !fsE -/(lval x (mm_word g)) ew => <-.
Qed.

(** masked contents and shift *)
Lemma masked_sound g w n sl x s (b t : bool) : mm_shape g w n x -> (2 * n <= fp_order R)%N -> (s < 2 * n)%N ->
  xval x (dv_packed (mm_sub g)) = s%:R -> xval x (sub_top sl g) = bit t ->
  lval x (mm_byte g) = bit b -> lval x (mm_word g) = bit (~~ b) ->
  holds (mask_indicators n sl g) x -> holds (inner_product_constraints (mm_ip g)) x ->
  xval x (mm_masked g) = formal_sum (if b then out_byte F (mm_prev g) s
                                     else if t then out_word1 F w (mm_prev g) else out_word0 F w (mm_prev g)) x /\
  lval x (mm_shift g) = 2%:R ^+ (if b then 8 * s else if t then w else 0)%N.
Proof.
move=> hs hn hsn es et eb ew h1 h2.
have [i1 i2 i3] := indicators_sound hs hn hsn es eb ew h1; rewrite et in i2 i3.
have [eA eB er] := mms_ips hs.
have := inner_product_sound (mms_ip hs) h2; rewrite er eA eB /= !big_cons /= !lval_var.
rewrite zip_sum_nth ?(mms_byte hs) ?(mms_out hs) // => ->.
rewrite (mms_sh hs) shift_lcE i2 i3 (mms_0 hs) (mms_1 hs).
have -> : \sum_(0 <= i < 2 * n) 2%:R ^+ (8 * i) * xval x (nth 0%N (mm_is_byte g) i) =
          \sum_(0 <= i < 2 * n) xval x (nth 0%N (mm_is_byte g) i) * (2%:R ^+ (8 * i) : F).
  by apply: eq_big_nat => i _; rewrite mulrC.
case: b {eb ew h1 i2 i3} i1 => i1; rewrite /bit /=.
  rewrite (sum_one_hot _ hsn) // (sum_one_hot _ hsn) // (mms_b hs) //.
  by rewrite mulr0n !mul0r mulr0 !add0r.
rewrite !sum_zero; [|by move=> i /i1|by move=> i /i1].
by case: t {et} => /=; rewrite ?mulr1n ?mulr0n ?subrr ?subr0 ?mulr1 ?mulr0 ?mul0r ?mul1r ?add0r ?addr0.
Qed.

Theorem mask_sound pb w n sl prev sub c wd by_ next g pb' x (b t : bool) s ps cs :
  pb_wf pb -> mask_new pb w n prev sub c wd by_ next = Ok (g, pb') -> w = (8 * n)%N -> (2 * n <= fp_order R)%N ->
  is_word x prev ps -> size ps = (2 * w)%N ->
  (s < 2 * n)%N -> xval x (dv_packed sub) = s%:R -> xval x (nth 0%N (dv_bits sub) (sl - 1)) = bit t ->
  lval x by_ = bit b -> lval x wd = bit (~~ b) ->
  lval x c = (bits_nat cs)%:R -> size cs = (if b then 8 else w)%N ->
  holds (mask_constraints n sl g) x ->
  xval x (dv_packed next) =
    (bits_nat (if b then take (8 * s) ps ++ cs ++ drop (8 * s.+1) ps
               else if t then take w ps ++ cs else cs ++ drop w ps))%:R.
Proof.
move=> hw hg ew hn [hps vps] sps hsn es et eb ewd ec sc.
have [hs [e1 e2 e3 e4 [e5 e6]]] := mask_new_spec x hw hg.
rewrite /mask_constraints 2!holds_cat holds1 => [[h1 [h2 h3]]].
rewrite -e2 in es et; rewrite -e5 in eb; rewrite -e4 in ewd.
have [m1 m2] := masked_sound hs hn hsn es et eb ewd h1 h2.
move: h3; rewrite /mask_difference /constraint_holds [c_a _]/= [c_b _]/= [c_c _]/= !fsE -/(lval x (mm_shift g)) -/(lval x (mm_subcontents g)).
rewrite e3 e6 ec m2 m1 e1 => h3.
set M := formal_sum _ _ in h3.
transitivity (xval x (dv_packed next) - M + M); first by rewrite subrK.
rewrite -h3 /M; clear M h3 m1 m2.
have nx k : (2%:R : F) ^+ k = (2 ^ k)%:R by rewrite natrX.
case: b eb ewd sc => _ _ sc.
  have hb : (8 * s.+1 <= size ps)%N by rewrite sps ew; lia.
  rewrite /out_byte !fsE (slice_sumE _ _ hps) vps.
  have -> : bits_nat ps = bits_nat (take (8 * s) ps ++ drop (8 * s) (take (8 * s.+1) ps) ++ drop (8 * s.+1) ps).
    rewrite catA; congr bits_nat; rewrite -{1}(cat_take_drop (8 * s.+1) ps); congr (_ ++ _).
    by rewrite -{1}(cat_take_drop (8 * s) (take (8 * s.+1) ps)) take_take //; lia.
  have st : size (take (8 * s) ps) = (8 * s)%N by rewrite size_takel //; lia.
  have sm : size (drop (8 * s) (take (8 * s.+1) ps)) = 8%N by rewrite size_drop size_takel //; lia.
  rewrite !bits_nat_cat st sm sc nx; move: (2 ^ (8 * s))%N (2 ^ 8)%N => K L; rewrite !(natrD, natrM).
  move: (bits_nat cs)%:R (bits_nat (take _ ps))%:R (bits_nat (drop _ (take _ ps)))%:R (bits_nat (drop _ ps))%:R => a1 a2 a3 a4.
  by fring F.
have hb : (w <= size ps)%N by rewrite sps; lia.
case: t et => _.
  rewrite /out_word1 (slice_sumE _ _ hps) drop0 bits_nat_cat size_takel // natrD natrM nx.
  by rewrite addrC.
rewrite /out_word0 !fsE (slice_sumE _ _ hps) bits_nat_cat sc natrD natrM nx take_oversize ?sps //.
by rewrite expn0 mul1r nx.
Qed.

(** If the double word is kept, the subcontents are the accessed byte or word. *)
Theorem load_sound pb w n sl prev sub c wd by_ next g pb' x (b t : bool) s ps :
  pb_wf pb -> mask_new pb w n prev sub c wd by_ next = Ok (g, pb') -> w = (8 * n)%N ->
  (2 * n <= fp_order R)%N -> (2 < fp_order R)%N ->
  is_word x prev ps -> size ps = (2 * w)%N ->
  (s < 2 * n)%N -> xval x (dv_packed sub) = s%:R -> xval x (nth 0%N (dv_bits sub) (sl - 1)) = bit t ->
  lval x by_ = bit b -> lval x wd = bit (~~ b) ->
  xval x (dv_packed next) = xval x (dv_packed prev) ->
  holds (mask_constraints n sl g) x ->
  lval x c = (bits_nat (if b then drop (8 * s) (take (8 * s.+1) ps) else if t then drop w ps else take w ps))%:R.
Proof.
move=> hw hg ew hn h2p [hps vps] sps hsn es et eb ewd ec.
have [hs [e1 e2 e3 e4 [e5 e6]]] := mask_new_spec x hw hg.
rewrite /mask_constraints 2!holds_cat holds1 => [[h1 [h2 h3]]].
rewrite -e2 in es et; rewrite -e5 in eb; rewrite -e4 in ewd.
have [m1 m2] := masked_sound hs hn hsn es et eb ewd h1 h2.
move: h3; rewrite /mask_difference /constraint_holds [c_a _]/= [c_b _]/= [c_c _]/= !fsE -/(lval x (mm_shift g)) -/(lval x (mm_subcontents g)).
rewrite e3 e6 ec vps m2 m1 e1 => h3.
have n2 k : (2%:R : F) ^+ k != 0.
  rewrite expf_neq0 //; apply/eqP => e.
  by have := natF_eq (R := R) h2p (ltn_trans (isT : 0 < 2)%N h2p) e.
have nx k : (2%:R : F) ^+ k = (2 ^ k)%:R by rewrite natrX.
apply: (mulfI (n2 (if b then 8 * s else if t then w else 0)%N)); rewrite h3; clear h3 m1 m2.
case: b {eb ewd}.
  by rewrite /out_byte !fsE (slice_sumE _ _ hps) vps opprB addrC subrK.
have hb : (w <= size ps)%N by rewrite sps; lia.
rewrite -{1}(cat_take_drop w ps) bits_nat_cat size_takel // natrD natrM -nx.
case: t {et}.
  by rewrite /out_word1 (slice_sumE _ _ hps) drop0 addrAC subrr add0r.
by rewrite /out_word0 !fsE (slice_sumE _ _ hps) -sps take_size addrK expr0 mul1r.
Qed.

(** ** Changing the stored byte *)
Lemma byte_contents x prev ps cs s : is_word x prev ps -> size cs = 8%N -> (8 * s.+1 <= size ps)%N ->
  2%:R ^+ (8 * s) * (bits_nat cs)%:R =
  (bits_nat (take (8 * s) ps ++ cs ++ drop (8 * s.+1) ps))%:R - formal_sum (out_byte F prev s) x.
Proof.
move=> [hps vps] sc hb.
have nx k : (2%:R : F) ^+ k = (2 ^ k)%:R by rewrite natrX.
rewrite /out_byte !fsE (slice_sumE _ _ hps) vps.
have -> : bits_nat ps = bits_nat (take (8 * s) ps ++ drop (8 * s) (take (8 * s.+1) ps) ++ drop (8 * s.+1) ps).
  rewrite catA; congr bits_nat; rewrite -{1}(cat_take_drop (8 * s.+1) ps); congr (_ ++ _).
  by rewrite -{1}(cat_take_drop (8 * s) (take (8 * s.+1) ps)) take_take //; lia.
have st : size (take (8 * s) ps) = (8 * s)%N by rewrite size_takel //; lia.
have sm : size (drop (8 * s) (take (8 * s.+1) ps)) = 8%N by rewrite size_drop size_takel //; lia.
rewrite !bits_nat_cat st sm sc nx; move: (2 ^ (8 * s))%N (2 ^ 8)%N => K L; rewrite !(natrD, natrM).
move: (bits_nat cs)%:R (bits_nat (take _ ps))%:R (bits_nat (drop _ (take _ ps)))%:R (bits_nat (drop _ ps))%:R => a1 a2 a3 a4.
by fring F.
Qed.

Lemma set_vars x (vs : seq nat) (vals : seq F) : uniq vs -> all (fun v => 0 < v <= size x)%N vs -> size vals = size vs ->
  exists x', changes_only vs x x' /\ map (xval x') vs = vals.
Proof.
elim: vs vals => [|v vs IH] [|a vals] //=; first by exists x; split=> //; split.
case/andP=> hv hu /andP [hr ha] [hs]; have [x' [c1 c2]] := IH vals hu ha hs.
have sx : size x' = size x by case: c1.
have hr' : (0 < v <= size x')%N by rewrite sx.
have hle : (v <= size x')%N by case/andP: hr'.
exists (put x' v a); split.
  apply: (changes_trans_in _ _ c1 (changes_put a hle)) => u; rewrite !inE => h; first by rewrite h orbT.
  by rewrite h.
rewrite (xval_put_eq _ hr'); congr cons; rewrite -c2; apply/eq_in_map => u hu'.
by apply: xval_put_neq => //; apply/negP => /eqP e; rewrite -e hu' in hv.
Qed.

Definition unaffected (m : seq nat) (cs : seq (r1cs_constraint F)) : bool :=
  all (fun c => [&& avoids m (c_a c), avoids m (c_b c) & avoids m (c_c c)]) cs.
Lemma unaffected_holds m cs x x' : changes_only m x x' -> unaffected m cs -> holds cs x -> holds cs x'.
Proof.
move=> hc; elim: cs => [|c cs IH]; first by rewrite !holds_nil.
rewrite /unaffected /= -/(unaffected m cs) => /andP [/and3P [h1 h2 h3] h4] /holds_cons [h5 h6].
apply/holds_cons; split; last exact: IH.
by move: h5; rewrite /constraint_holds !(changes_fs hc).
Qed.

Theorem store_any_byte pb w n sl prev sub c wd by_ next g pb' (rest : seq (r1cs_constraint F)) ind results desval x s ps cs :
  let m := c :: dv_packed next :: take 8 (dv_bits desval) ++ dv_bits next in
  pb_wf pb -> mask_new pb w n prev sub (plc_of_var F c) wd by_ next = Ok (g, pb') -> w = (8 * n)%N -> (2 * n <= fp_order R)%N ->
  is_word x prev ps -> size ps = (2 * w)%N -> (s < 2 * n)%N -> xval x (dv_packed sub) = s%:R ->
  (8 <= size (dv_bits desval))%N -> size (dv_bits next) = (2 * w)%N ->
  uniq m -> all (fun v => 0 < v <= size x)%N m ->
  lval x by_ = 1 -> lval x wd = 0 -> isbit (xval x (sub_top sl g)) ->
  [/\ xval x (nth 0%N ind 26) = 1, xval x (nth 0%N ind 27) = 0, xval x (nth 0%N ind 28) = 0 & xval x (nth 0%N ind 29) = 0] ->
  [/\ nth 0%N ind 26 \notin m, nth 0%N ind 27 \notin m, nth 0%N ind 28 \notin m & nth 0%N ind 29 \notin m] ->
  avoids m (lc_terms (mm_shift g)) -> mm_masked g \notin m ->
  unaffected m (rest ++ mask_indicators n sl g ++ inner_product_constraints (mm_ip g)) ->
  holds ((rest ++ mask_indicators n sl g ++ inner_product_constraints (mm_ip g)) ++ cpu_store_constraints ind results desval c g) x ->
  size cs = 8%N ->
  exists x', [/\ changes_only m x x',
    holds ((rest ++ mask_indicators n sl g ++ inner_product_constraints (mm_ip g)) ++ cpu_store_constraints ind results desval c g) x' &
    is_word x' next (take (8 * s) ps ++ cs ++ drop (8 * s.+1) ps)].
Proof.
move=> m hw hg ew hn hprev sps hsn es hd hnx hu hr eb ewd ht [i26 i27 i28 i29] [j26 j27 j28 j29] hsh hmk hun hh sc.
have [hs [e1 e2 e3 e4 [e5 e6]]] := mask_new_spec x hw hg.
set all_ := rest ++ _ in hun hh *.
move/holds_cat: hh => [h1 _].
have [h2 [h3 h4]] : holds rest x /\ holds (mask_indicators n sl g) x /\ holds (inner_product_constraints (mm_ip g)) x.
  by move: h1; rewrite /all_ 2!holds_cat.
set nb := take (8 * s) ps ++ cs ++ drop (8 * s.+1) ps.
have hb : (8 * s.+1 <= size ps)%N by rewrite sps ew; lia.
have snb : size nb = (2 * w)%N by rewrite /nb !size_cat sc size_drop size_takel ?sps; lia.
pose vals : seq F := (bits_nat cs)%:R :: (bits_nat nb)%:R :: [seq (nat_of_bool b)%:R | b <- cs ++ nb].
have sv : size vals = size m.
  by rewrite /vals /m /= size_map 2!size_cat sc snb hnx size_takel.
have [x' [hc hx']] := set_vars hu hr sv.
have [vc vp vbits] : [/\ xval x' c = (bits_nat cs)%:R, xval x' (dv_packed next) = (bits_nat nb)%:R &
    bits_are x' (take 8 (dv_bits desval) ++ dv_bits next) (cs ++ nb)].
  by case: hx'.
have [vd vn] := bits_catP vbits.
have s8 : size (take 8 (dv_bits desval)) = 8%N by rewrite size_takel.
rewrite s8 -sc take_size_cat // sc in vd; rewrite s8 -sc drop_size_cat // in vn.
have [t et] : exists t, xval x (sub_top sl g) = bit t.
  by case/orP: ht => /eqP ->; [exists false|exists true].
rewrite -e2 in es; rewrite -e5 in eb; rewrite -e4 in ewd.
have [m1 m2] := masked_sound (b := true) (t := t) hs hn hsn es et eb ewd h3 h4.
exists x'; split=> //.
have same v : v \notin m -> xval x' v = xval x v by case: hc => _; apply.
apply/holds_cat; split; first exact: unaffected_holds hc hun h1.
rewrite /cpu_store_constraints 4!holds_cat e6 e1; split; [|split; [|split; [|split]]].
- by apply/(pv_true_iff (dv_packed next) vn).
- by apply/(pv_false (dv_packed next) vn).
- apply/holds1; rewrite /mask_difference /constraint_holds [c_a _]/= [c_b _]/= [c_c _]/= !fsE (changes_fs hc hsh).
  rewrite -/(lval x (mm_shift g)) m2 e3 -/(lval x' (plc_of_var F c)) lval_var vc e6 vp (same _ hmk) m1 e1.
  exact: byte_contents hprev sc hb.
- rewrite /handle_memory 3!holds_cons holds1 /constraint_holds; cbn [c_a c_b c_c].
  have e8 : formal_sum (slice_sum F 0 8 (dv_bits desval)) x' = (bits_nat cs)%:R.
    by rewrite /slice_sum packing_sumE lval_vars /slice drop0 (pack_are vd).
  by rewrite !fsE e8 vc !(same (nth 0%N ind _)) // i26 i27 i28 i29 !mul0r subrr mulr0.
- by apply/holds1; rewrite /keep_memory /constraint_holds [c_a _]/= [c_b _]/= [c_c _]/= !fsE !(same (nth 0%N ind _)) // i26 i28 addr0 subrr mul0r.
Qed.
End Facts.
