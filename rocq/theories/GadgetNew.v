(** What the constructors of gadgets allocate, and how statements about value
    vectors become statements about protoboards. *)
From mathcomp Require Import all_ssreflect all_algebra zify.
From Verif Require Import Outcome Lincomb LincombSpec LincombFacts R1CS R1CSSpec R1CSFacts Fieldtac.
From Verif Require Import Protoboard GadgetSpec GadgetLogic BasicGadgets BasicGadgetsFacts BasicGadgetsMore BasicGadgetsCopy.
Set Implicit Arguments.
Unset Strict Implicit.
Unset Printing Implicit Defensive.
Local Open Scope ring_scope.
Import GRing.Theory.

Section New.
Variable F : fieldType.
Implicit Types (x k : seq F) (pb : protoboard F) (slot : nat -> linear_combination F).

Lemma allocates_refl pb : pb_wf pb -> allocates pb pb.
Proof. by move=> h; split=> //; exists [::]; rewrite cats0. Qed.
Lemma allocates_trans pb1 pb2 pb3 : allocates pb1 pb2 -> allocates pb2 pb3 -> allocates pb1 pb3.
Proof.
move=> [w1 [z1 e1] [y1 f1] [c1 n1]] [w2 [z2 e2] [y2 f2] [c2 n2]]; split=> //.
- by exists (z1 ++ z2); rewrite e2 e1 catA.
- by exists (y1 ++ y2); rewrite f2 f1 catA.
- by rewrite c2 c1 n2 n1.
Qed.
Lemma allocates_size pb pb' : allocates pb pb' -> (size (pb_values pb) <= size (pb_values pb'))%N.
Proof. by case=> _ [z ->] _ _; rewrite size_cat leq_addr. Qed.
Lemma allocates_ksize pb pb' : allocates pb pb' -> (size (pb_lc_values pb) <= size (pb_lc_values pb'))%N.
Proof. by case=> _ _ [z ->] _; rewrite size_cat leq_addr. Qed.
Lemma allocates_wf pb pb' : allocates pb pb' -> pb_wf pb'.
Proof. by case. Qed.

Lemma allocate_var_new pb v pb' : pb_wf pb -> allocate_var pb = (v, pb') ->
  [/\ allocates pb pb', v = (size (pb_values pb)).+1 & size (pb_values pb') = (size (pb_values pb)).+1].
Proof.
move=> hw e; have [h1 h2 h3 h4 h5] := allocate_var_wf hw e; split=> //; last by rewrite h2 size_rcons.
split=> //.
- by exists [:: 0]; rewrite h2 cats1.
- by exists [::]; rewrite h3 cats0.
- by split=> //; case: e => _ <-.
Qed.
Lemma allocate_array_inputs pb n vs pb' : allocate_array pb n = (vs, pb') -> pb_num_inputs pb' = pb_num_inputs pb.
Proof.
elim: n pb vs pb' => [|n IH] pb vs pb'; first by case=> _ <-.
rewrite allocate_arrayS; case e1: (allocate_var pb) => [v pb1]; case e2: (allocate_array pb1 n) => [vs1 pb2] [_ <-].
by rewrite (IH _ _ _ e2); case: e1 => _ <-.
Qed.
Lemma allocate_array_new pb n vs pb' : pb_wf pb -> allocate_array pb n = (vs, pb') ->
  [/\ allocates pb pb', vs = iota (size (pb_values pb)).+1 n & size (pb_values pb') = (size (pb_values pb) + n)%N].
Proof.
move=> hw e; have [h1 h2 h3 h4 h5] := allocate_array_wf hw e; split=> //; last by rewrite h2 size_cat size_nseq.
split=> //.
- by eexists; exact: h2.
- by exists [::]; rewrite h3 cats0.
- by split=> //; apply: allocate_array_inputs e.
Qed.
Lemma lc_assign_new pb (l : linear_combination F) o pb' : pb_wf pb -> lc_assign pb l = (o, pb') ->
  [/\ allocates pb pb', o = PbLc false (size (pb_lc_values pb)) l &
      size (pb_values pb') = size (pb_values pb) /\ size (pb_lc_values pb') = (size (pb_lc_values pb)).+1].
Proof.
move=> hw e; have [h1 h2 h3 h4 h5] := lc_assign_wf hw e; split=> //; last by rewrite h2 h3 size_rcons.
split=> //.
- by exists [::]; rewrite h2 cats0.
- by exists [:: 0]; rewrite h3 cats1.
- by split=> //; case: e => _ <-.
Qed.

(** From values to protoboards. *)
Lemma board_of pb : pb_wf pb -> upd pb (pb_values pb) (pb_lc_values pb) = pb.
Proof. by case=> h _ _ _; apply: upd_id. Qed.
Lemma assigns_upd slot m pb x' k' : pb_wf pb ->
  wstep slot m (pb_values pb) (pb_lc_values pb) x' k' -> assigns m pb (upd pb x' k').
Proof.
move=> [h1 h2 h3 h4] w; have s1 := wstep_size w; have s2 := wstep_ksize w.
split=> //; last exact: wstep_changes_only w.
by split=> //=; rewrite ?s1 ?s2.
Qed.
Lemma assigns_sub m1 m2 pb pb' : {subset m1 <= m2} -> assigns m1 pb pb' -> assigns m2 pb pb'.
Proof. by move=> hs [h1 h2 h3 h4]; split=> //; apply: changes_sub h4. Qed.

Lemma mem_fresh pb pb' v : allocates pb pb' ->
  (v \in fresh_vars pb pb') = (size (pb_values pb) < v <= size (pb_values pb'))%N.
Proof. by move/allocates_size => h; rewrite mem_iota; lia. Qed.
Lemma fresh_uniq pb pb' : uniq (fresh_vars pb pb').
Proof. exact: iota_uniq. Qed.
Lemma fresh_cat pb1 pb2 pb3 : allocates pb1 pb2 -> allocates pb2 pb3 ->
  fresh_vars pb1 pb3 = fresh_vars pb1 pb2 ++ fresh_vars pb2 pb3.
Proof.
move=> /allocates_size h1 /allocates_size h2; rewrite /fresh_vars.
have -> : (size (pb_values pb3) - size (pb_values pb1) =
  (size (pb_values pb2) - size (pb_values pb1)) + (size (pb_values pb3) - size (pb_values pb2)))%N by lia.
by rewrite iotaD; congr (_ ++ iota _ _); lia.
Qed.

(** Which variables a gadget may overwrite: fresh ones and some of [pb]. *)
Lemma assignable_fresh pb pb' outs n : allocates pb pb' -> (size (pb_values pb') <= n)%N ->
  uniq outs -> all (is_var pb) outs -> assignable n (outs ++ fresh_vars pb pb').
Proof.
move=> ha hn hu hv; have hs := allocates_size ha; split.
  rewrite cat_uniq hu fresh_uniq andbT /=; apply/hasPn => v; rewrite mem_fresh // => hf.
  by apply/negP => /(allP hv); rewrite /is_var; lia.
rewrite all_cat; apply/andP; split; apply/allP => v.
  by move/(allP hv); rewrite /is_var; lia.
by rewrite mem_fresh //; lia.
Qed.
Lemma assignable_perm n a b : perm_eq a b -> assignable n a -> assignable n b.
Proof. by move=> h [h1 h2]; split; [rewrite -(perm_uniq h)|rewrite -(perm_all _ h)]. Qed.

Lemma avoids_fresh pb pb' (l : linear_combination F) : allocates pb pb' ->
  in_range (size (pb_values pb)) l -> avoids (fresh_vars pb pb') l.
Proof. by move=> ha hl; apply: avoids_in_range hl _ => v; rewrite mem_fresh // => /andP []. Qed.
Lemma avoids_outs pb pb' outs (l : linear_combination F) : allocates pb pb' ->
  in_range (size (pb_values pb)) l -> avoids outs l -> avoids (outs ++ fresh_vars pb pb') l.
Proof. by move=> ha hl ho; rewrite avoids_mem ho avoids_fresh. Qed.

(** * Constructors *)
Local Opaque allocate_var allocate_array.
Lemma oassert_Ok (A : Type) b (e : outcome A) a : (assert! b in e) = Ok a -> b /\ e = Ok a.
Proof. by rewrite /oassert; case: b. Qed.

Lemma disjunction_new_spec pb inputs output g pb' : pb_wf pb ->
  disjunction_new pb inputs output = Ok (g, pb') ->
  [/\ (0 < size inputs)%N, allocates pb pb', dj_inputs g = inputs, dj_output g = output &
      fresh_vars pb pb' = [:: dj_inv g]].
Proof.
move=> hw; rewrite /disjunction_new; case hs: (1 <= size inputs)%N; last by [].
cbn [obind oassert].
case e: (allocate_var pb) => [v pb1] [<- <-].
have [h1 h2 h3] := allocate_var_new hw e; split=> //.
by rewrite /fresh_vars h3 subSnn h2.
Qed.
Lemma conjunction_new_spec pb inputs output g pb' : pb_wf pb ->
  conjunction_new pb inputs output = Ok (g, pb') ->
  [/\ (0 < size inputs)%N, allocates pb pb', cj_inputs g = inputs, cj_output g = output &
      fresh_vars pb pb' = [:: cj_inv g]].
Proof.
move=> hw; rewrite /conjunction_new; case hs: (1 <= size inputs)%N; last by [].
cbn [obind oassert].
case e: (allocate_var pb) => [v pb1] [<- <-].
have [h1 h2 h3] := allocate_var_new hw e; split=> //.
by rewrite /fresh_vars h3 subSnn h2.
Qed.

Lemma comparison_new_spec pb n A B less le g pb' : pb_wf pb ->
  comparison_new pb n A B less le = Ok (g, pb') ->
  exists a0, [/\ allocates pb pb', cm_shape g a0, (0 < n)%N,
    [/\ cm_n g = n, cm_A g = A, cm_B g = B, cm_less g = less & cm_less_or_eq g = le] &
    perm_eq (cm_mods g a0) ([:: less; le] ++ fresh_vars pb pb')].
Proof.
move=> hw; rewrite /comparison_new.
case e1: (allocate_array pb n) => [a0 pb1]; have [h1 ea s1] := allocate_array_new hw e1.
case e2: (allocate_var pb1) => [ap pb2]; have [h2 eap s2] := allocate_var_new (allocates_wf h1) e2.
case e3: (allocate_var pb2) => [nz pb3]; have [h3 enz s3] := allocate_var_new (allocates_wf h2) e3.
case e4: (disjunction_new pb3 _ _) => [[d pb4]| |] //= [<- <-].
have [h4 h5 h6 h7 h8] := disjunction_new_spec (allocates_wf h3) e4.
have sz : size a0 = n by rewrite ea size_iota.
have tk : take n (rcons a0 le) = a0 by rewrite -cats1 take_cat sz ltnn subnn take0 cats0.
rewrite tk in h4 h6; exists a0; split=> //.
- exact: allocates_trans h1 (allocates_trans h2 (allocates_trans h3 h5)).
- by rewrite -sz.
rewrite /cm_mods /= (fresh_cat h1 (allocates_trans h2 (allocates_trans h3 h5))).
rewrite (fresh_cat h2 (allocates_trans h3 h5)) (fresh_cat h3 h5) h8.
have -> : fresh_vars pb pb1 = a0 by rewrite /fresh_vars s1 addKn ea.
have -> : fresh_vars pb1 pb2 = [:: ap] by rewrite /fresh_vars s2 subSnn eap.
have -> : fresh_vars pb2 pb3 = [:: nz] by rewrite /fresh_vars s3 subSnn enz.
apply/permP => p; rewrite /= !count_cat -cats1 count_cat /=; lia.
Qed.

Lemma inner_product_new_spec pb A B result g pb' : pb_wf pb ->
  inner_product_new pb A B result = Ok (g, pb') ->
  [/\ allocates pb pb', ip_shape g, [/\ ip_A g = A, ip_B g = B & ip_result g = result] &
      ip_S g = fresh_vars pb pb'].
Proof.
move=> hw; rewrite /inner_product_new; case h0: (1 <= size A)%N; last by [].
cbn [obind oassert]; case: eqP => [hs|]; last by []. cbn [obind oassert].
case e: (allocate_array pb _) => [ss pb1]; have [h1 h2 h3] := allocate_array_new hw e.
case=> <- <-; split=> //; first by split=> //=; rewrite h2 size_iota.
by rewrite /fresh_vars h3 addKn /= h2.
Qed.

Lemma loose_mux_new_spec pb arr index result success g pb' : pb_wf pb ->
  loose_mux_new pb arr index result success = Ok (g, pb') ->
  [/\ allocates pb pb', lm_shape g,
      [/\ lm_arr g = arr, lm_index g = index, lm_result g = result & lm_success g = success] &
      perm_eq (lm_mods g) ([:: result; success] ++ fresh_vars pb pb')].
Proof.
move=> hw; rewrite /loose_mux_new.
case e: (allocate_array pb _) => [al pb1]; have [h1 h2 h3] := allocate_array_new hw e.
case e1: (inner_product_new pb1 _ _ _) => [[ip pb2]| |] //= [<- <-].
have [h4 h5 [h6 h7 h8] h9] := inner_product_new_spec (allocates_wf h1) e1; split=> //.
- exact: allocates_trans h1 h4.
- by split=> //=; rewrite h2 size_iota.
rewrite /lm_mods /ip_mods /= (fresh_cat h1 h4) h9 h8.
have -> : fresh_vars pb pb1 = al by rewrite /fresh_vars h3 addKn h2.
apply/permP => p; rewrite /= !count_cat /= -cats1 count_cat /=; lia.
Qed.

Lemma bit_vector_copy_new_spec pb source target do_copy c g pb' : pb_wf pb ->
  bit_vector_copy_new pb source target do_copy c = Ok (g, pb') ->
  [/\ allocates pb pb', bc_shape g c,
      [/\ bc_source g = source, bc_target g = target & bc_do_copy g = do_copy] &
      bc_mods g = target ++ fresh_vars pb pb'].
Proof.
move=> hw; rewrite /bit_vector_copy_new; case: (posnP c) => [->//|hc].
case: eqP => [hs|]; last by []. cbn [obind oassert].
case e1: (allocate_array pb _) => [ps pb1]; have [h1 ep s1] := allocate_array_new hw e1.
case e2: (multipacking_new _ _ c) => [gs| |] //=.
case e3: (allocate_array pb1 _) => [pt pb2]; have [h2 et s2] := allocate_array_new (allocates_wf h1) e3.
case e4: (multipacking_new _ _ c) => [gt| |] //=.
rewrite /field_vector_copy_new ep et !size_iota eqxx /= => -[<- <-]; split=> //.
- exact: allocates_trans h1 h2.
- by split=> //=; rewrite -?ep -?et // ep et !size_iota.
rewrite /bc_mods /= (fresh_cat h1 h2); congr (_ ++ (_ ++ _)).
  by rewrite /fresh_vars s1 addKn.
by rewrite /fresh_vars s2 addKn.
Qed.

End New.
