(** Proofs about Circuits.v. *)
From mathcomp Require Import all_ssreflect all_algebra.
From Verif Require Import Outcome Lincomb LincombSpec LincombFacts R1CS R1CSSpec R1CSFacts
  Circuits CircuitsSpec Fieldtac.
Import GRing.Theory.
Set Implicit Arguments.
Unset Strict Implicit.
Unset Printing Implicit Defensive.
Local Open Scope ring_scope.

(** * Evaluating a topologically sorted list of gates, generically *)
Section Run.
Variables (T G : Type) (d : T).
Variable eval_gate : G -> seq T -> outcome T.
Variable pure_gate : G -> seq T -> T.
Variable out : G -> nat.
(** [valid g k]: gate [g] reads only wires [0..k]. *)
Variable valid : G -> nat -> bool.
Hypothesis eval_ok : forall g w, valid g (size w) -> eval_gate g w = Ok (pure_gate g w).
Hypothesis pure_ext : forall g w v, valid g (size w) -> pure_gate g (w ++ v) = pure_gate g w.

Definition run (w : seq T) (gs : seq G) : outcome (seq T) :=
  ofold (fun r g => omap (rcons r) (eval_gate g r)) w gs.

Fixpoint gates_at (k : nat) (gs : seq G) : bool :=
  if gs is g :: gs' then [&& out g == k.+1, valid g k & gates_at k.+1 gs'] else true.

Lemma run_ok gs w : gates_at (size w) gs ->
  exists v, [/\ run w gs = Ok (w ++ v), size v = size gs &
    forall g, List.In g gs -> nth d (w ++ v) (out g).-1 = pure_gate g (w ++ v)].
Proof.
elim: gs w => [|g gs IH] w /=.
  by move=> _; exists [::]; rewrite /run /= cats0.
case/and3P=> /eqP ho hv hg.
have := IH (rcons w (pure_gate g w)); rewrite size_rcons => /(_ hg) [v [h1 h2 h3]].
exists (pure_gate g w :: v); split.
- by rewrite /run /= eval_ok //= -/(run _ _) h1 -cats1 -catA.
- by rewrite /= h2.
- move=> g' [<-|hin].
    by rewrite ho /= nth_cat ltnn subnn /= pure_ext.
  by have := h3 _ hin; rewrite -cats1 -catA.
Qed.

Lemma gates_at_out gs k g : gates_at k gs -> List.In g gs ->
  (k < out g <= k + size gs)%N.
Proof.
elim: gs k => [|g' gs IH] k //= /and3P [/eqP ho _ hg] [<-|hin].
  by rewrite ho leqnn /= addnS ltnS leq_addr.
by have := IH _ hg hin; rewrite addSnnS => /andP [h ->]; rewrite (ltnW h).
Qed.

Lemma gates_at_valid gs k g : gates_at k gs -> List.In g gs -> valid g (out g).-1.
Proof.
elim: gs k => [|g' gs IH] k //= /and3P [/eqP ho hv hg] [<-|hin]; first by rewrite ho.
exact: IH hg hin.
Qed.

Lemma run_uniq gs w v v' : gates_at (size w) gs ->
  size v = size gs -> size v' = size gs ->
  (forall g, List.In g gs -> nth d (w ++ v) (out g).-1 = pure_gate g (w ++ v)) ->
  (forall g, List.In g gs -> nth d (w ++ v') (out g).-1 = pure_gate g (w ++ v')) ->
  v = v'.
Proof.
elim: gs w v v' => [|g gs IH] w [|a v] [|a' v'] //= /and3P [/eqP ho hv hg] [h1] [h2] h3 h4.
have e : a = a'.
  have := h3 g (or_introl erefl); have := h4 g (or_introl erefl).
  by rewrite ho /= !nth_cat ltnn subnn /= !pure_ext // => -> ->.
rewrite -e in h4 *; congr cons.
apply: (IH (rcons w a)) => //; rewrite ?size_rcons //.
- by move=> g' hin; rewrite -cats1 -catA; apply: h3; right.
- by move=> g' hin; rewrite -cats1 -catA; apply: h4; right.
Qed.

(** Collecting the outputs. *)
Lemma outputs_ok (sel : G -> bool) (w : seq T) gs acc k :
  gates_at k gs -> (k + size gs <= size w)%N ->
  ofold (fun outs g => if sel g then omap (rcons outs) (wire_at w (out g)) else Ok outs) acc gs =
  Ok (acc ++ [seq nth d w (out g).-1 | g <- gs & sel g]).
Proof.
elim: gs acc k => [|g gs IH] acc k /=; first by rewrite cats0.
case/and3P=> /eqP ho hv hg hs.
case: (sel g); last by rewrite /= (IH _ k.+1) // addSnnS.
rewrite ho /= (oget_nth d) /=; last by apply: leq_trans hs; rewrite addnS ltnS leq_addr.
by rewrite (IH _ k.+1) ?addSnnS //= -cats1 -catA ho.
Qed.

End Run.

Lemma xval_cat (F : fieldType) (w v : seq F) i : (i <= size w)%N -> xval (w ++ v) i = xval w i.
Proof. by case: i => [|i] //= h; rewrite /xval /= nth_cat h. Qed.

Lemma formal_sum_ext (F : fieldType) (l : linear_combination F) (w v : seq F) :
  in_range (size w) l -> formal_sum l (w ++ v) = formal_sum l w.
Proof.
rewrite /formal_sum; elim: l => [|t l IH] /=; first by rewrite !big_nil.
by case/andP=> h1 h2; rewrite !big_cons IH // xval_cat.
Qed.

(** * BACS *)
Section Bacs.
Variable F : fieldType.
Implicit Types (c : bacs_circuit F).

Definition bg_valid (g : bacs_gate F) (k : nat) : bool :=
  in_range k (bg_lhs g) && in_range k (bg_rhs g).
Definition bg_pure (g : bacs_gate F) (w : seq F) : F :=
  formal_sum (bg_lhs g) w * formal_sum (bg_rhs g) w.

Lemma bg_eval_ok g (w : seq F) : bg_valid g (size w) -> bacs_gate_evaluate g w = Ok (bg_pure g w).
Proof. by case/andP=> h1 h2; rewrite /bacs_gate_evaluate !evaluate_ok. Qed.

Lemma bg_pure_ext g (w v : seq F) : bg_valid g (size w) -> bg_pure g (w ++ v) = bg_pure g w.
Proof. by case/andP=> h1 h2; rewrite /bg_pure !formal_sum_ext. Qed.

Lemma bacs_gates_valid_at ni i (gs : seq (bacs_gate F)) :
  bacs_gates_valid ni i gs = Ok true -> gates_at (@bg_output F) bg_valid (ni + i) gs.
Proof.
elim: gs i => [|g gs IH] i //=.
case: eqP => //= ho.
case e1: (lc_is_valid (bg_lhs g) (bg_output g)) => [[]||] //=.
case e2: (lc_is_valid (bg_rhs g) (bg_output g)) => [[]||] //= /IH hg.
rewrite -addnS hg andbT.
have hh : forall l : linear_combination F, lc_is_valid l (bg_output g) = Ok true ->
  in_range (ni + i)%N l.
  move=> [|t l] //; rewrite lc_is_validE // ho add1n addSn.
  by case=> /andP [_ h].
by rewrite /bg_valid !hh.
Qed.

Lemma bacs_wires c p a :
  bacs_is_valid c = Ok true ->
  size p = b_primary_input_size c -> size a = b_auxiliary_input_size c ->
  exists w, [/\ bacs_get_all_wires c p a = Ok w,
                bacs_consistent c (p ++ a) w &
                forall w', bacs_consistent c (p ++ a) w' -> w' = w].
Proof.
move=> hv hp ha.
have hs : size (p ++ a) = b_num_inputs c by rewrite size_cat hp ha.
have hg : gates_at (@bg_output F) bg_valid (size (p ++ a)) (b_gates c).
  by rewrite hs -[b_num_inputs c]addn0; apply: bacs_gates_valid_at.
have [v [h1 h2 h3]] := run_ok 0 bg_eval_ok bg_pure_ext hg.
have out_xval : forall (w : seq F) g, List.In g (b_gates c) ->
    xval w (bg_output g) = nth 0 w (bg_output g).-1.
  move=> w g hin; have /andP [] := gates_at_out hg hin.
  by case: (bg_output g).
exists ((p ++ a) ++ v); split.
- by rewrite /bacs_get_all_wires hp ha !eqxx /= hs eqxx.
- split; first by rewrite size_cat hs h2.
  split; first by rewrite -hs take_size_cat.
  by move=> g hin; rewrite out_xval //; apply: h3.
- move=> w' [hw1 [hw2 hw3]].
  have e : w' = (p ++ a) ++ drop (b_num_inputs c) w' by rewrite -{1}hw2 cat_take_drop.
  rewrite e; congr cat.
  apply: (run_uniq (d := 0) bg_pure_ext hg) => //.
  + by rewrite size_drop hw1 /b_num_wires addKn.
  + by move=> g hin; rewrite -e -out_xval //; apply: hw3.
Qed.

Lemma bacs_is_satisfied_iff c p a :
  bacs_is_valid c = Ok true ->
  size p = b_primary_input_size c -> size a = b_auxiliary_input_size c ->
  exists2 b, bacs_is_satisfied c p a = Ok b & b <-> bacs_accepts c (p ++ a).
Proof.
move=> hv hp ha.
have [w [h1 [h2 [h3 h4]] h5]] := bacs_wires hv hp ha.
have hg : gates_at (@bg_output F) bg_valid (b_num_inputs c) (b_gates c).
  by rewrite -[b_num_inputs c]addn0; apply: bacs_gates_valid_at.
have out_xval : forall (w : seq F) g, List.In g (b_gates c) ->
    xval w (bg_output g) = nth 0 w (bg_output g).-1.
  move=> w' g hin; have /andP [] := gates_at_out hg hin.
  by case: (bg_output g).
exists (all (fun o => o == 0) [seq nth 0 w (bg_output g).-1 | g <- b_gates c & bg_is_circuit_output g]).
  rewrite /bacs_is_satisfied /bacs_get_all_outputs h1 /=.
  by rewrite (outputs_ok 0 _ _ hg) ?h2.
rewrite all_map all_filter; split.
- move/all_InP => h; exists w => //.
  move=> g hin ho; have /implyP /(_ ho) /eqP := h g hin.
  by rewrite out_xval.
- case=> w' hw' hz; apply/all_InP => g hin; apply/implyP => ho.
  have e := h5 w' hw'; subst w'.
  by rewrite /= -out_xval //; apply/eqP; apply: hz.
Qed.

Lemma bacs_instance c : bacs_is_valid c = Ok true ->
  exists2 cs, bacs_to_r1cs_instance_map c = Ok cs &
  [/\ num_inputs cs = b_primary_input_size c,
      auxiliary_input_size cs = (b_auxiliary_input_size c + b_num_gates c)%N,
      r1cs_in_range cs &
      forall w, r1cs_holds cs w <->
        (forall g, List.In g (b_gates c) ->
           xval w (bg_output g) = formal_sum (bg_lhs g) w * formal_sum (bg_rhs g) w) /\
        (forall g, List.In g (b_gates c) -> bg_is_circuit_output g -> xval w (bg_output g) = 0)].
Proof.
move=> hv; rewrite /bacs_to_r1cs_instance_map hv /=; eexists; first by [].
have hg : gates_at (@bg_output F) bg_valid (b_num_inputs c) (b_gates c).
  by rewrite -[b_num_inputs c]addn0; apply: bacs_gates_valid_at.
split=> //.
- rewrite /r1cs_in_range /num_variables /= addnA all_cat !all_map.
  have sub : forall g, List.In g (b_gates c) ->
    [&& in_range (b_num_wires c) (bg_lhs g), in_range (b_num_wires c) (bg_rhs g) &
        (bg_output g <= b_num_wires c)%N].
    move=> g hin; have /andP [h1 h2] := gates_at_out hg hin.
    have /andP [h3 h4] := gates_at_valid hg hin.
    have le : ((bg_output g).-1 <= b_num_wires c)%N by apply: leq_trans (leq_pred _) h2.
    apply/and3P; split=> //.
      by move: h3; apply: sub_all => t ht; apply: leq_trans ht le.
    by move: h4; apply: sub_all => t ht; apply: leq_trans ht le.
  apply/andP; split.
    apply/all_InP => g /sub /and3P [h1 h2 h3].
    by rewrite /= /constraint_in_range /= h1 h2 /in_range /= h3.
  rewrite all_filter; apply/all_InP => g /sub /and3P [_ _ h3].
  by apply/implyP => _; rewrite /= /constraint_in_range /in_range /= h3.
- have outc : forall (w : seq F) (g : bacs_gate F), constraint_holds (R1csConstraint (lc_of_int F 1) (lc_of_var F (bg_output g)) (lc_of_int F 0)) w <-> xval w (bg_output g) = 0.
    by move=> w g; rewrite /constraint_holds /= !formal_sum_int formal_sum_var mul1r.
  have In_filter : forall (A : Type) (p : A -> bool) (l : seq A) x,
    List.In x (filter p l) <-> List.In x l /\ p x.
    move=> A p; elim=> [|y l IH] x /=; first by split=> [|[]].
    case hp: (p y) => /=; rewrite IH; split.
    + by move=> [<-|[? ?]]; split=> //; [left|right].
    + by move=> [[->|?] ?]; [left|right].
    + by move=> [? ?]; split=> //; right.
    + by move=> [[e|?] h] //; rewrite -e hp in h.
  move=> w; split.
  + move=> h; split.
    * move=> g hin; have := h (R1csConstraint (bg_lhs g) (bg_rhs g) (lc_of_var F (bg_output g))).
      rewrite /= /constraint_holds /= formal_sum_var => <- //.
      by apply: List.in_or_app; left; apply/In_map; exists g.
    * move=> g hin ho; apply/outc; apply: h => /=.
      by apply: List.in_or_app; right; apply/In_map; exists g => //; apply/In_filter.
  + move=> [h1 h2] k /= hk; case: (List.in_app_or _ _ _ hk) => /In_map [g hin ->].
    * by rewrite /constraint_holds /= formal_sum_var h1.
    * by move/In_filter: hin => [hin ho]; apply/outc; apply: h2.
Qed.

(** Completeness and soundness of the reduction. *)
Lemma bacs_to_r1cs_complete c p a :
  bacs_is_valid c = Ok true ->
  size p = b_primary_input_size c -> size a = b_auxiliary_input_size c ->
  exists cs w b,
    [/\ bacs_to_r1cs_instance_map c = Ok cs,
        bacs_to_r1cs_witness_map c p a = Ok w,
        take (num_inputs cs) w = p,
        bacs_is_satisfied c p a = Ok b &
        r1cs_is_satisfied cs p (drop (num_inputs cs) w) = Ok b].
Proof.
move=> hv hp ha.
have [cs hcs [k1 k2 k3 k4]] := bacs_instance hv.
have [w [h1 h2 h5]] := bacs_wires hv hp ha.
have [b hb1 hb2] := bacs_is_satisfied_iff hv hp ha.
exists cs, w, b; case: (h2) => h21 [h22 h23].
have wE : w = p ++ drop (num_inputs cs) w.
  rewrite -{1}(cat_take_drop (num_inputs cs) w); congr cat.
  have : take (num_inputs cs) (take (b_num_inputs c) w) = take (num_inputs cs) (p ++ a) by rewrite h22.
  rewrite take_take; last by rewrite k1 leq_addr.
  by move=> ->; rewrite k1 -hp take_size_cat.
have tE : take (num_inputs cs) w = p by rewrite wE k1 -hp take_size_cat.
split=> //.
have hpn : size p = num_inputs cs by rewrite k1.
have han : size (drop (num_inputs cs) w) = auxiliary_input_size cs.
  by rewrite size_drop h21 k2 k1 /b_num_wires /b_num_inputs -addnA addKn.
have [b' hb' hb2'] := r1cs_is_satisfied_iff k3 hpn han.
rewrite hb'; congr Ok; rewrite -wE in hb2'.
have : r1cs_holds cs w <-> bacs_accepts c (p ++ a).
  split.
    by move/k4 => [_ hz]; exists w.
  case=> w' hw' hz; have e := h5 w' hw'; subst w'.
  by apply/k4; split=> //; case: hw' => _ [].
case: b b' hb2 hb2' {hb1 hb'} => [] [] //= [q1 q2] [q3 q4] [q5 q6].
  by have := q4 (q6 (q1 isT)).
by have := q2 (q5 (q3 isT)).
Qed.

Lemma bacs_to_r1cs_sound c cs p aux :
  bacs_to_r1cs_instance_map c = Ok cs ->
  r1cs_is_satisfied cs p aux = Ok true ->
  let a := take (b_auxiliary_input_size c) aux in
  bacs_is_satisfied c p a = Ok true /\
  bacs_to_r1cs_witness_map c p a = Ok (p ++ aux).
Proof.
rewrite /bacs_to_r1cs_instance_map => hcs.
have hv : bacs_is_valid c = Ok true.
  by move: hcs; case: (bacs_is_valid c) => [[]||].
have [cs' hcs' [k1 k2 k3 k4]] := bacs_instance hv.
have e : cs' = cs by move: hcs'; rewrite /bacs_to_r1cs_instance_map hcs => -[].
subst cs'; move/r1cs_is_satisfied_true => [hp haux _ hh] /=; set a := take _ _.
have ha : size a = b_auxiliary_input_size c.
  by rewrite size_takel // haux k2 leq_addr.
rewrite k1 in hp.
have [w [h1 h2 h5]] := bacs_wires hv hp ha.
have [b hb1 hb2] := bacs_is_satisfied_iff hv hp ha.
case/k4: hh => hh1 hh2.
have hcons : bacs_consistent c (p ++ a) (p ++ aux).
  split; first by rewrite size_cat hp haux k2 addnA.
  split=> //; rewrite /b_num_inputs take_cat hp ltnNge leq_addr /= addKn.
  by [].
have e := h5 _ hcons.
split; last by rewrite /bacs_to_r1cs_witness_map h1 e.
rewrite hb1; congr Ok; apply/hb2.
by exists (p ++ aux).
Qed.

End Bacs.

(** * TBCS *)
Lemma gate_tableE type X Y : (type < 16)%N -> gate_table type X Y = gate_function type X Y.
Proof.
move=> h.
have : all (fun t => [&& gate_table t true true == gate_function t true true,
                         gate_table t true false == gate_function t true false,
                         gate_table t false true == gate_function t false true &
                         gate_table t false false == gate_function t false false]) (iota 0 16).
  by vm_compute.
move/allP => /(_ type); rewrite mem_iota h => /(_ isT) /and4P [/eqP h1 /eqP h2 /eqP h3 /eqP h4].
by case: X; case: Y.
Qed.

(** The integer coefficients of the constraint of each gate type. *)
Definition gate_coeffs (type : nat) : int * int * int * int :=
  match type with
  | 0 => (0, 0, 1, 1)
  | 1 => (- 2%:Z, - 2%:Z, 4, 1)
  | 2 => (- 2%:Z, 2, 4, - 1%:Z)
  | 3 => (- 1%:Z, 0, 1, 1)
  | 4 => (2, - 2%:Z, 4, - 1%:Z)
  | 5 => (0, 1, 1, - 1%:Z)
  | 6 => (1, 1, 1, - 1%:Z)
  | 7 => (- 2%:Z, - 2%:Z, 4, - 1%:Z)
  | 8 => (2, 2, 4, - 3%:Z)
  | 9 => (1, 1, 1, - 2%:Z)
  | 10 => (0, - 1%:Z, 1, 0)
  | 11 => (- 2%:Z, 2, 4, - 3%:Z)
  | 12 => (- 1%:Z, 0, 1, 0)
  | 13 => (2, - 2%:Z, 4, - 3%:Z)
  | 14 => (2, 2, 4, - 5%:Z)
  | _ => (0, 0, 1, 0)
  end.

Definition gate_int (type : nat) (x y z : int) : int :=
  let: (a, b, c, d) := gate_coeffs type in a * x + b * y + c * z + d.

Definition b2i (b : bool) : int := if b then 1 else 0.

(** Everything that has to be known about the coefficients, by computation
    over the 16 gate types and 4 input pairs. *)
Definition bad_values : seq int := [:: - 1%:Z; 3; 8; 15; 24; 120; 168].

Definition gate_check (t : nat) (X Y : bool) : bool :=
  let v z := gate_int t (b2i X) (b2i Y) z in
  let f := gate_function t X Y in
  [&& (v (b2i f)) * (v (b2i f)) == 1,
      (v (b2i (~~ f))) * (v (b2i (~~ f))) - 1 \in bad_values &
      f ==> ((v 0 * v 0 - 1 \in bad_values) && (v (- 2%:Z) * v (- 2%:Z) - 1 \in bad_values))].

Lemma gate_checks t X Y : (t < 16)%N -> gate_check t X Y.
Proof.
move=> h.
have : all (fun t => [&& gate_check t true true, gate_check t true false,
                         gate_check t false true & gate_check t false false]) (iota 0 16).
  by vm_compute.
move/allP => /(_ t); rewrite mem_iota h => /(_ isT) /and4P [h1 h2 h3 h4].
by case: X; case: Y.
Qed.

Section Tbcs.
Variable F : fieldType.
Add Field Ff : (Fth F).
Implicit Types (c : tbcs_circuit).

Definition b2f (b : bool) : F := (nat_of_bool b)%:R.

Lemma b2f_int b : b2f b = (b2i b)%:~R.
Proof. by case: b. Qed.

Lemma b2f_inj : injective b2f.
Proof.
move=> [] [] //= /eqP; rewrite /b2f /= ?mulr0n ?mulr1n ?oner_eq0 //.
by rewrite eq_sym oner_eq0.
Qed.

Lemma formal_sum_gate_lc a b k d x y z (w : seq F) :
  formal_sum (gate_lc F a b k d x y z) w =
  a%:~R * xval w x + b%:~R * xval w y + k%:~R * xval w z + d%:~R.
Proof. by rewrite /gate_lc /lt_add_lc !formal_sum_add formal_sum_int !formal_sum_term. Qed.

Lemma in_range_gate_lc n a b k d x y z :
  in_range n (gate_lc F a b k d x y z) = [&& x <= n, y <= n & z <= n]%N.
Proof.
rewrite /gate_lc /lt_add_lc !in_range_add /in_range /= !andbT.
by rewrite -andbA.
Qed.

Lemma tbcs_gate_constraintE g : (tg_type g < 16)%N ->
  let: (a, b, k, d) := gate_coeffs (tg_type g) in
  tbcs_gate_constraint F g = Ok (gate_lc F a b k d (tg_left g) (tg_right g) (tg_output g)).
Proof. by rewrite /tbcs_gate_constraint; move: (tg_type g); do 16 (case=> //). Qed.

Lemma tbcs_gate_constraint_type g l : tbcs_gate_constraint F g = Ok l -> (tg_type g < 16)%N.
Proof. by rewrite /tbcs_gate_constraint; move: (tg_type g); do 16 (case=> //). Qed.

Definition the_gate_lc (g : tbcs_gate) : linear_combination F :=
  let: (a, b, k, d) := gate_coeffs (tg_type g) in
  gate_lc F a b k d (tg_left g) (tg_right g) (tg_output g).

Lemma the_gate_lcE g : (tg_type g < 16)%N -> tbcs_gate_constraint F g = Ok (the_gate_lc g).
Proof.
move=> /tbcs_gate_constraintE; rewrite /the_gate_lc.
by case: (gate_coeffs _) => [[[? ?] ?] ?].
Qed.

Lemma the_gate_lc_sum g (w : seq F) X Y Z :
  xval w (tg_left g) = b2f X -> xval w (tg_right g) = b2f Y ->
  xval w (tg_output g) = Z%:~R ->
  formal_sum (the_gate_lc g) w = (gate_int (tg_type g) (b2i X) (b2i Y) Z)%:~R.
Proof.
move=> hx hy hz; rewrite /the_gate_lc /gate_int.
case: (gate_coeffs _) => [[[a b] k] d].
by rewrite formal_sum_gate_lc hx hy hz !b2f_int !rmorphD /= !rmorphM.
Qed.

(** ** Evaluation of boolean circuits *)

Definition tg_valid (g : tbcs_gate) (k : nat) : bool := (tg_left g <= k)%N && (tg_right g <= k)%N.
Definition tg_pure (g : tbcs_gate) (w : seq bool) : bool :=
  gate_table (tg_type g) (bval w (tg_left g)) (bval w (tg_right g)).

Lemma tbcs_readE (w : seq bool) i : (i <= size w)%N -> tbcs_read w i = Ok (bval w i).
Proof. by case: i => //= i h; rewrite (oget_nth false). Qed.

Lemma bval_cat (w v : seq bool) i : (i <= size w)%N -> bval (w ++ v) i = bval w i.
Proof. by case: i => [|i] //= h; rewrite /bval /= nth_cat h. Qed.

Lemma tg_eval_ok g w : tg_valid g (size w) -> tbcs_gate_evaluate g w = Ok (tg_pure g w).
Proof. by case/andP=> h1 h2; rewrite /tbcs_gate_evaluate !tbcs_readE. Qed.

Lemma tg_pure_ext g w v : tg_valid g (size w) -> tg_pure g (w ++ v) = tg_pure g w.
Proof. by case/andP=> h1 h2; rewrite /tg_pure !bval_cat. Qed.

Lemma tbcs_gates_valid_at ni i gs :
  tbcs_gates_valid ni i gs -> gates_at tg_output tg_valid (ni + i) gs.
Proof.
elim: gs i => [|g gs IH] i //=.
case: eqP => //= ho; case: ifP => //= /norP [].
rewrite -!ltnNge ho addn1 !ltnS => h1 h2 /IH; rewrite addnS => ->.
by rewrite eqxx /tg_valid h1 h2.
Qed.

Lemma tbcs_wires c p a :
  tbcs_is_valid c -> tbcs_types_ok c ->
  size p = t_primary_input_size c -> size a = t_auxiliary_input_size c ->
  exists w, [/\ tbcs_get_all_wires c p a = Ok w,
                tbcs_consistent c (p ++ a) w &
                forall w', tbcs_consistent c (p ++ a) w' -> w' = w].
Proof.
move=> hv ht hp ha.
have hs : size (p ++ a) = t_num_inputs c by rewrite size_cat hp ha.
have hg : gates_at tg_output tg_valid (size (p ++ a)) (t_gates c).
  by rewrite hs -[t_num_inputs c]addn0; apply: tbcs_gates_valid_at.
have [v [h1 h2 h3]] := run_ok false tg_eval_ok tg_pure_ext hg.
have out_bval : forall (w : seq bool) g, List.In g (t_gates c) ->
    bval w (tg_output g) = nth false w (tg_output g).-1.
  move=> w g hin; have /andP [] := gates_at_out hg hin.
  by case: (tg_output g).
have pureE : forall (w : seq bool) g, List.In g (t_gates c) -> tg_pure g w =
    gate_function (tg_type g) (bval w (tg_left g)) (bval w (tg_right g)).
  by move=> w g hin; rewrite /tg_pure gate_tableE //; move/all_InP: ht; apply.
exists ((p ++ a) ++ v); split.
- by rewrite /tbcs_get_all_wires hp ha !eqxx /= hs eqxx.
- split; first by rewrite size_cat hs h2.
  split; first by rewrite -hs take_size_cat.
  by move=> g hin; rewrite out_bval // -pureE //; apply: h3.
- move=> w' [hw1 [hw2 hw3]].
  have e : w' = (p ++ a) ++ drop (t_num_inputs c) w' by rewrite -{1}hw2 cat_take_drop.
  rewrite e; congr cat.
  apply: (run_uniq (d := false) tg_pure_ext hg) => //.
  + by rewrite size_drop hw1 /t_num_wires addKn.
  + by move=> g hin; rewrite -e -out_bval // pureE //; apply: hw3.
Qed.

Lemma tbcs_is_satisfied_iff c p a :
  tbcs_is_valid c -> tbcs_types_ok c ->
  size p = t_primary_input_size c -> size a = t_auxiliary_input_size c ->
  exists2 b, tbcs_is_satisfied c p a = Ok b & b <-> tbcs_accepts c (p ++ a).
Proof.
move=> hv ht hp ha.
have [w [h1 [h2 [h3 h4]] h5]] := tbcs_wires hv ht hp ha.
have hg : gates_at tg_output tg_valid (t_num_inputs c) (t_gates c).
  by rewrite -[t_num_inputs c]addn0; apply: tbcs_gates_valid_at.
have out_bval : forall (w : seq bool) g, List.In g (t_gates c) ->
    bval w (tg_output g) = nth false w (tg_output g).-1.
  move=> w' g hin; have /andP [] := gates_at_out hg hin.
  by case: (tg_output g).
exists (all negb [seq nth false w (tg_output g).-1 | g <- t_gates c & tg_is_circuit_output g]).
  rewrite /tbcs_is_satisfied /tbcs_get_all_outputs h1 /=.
  by rewrite (outputs_ok false _ _ hg) ?h2.
rewrite all_map all_filter; split.
- move/all_InP => h; exists w => //.
  move=> g hin ho; have /implyP /(_ ho) /negbTE := h g hin.
  by rewrite out_bval.
- case=> w' hw' hz; apply/all_InP => g hin; apply/implyP => ho.
  have e := h5 w' hw'; subst w'.
  by rewrite /= -out_bval // hz.
Qed.

(** ** The instance map *)

Lemma In_filter (A : Type) (p : A -> bool) (l : seq A) x :
  List.In x (filter p l) <-> List.In x l /\ p x.
Proof.
elim: l x => [|y l IH] x /=; first by split=> [|[]].
case hp: (p y) => /=; rewrite IH; split.
- by move=> [<-|[? ?]]; split=> //; [left|right].
- by move=> [[->|?] ?]; [left|right].
- by move=> [? ?]; split=> //; right.
- by move=> [[e|?] h] //; rewrite -e hp in h.
Qed.

Lemma In_mem (A : eqType) (x : A) (l : seq A) : List.In x l <-> x \in l.
Proof.
elim: l => [|y l IH] //=; rewrite inE; split.
- by move=> [->|/IH ->]; rewrite ?eqxx ?orbT.
- by case/orP=> [/eqP ->|/IH h]; [left|right].
Qed.

Lemma formal_sum_wire_boolean i (w : seq F) :
  formal_sum (wire_boolean_constraint F i) w = 2%:R * xval w i - 1.
Proof.
by rewrite /wire_boolean_constraint /lt_sub_lc /lt_add_lc formal_sum_add formal_sum_neg
           formal_sum_term formal_sum_int.
Qed.

Lemma formal_sum_output g (w : seq F) : formal_sum (output_constraint F g) w = xval w (tg_output g) + 1.
Proof.
by rewrite /output_constraint /var_add_lc formal_sum_cat formal_sum_int -/(lc_of_var F _)
           formal_sum_var addrC.
Qed.

Lemma tbcs_instance c : tbcs_is_valid c -> tbcs_types_ok c ->
  exists2 cs, tbcs_to_uscs_instance_map F c = Ok cs &
  [/\ u_num_inputs cs = t_primary_input_size c,
      u_auxiliary_input_size cs = (t_auxiliary_input_size c + t_num_gates c)%N,
      uscs_in_range cs &
      forall w, uscs_holds cs w <->
        [/\ forall g, List.In g (t_gates c) -> formal_sum (the_gate_lc g) w ^+ 2 = 1,
            forall i, (i < t_num_wires c)%N -> (2%:R * xval w i - 1) ^+ 2 = 1 &
            forall g, List.In g (t_gates c) -> tg_is_circuit_output g ->
              (xval w (tg_output g) + 1) ^+ 2 = 1]].
Proof.
move=> hv ht; rewrite /tbcs_to_uscs_instance_map hv /=.
rewrite (@omapm_Ok _ _ _ the_gate_lc); last first.
  by move=> g hin; apply: the_gate_lcE; move/all_InP: ht; apply.
eexists; first by [].
have hg : gates_at tg_output tg_valid (t_num_inputs c) (t_gates c).
  by rewrite -[t_num_inputs c]addn0; apply: tbcs_gates_valid_at.
have sub : forall g, List.In g (t_gates c) ->
    [/\ tg_left g <= t_num_wires c, tg_right g <= t_num_wires c &
        tg_output g <= t_num_wires c]%N.
  move=> g hin; have /andP [h1 h2] := gates_at_out hg hin.
  have /andP [h3 h4] := gates_at_valid hg hin.
  have le : ((tg_output g).-1 <= t_num_wires c)%N by apply: leq_trans (leq_pred _) h2.
  by split=> //; [apply: leq_trans h3 le|apply: leq_trans h4 le].
split=> //.
- rewrite /uscs_in_range /u_num_variables /= addnA !all_cat !all_map.
  apply/and3P; split.
  + apply/all_InP => g /sub [h1 h2 h3].
    rewrite /= /the_gate_lc; case: (gate_coeffs _) => [[[? ?] ?] ?].
    by rewrite in_range_gate_lc h1 h2 h3.
  + apply/allP => i; rewrite mem_iota add0n => /andP [_ hi].
    rewrite /= /wire_boolean_constraint /lt_sub_lc /lt_add_lc in_range_add /lc_neg in_range_scale.
    by rewrite /in_range /= !andbT; apply: ltnW.
  + rewrite all_filter; apply/all_InP => g /sub [_ _ h3].
    by apply/implyP => _; rewrite /= h3.
- move=> w; split.
  + move=> h; split.
    * move=> g hin; apply: h => /=; apply: List.in_or_app; left.
      by apply/In_map; exists g.
    * move=> i hi; rewrite -formal_sum_wire_boolean; apply: h => /=.
      apply: List.in_or_app; right; apply: List.in_or_app; left.
      by apply/In_map; exists i => //; apply/In_mem; rewrite mem_iota.
    * move=> g hin ho; rewrite -formal_sum_output; apply: h => /=.
      apply: List.in_or_app; right; apply: List.in_or_app; right.
      by apply/In_map; exists g => //; apply/In_filter.
  + move=> [h1 h2 h3] k /= hk; case: (List.in_app_or _ _ _ hk) => [|{}hk].
      by move/In_map => [g hin ->]; apply: h1.
    case: (List.in_app_or _ _ _ hk) => /In_map [g hin ->].
      rewrite formal_sum_wire_boolean; apply: h2.
      by move/In_mem: hin; rewrite mem_iota.
    by case/In_filter: hin => hin ho; rewrite formal_sum_output; apply: h3.
Qed.

Lemma tbcs_instance_types c cs : tbcs_to_uscs_instance_map F c = Ok cs ->
  tbcs_is_valid c /\ tbcs_types_ok c.
Proof.
rewrite /tbcs_to_uscs_instance_map; case: (tbcs_is_valid c) => //= h; split=> //.
rewrite /tbcs_types_ok.
elim: (t_gates c) (X in obind (omapm _ _) X) h => [|g gs IH] //= K.
case e: (tbcs_gate_constraint F g) => [l||] //=.
rewrite (tbcs_gate_constraint_type e) /=.
by case e2: (omapm _ gs) => [ls||] //= _; apply: (IH (fun _ => Ok cs)); rewrite e2.
Qed.

(** ** Completeness *)

Lemma xval_map (w : seq bool) i : xval (map b2f w) i = b2f (bval w i).
Proof.
case: i => [|i]; first by [].
rewrite /xval /bval /=; case: (ltnP i (size w)) => h.
  by rewrite (nth_map false).
by rewrite !nth_default // size_map.
Qed.

Lemma b2f_boolean b : (2%:R * b2f b - 1) ^+ 2 = 1.
Proof. by case: b; rewrite /b2f /=; fring F. Qed.

Lemma consistent_gates c p a w : tbcs_types_ok c ->
  tbcs_consistent c (p ++ a) w ->
  forall g, List.In g (t_gates c) -> formal_sum (the_gate_lc g) (map b2f w) ^+ 2 = 1.
Proof.
move=> ht [_ [_ hc]] g hin.
have ht' : (tg_type g < 16)%N by move/all_InP: ht; apply.
have e := @the_gate_lc_sum g (map b2f w) (bval w (tg_left g)) (bval w (tg_right g))
            (b2i (bval w (tg_output g))) (xval_map _ _) (xval_map _ _).
rewrite e; last by rewrite xval_map b2f_int.
rewrite hc //.
have /and3P [/eqP h _ _] := gate_checks (bval w (tg_left g)) (bval w (tg_right g)) ht'.
by rewrite expr2 -rmorphM /= h.
Qed.

Lemma tbcs_to_uscs_complete c p a :
  tbcs_is_valid c -> tbcs_types_ok c ->
  size p = t_primary_input_size c -> size a = t_auxiliary_input_size c ->
  exists cs w b,
    [/\ tbcs_to_uscs_instance_map F c = Ok cs,
        tbcs_to_uscs_witness_map F c p a = Ok w,
        take (u_num_inputs cs) w = map b2f p,
        tbcs_is_satisfied c p a = Ok b &
        (b \/ (3%:R : F) != 0) ->
        uscs_is_satisfied cs (map b2f p) (drop (u_num_inputs cs) w) = Ok b].
Proof.
move=> hv ht hp ha.
have [cs hcs [k1 k2 k3 k4]] := tbcs_instance hv ht.
have [w [h1 h2 h5]] := tbcs_wires hv ht hp ha.
have [b hb1 hb2] := tbcs_is_satisfied_iff hv ht hp ha.
exists cs, (map b2f w), b; case: (h2) => h21 [h22 h23].
have wE : w = p ++ drop (u_num_inputs cs) w.
  rewrite -{1}(cat_take_drop (u_num_inputs cs) w); congr cat.
  have : take (u_num_inputs cs) (take (t_num_inputs c) w) = take (u_num_inputs cs) (p ++ a) by rewrite h22.
  rewrite take_take; last by rewrite k1 leq_addr.
  by move=> ->; rewrite k1 -hp take_size_cat.
have tE : take (u_num_inputs cs) w = p by rewrite wE k1 -hp take_size_cat.
split=> //; try by rewrite /tbcs_to_uscs_witness_map h1.
  by rewrite -map_take tE.
move=> hb3.
have hpn : size (map b2f p) = u_num_inputs cs by rewrite size_map k1.
have han : size (drop (u_num_inputs cs) (map b2f w)) = u_auxiliary_input_size cs.
  by rewrite size_drop size_map h21 k2 k1 /t_num_wires /t_num_inputs -addnA addKn.
have [b' hb' hb2'] := uscs_is_satisfied_iff k3 hpn han.
rewrite hb'; congr Ok.
rewrite -map_drop -map_cat -wE in hb2'.
have hholds : tbcs_accepts c (p ++ a) -> uscs_holds cs (map b2f w).
  case=> w' hw' hz; have e := h5 w' hw'; subst w'.
  apply/k4; split.
  - exact: consistent_gates hw'.
  - by move=> i _; rewrite xval_map b2f_boolean.
  - by move=> g hin ho; rewrite xval_map hz //= /b2f /= add0r expr1n.
case: b hb2 hb3 {hb1} => [] [q1 q2] hb3.
  by apply/hb2'; apply: hholds; apply: q1.
case: hb3 => // ch3; case: b' hb2' {hb'} => // -[q3 _].
have /k4 [_ _ g3] := q3 isT.
suff : false by []. apply: q2; exists w => // g hin ho.
have := g3 g hin ho; rewrite xval_map; case: (bval w _) => //=.
rewrite /b2f /= => h4; case/eqP: ch3.
have -> : (3%:R : F) = (1 + 1) ^+ 2 - 1 by fring F.
by move: h4; rewrite mulr1n => ->; rewrite subrr.
Qed.

(** ** Soundness *)

Hypothesis ch2 : (2%:R : F) != 0.
Hypothesis ch3 : (3%:R : F) != 0.
Hypothesis ch5 : (5%:R : F) != 0.
Hypothesis ch7 : (7%:R : F) != 0.

Lemma bad_nz (n : int) : n \in bad_values -> (n%:~R : F) != 0.
Proof.
rewrite !inE => /or4P [/eqP ->|/eqP ->|/eqP ->|/or4P [] /eqP ->].
- by rewrite rmorphN /= oppr_eq0 oner_eq0.
- exact: ch3.
- by rewrite -[8%:~R]/((2 * (2 * 2))%:R) !natrM !mulf_neq0.
- by rewrite -[15%:~R]/((3 * 5)%:R) !natrM !mulf_neq0.
- by rewrite -[24%:~R]/((3 * (2 * (2 * 2)))%:R) !natrM !mulf_neq0.
- by rewrite -[120%:~R]/((5 * (3 * (2 * (2 * 2))))%:R) !natrM !mulf_neq0.
- by rewrite -[168%:~R]/((7 * (3 * (2 * (2 * 2))))%:R) !natrM !mulf_neq0.
Qed.

Lemma boolean_cases (z : F) : (2%:R * z - 1) ^+ 2 = 1 -> exists b, z = b2f b.
Proof.
move=> h.
have : 2%:R * (2%:R * (z * (z - 1))) = 0.
  have -> : 2%:R * (2%:R * (z * (z - 1))) = (2%:R * z - 1) ^+ 2 - 1 by fring F.
  by rewrite h subrr.
move/eqP; rewrite !mulf_eq0 !(negbTE ch2) /= => /orP [/eqP ->|].
  by exists false.
by rewrite subr_eq0 => /eqP ->; exists true.
Qed.

Lemma output_cases (z : F) : (z + 1) ^+ 2 = 1 -> z = 0 \/ z = (- 2%:Z)%:~R.
Proof.
move=> h.
have : z * (z + 2%:R) = 0.
  have -> : z * (z + 2%:R) = (z + 1) ^+ 2 - 1 by fring F.
  by rewrite h subrr.
move/eqP; rewrite mulf_eq0 addr_eq0 => /orP [] /eqP ->; first by left.
by right; rewrite rmorphN.
Qed.

(** A wire that is boolean has the right value. *)
Lemma gate_sound_boolean g (w : seq F) X Y Z :
  (tg_type g < 16)%N ->
  xval w (tg_left g) = b2f X -> xval w (tg_right g) = b2f Y -> xval w (tg_output g) = b2f Z ->
  formal_sum (the_gate_lc g) w ^+ 2 = 1 ->
  Z = gate_function (tg_type g) X Y.
Proof.
move=> ht hx hy hz; rewrite b2f_int in hz.
rewrite (the_gate_lc_sum hx hy hz) => h.
case: (eqVneq Z (gate_function (tg_type g) X Y)) => // hne; exfalso.
have eZ : Z = ~~ gate_function (tg_type g) X Y.
  by case: Z (gate_function (tg_type g) X Y) hne {hz h} => [] [].
have /and3P [_ hb _] := gate_checks X Y ht.
have := bad_nz hb; rewrite -eZ rmorphB /= rmorphM /= -expr2 h.
by rewrite subrr eqxx.
Qed.

(** An output gate that passes the output constraint computes 0, even if its
    own wire is not known to be boolean. *)
Lemma gate_sound_output g (w : seq F) X Y :
  (tg_type g < 16)%N ->
  xval w (tg_left g) = b2f X -> xval w (tg_right g) = b2f Y ->
  formal_sum (the_gate_lc g) w ^+ 2 = 1 ->
  (xval w (tg_output g) + 1) ^+ 2 = 1 ->
  gate_function (tg_type g) X Y = false.
Proof.
move=> ht hx hy hf /output_cases ho.
case e: (gate_function (tg_type g) X Y) => //; exfalso.
have /and3P [_ _] := gate_checks X Y ht; rewrite e /= => /andP [b0 b2].
case: ho => ho.
  have ho' : xval w (tg_output g) = (0 : int)%:~R by rewrite ho.
  have := bad_nz b0; rewrite rmorphB /= rmorphM /= -expr2.
  by rewrite -(the_gate_lc_sum hx hy ho') hf subrr eqxx.
have := bad_nz b2; rewrite rmorphB /= rmorphM /= -expr2.
by rewrite -(the_gate_lc_sum hx hy ho) hf subrr eqxx.
Qed.

Lemma gates_at_surj (G : Type) (out : G -> nat) valid k gs i :
  gates_at out valid k gs -> (k < i <= k + size gs)%N ->
  exists2 g, List.In g gs & out g = i.
Proof.
elim: gs k => [|g gs IH] k /=.
  by rewrite addn0 => _ /andP [h1 h2]; have := leq_trans h1 h2; rewrite ltnn.
case/and3P=> /eqP ho _ hg /andP [h1 h2].
case: (eqVneq i k.+1) => [->|hne]; first by exists g; [left|].
case: (IH k.+1 hg).
  by rewrite addSnnS h2 andbT ltn_neqAle eq_sym hne.
by move=> g' h3 h4; exists g' => //; right.
Qed.

Lemma tbcs_to_uscs_sound c cs p aux :
  tbcs_to_uscs_instance_map F c = Ok cs ->
  size p = t_primary_input_size c ->
  uscs_is_satisfied cs (map b2f p) aux = Ok true ->
  let a := [seq x == 1 | x <- take (t_auxiliary_input_size c) aux] in
  tbcs_is_satisfied c p a = Ok true /\
  (t_gates c <> [::] -> map b2f a = take (t_auxiliary_input_size c) aux).
Proof.
move=> hcs hp; have [hv ht] := tbcs_instance_types hcs.
have [cs' hcs' [k1 k2 k3 k4]] := tbcs_instance hv ht.
have e : cs' = cs by move: hcs'; rewrite hcs => -[].
subst cs'; move/uscs_is_satisfied_true => [_ haux _ hh] /=; set a := map _ _.
have ha : size a = t_auxiliary_input_size c.
  by rewrite size_map size_takel // haux k2 leq_addr.
have [w [h1 h2 h5]] := tbcs_wires hv ht hp ha.
have [b hb1 hb2] := tbcs_is_satisfied_iff hv ht hp ha.
case/k4: hh; set W := map b2f p ++ aux => q1 q2 q3.
have hg : gates_at tg_output tg_valid (t_num_inputs c) (t_gates c).
  by rewrite -[t_num_inputs c]addn0; apply: tbcs_gates_valid_at.
case: (h2) => h21 [h22 h23].
have boolW : forall i, (i < t_num_wires c)%N -> exists b, xval W i = b2f b.
  by move=> i hi; apply: boolean_cases; apply: q2.
have sW : size W = t_num_wires c.
  by rewrite size_cat size_map hp haux k2 addnA.
(* inputs *)
have inW : forall i, (i < t_num_wires c)%N -> (i <= t_num_inputs c)%N -> xval W i = b2f (bval w i).
  case=> [|i] hi hi2 //.
  have e1 : bval w i.+1 = nth false (p ++ a) i by rewrite -h22 nth_take.
  rewrite e1 /xval /= /W !nth_cat size_map.
  case: ifP => hip; first by rewrite (nth_map false).
  have hia : (i - size p < t_auxiliary_input_size c)%N.
    by rewrite ltn_subLR ?hp // leqNgt -hp hip.
  have [bb] := boolW _ hi; rewrite /xval /= /W nth_cat size_map hip => ebb.
  rewrite ebb /a (nth_map 0); last by rewrite size_takel // haux k2 leq_addr.
  rewrite nth_take // ebb /b2f; case: bb {ebb}; first by rewrite eqxx.
  by rewrite eq_sym oner_eq0.
have allW : forall i, (i < t_num_wires c)%N -> xval W i = b2f (bval w i).
  elim/ltn_ind => i IH hi.
  case: (leqP i (t_num_inputs c)) => hi2; first exact: inW.
  have [g hin ho] : exists2 g, List.In g (t_gates c) & tg_output g = i.
    by apply: gates_at_surj hg _; rewrite hi2 /=; apply: ltnW.
  have /andP [vl vr] := gates_at_valid hg hin; rewrite ho in vl vr.
  have li : forall k, (k <= i.-1)%N -> (k < i)%N by case: (i) hi2.
  have xl := IH _ (li _ vl) (ltn_trans (li _ vl) hi).
  have xr := IH _ (li _ vr) (ltn_trans (li _ vr) hi).
  have [bb ebb] := boolW _ hi.
  have ht' : (tg_type g < 16)%N by move/all_InP: ht; apply.
  rewrite ebb; congr b2f.
  have := h23 g hin; rewrite ho => ->.
  apply: (gate_sound_boolean (g := g) (w := W)) => //; first by rewrite ho.
  exact: q1.
split.
- rewrite hb1; congr Ok; apply/hb2; exists w => // g hin ho.
  have /andP [o1 o2] := gates_at_out hg hin.
  have /andP [vl vr] := gates_at_valid hg hin.
  have li : forall k, (k <= (tg_output g).-1)%N -> (k < t_num_wires c)%N.
    move=> k hk; apply: leq_ltn_trans hk _; apply: leq_trans o2.
    by case: (tg_output g) o1.
  have ht' : (tg_type g < 16)%N by move/all_InP: ht; apply.
  rewrite h23 //; apply: (gate_sound_output (g := g) (w := W)) => //.
  + by apply: allW; apply: li.
  + by apply: allW; apply: li.
  + exact: q1.
  + exact: q3.
- move=> hne; rewrite /a -map_comp -[RHS]map_id.
  apply/eq_in_map => x hx.
  have [i hi <-] : exists2 i, (i < t_auxiliary_input_size c)%N & nth 0 aux i = x.
    have/(nthP 0) [i hi <-] := hx.
    rewrite size_takel in hi; last by rewrite haux k2 leq_addr.
    by exists i => //; rewrite nth_take.
  have hi2 : ((t_primary_input_size c + i).+1 < t_num_wires c)%N.
    rewrite /t_num_wires /t_num_inputs /t_num_gates; case: (t_gates c) hne => // g gs _ /=.
    by rewrite addnS ltnS -addnA ltn_add2l ltn_addr.
  have [bb] := boolW _ hi2; rewrite /xval /= /W nth_cat size_map hp ltnNge leq_addr /= addKn => ->.
  by case: bb; rewrite /b2f /= ?eqxx //= eq_sym oner_eq0.
Qed.

End Tbcs.

(** ** The last wire need not be boolean *)
Section LastWire.
Variable F : fieldType.
Hypothesis ch2 : (2%:R : F) != 0.
Hypothesis ch3 : (3%:R : F) != 0.
Add Field Ff2 : (Fth F).

Lemma last_wire_not_boolean :
  exists c cs z,
    [/\ tbcs_is_valid c, tbcs_to_uscs_instance_map F c = Ok cs,
        uscs_is_satisfied cs [:: 1] [:: z] = Ok true & z != 0 /\ z != 1].
Proof.
pose c := TbcsCircuit 1 0 [:: TbcsGate 1 1 0 2 true].
have [cs hcs [k1 k2 k3 k4]] := @tbcs_instance F c isT isT.
exists c, cs, (- 2%:R); split=> //.
  apply: (@uscs_is_satisfied_ok_true _ _ [:: 1] [:: - 2%:R] k3 (esym k1) (esym k2)).
  apply/k4; split.
  - move=> g [<-|] //; rewrite /the_gate_lc /= formal_sum_gate_lc.
    by rewrite mulr0z mulr1z /xval /=; fring F.
  - by move=> [|[|]] // _; rewrite /xval /=; fring F.
  - by move=> g [<-|] //= _; rewrite /xval /=; fring F.
rewrite oppr_eq0; split=> //.
apply/eqP => h; case/eqP: ch3.
have -> : (3%:R : F) = 1 - - 2%:R by fring F.
by rewrite h subrr.
Qed.

End LastWire.

(** In characteristic 3 the reduction is unsound. *)
Lemma char3_unsound : exists c cs,
    [/\ tbcs_is_valid c,
        forall p a, tbcs_is_satisfied c p a <> Ok true,
        tbcs_to_uscs_instance_map [fieldType of 'F_3] c = Ok cs &
        uscs_is_satisfied cs [::] [:: 1] = Ok true].
Proof.
pose c := TbcsCircuit 0 0 [:: TbcsGate 0 0 15 1 true].
have [cs hcs [k1 k2 k3 k4]] := @tbcs_instance [fieldType of 'F_3] c isT isT.
exists c, cs; split=> //; first by move=> [|? ?] [|? ?].
apply: (@uscs_is_satisfied_ok_true _ _ [::] [:: 1] k3 (esym k1) (esym k2)).
apply/k4; split.
- by move=> g [<-|] //; apply/eqP; rewrite /the_gate_lc /= formal_sum_gate_lc; vm_compute.
- by move=> [|] // _; apply/eqP; vm_compute.
- by move=> g [<-|] //= _; apply/eqP; vm_compute.
Qed.

(** ** Depth *)
Lemma tbcs_depth_ub : exists c, tbcs_is_valid c /\ tbcs_types_ok c /\ tbcs_wire_depths c = UB.
Proof. by exists (TbcsCircuit 1 0 [:: TbcsGate 1 1 1 2 true]). Qed.

Section BacsDepth.
Variable F : fieldType.

Definition deepest (d : seq nat) (l : linear_combination F) : nat :=
  \max_(t <- l) nth 0%N d (lt_index t).

Lemma max_depth_ofE (d : seq nat) m (l : linear_combination F) :
  all (fun t => lt_index t < size d)%N l -> max_depth_of d m l = Ok (maxn m (deepest d l)).
Proof.
rewrite /max_depth_of /deepest; elim: l m => [|t l IH] m /=.
  by rewrite big_nil maxn0.
case/andP=> h1 h2; rewrite (oget_nth 0%N) //= IH // big_cons.
by rewrite maxnA.
Qed.

Lemma deepest_cat d v (l : linear_combination F) :
  all (fun t => lt_index t < size d)%N l -> deepest (d ++ v) l = deepest d l.
Proof.
rewrite /deepest; elim: l => [|t l IH] /=; first by rewrite !big_nil.
by case/andP=> h1 h2; rewrite !big_cons nth_cat h1 IH.
Qed.

Lemma bacs_depths (c : bacs_circuit F) : bacs_is_valid c = Ok true ->
  exists2 d, bacs_wire_depths c = Ok d &
  [/\ size d = (b_num_wires c).+1, nth 0%N d 0 = 0%N,
      forall i, (0 < i <= b_num_inputs c)%N -> nth 0%N d i = 1%N &
      forall g, List.In g (b_gates c) ->
        nth 0%N d (bg_output g) = (maxn (deepest d (bg_lhs g)) (deepest d (bg_rhs g))).+1].
Proof.
move=> hv.
pose dv (g : bacs_gate F) (k : nat) :=
  all (fun t => lt_index t < k)%N (bg_lhs g) && all (fun t => lt_index t < k)%N (bg_rhs g).
pose dp (g : bacs_gate F) d := (maxn (deepest d (bg_lhs g)) (deepest d (bg_rhs g))).+1.
pose de (g : bacs_gate F) d := let! m := max_depth_of d 0 (bg_lhs g) in
           let! m' := max_depth_of d m (bg_rhs g) in Ok m'.+1.
have eok : forall g d, dv g (size d) -> de g d = Ok (dp g d).
  move=> g d /andP [h1 h2]; rewrite /de max_depth_ofE //= max_depth_ofE //=.
  by rewrite max0n.
have pext : forall g d v, dv g (size d) -> dp g (d ++ v) = dp g d.
  by move=> g d v /andP [h1 h2]; rewrite /dp !deepest_cat.
have hg0 : gates_at (@bg_output F) (@bg_valid F) (b_num_inputs c) (b_gates c).
  by rewrite -[b_num_inputs c]addn0; apply: bacs_gates_valid_at.
have hg : gates_at (fun g : bacs_gate F => (bg_output g).+1) dv
   (size (0%N :: nseq (b_num_inputs c) 1%N)) (b_gates c).
  rewrite /= size_nseq; elim: (b_gates c) (b_num_inputs c) hg0 => [|g gs IH] k //=.
  case/and3P=> /eqP -> /andP [h1 h2] h3; rewrite eqxx IH // /dv andbT /=.
  by apply/andP.
have [v [h1 h2 h3]] := run_ok 0%N eok pext hg.
exists ((0%N :: nseq (b_num_inputs c) 1%N) ++ v).
  rewrite /bacs_wire_depths -h1 /run.
  elim: (b_gates c) (0%N :: _) => [|g gs IH] w //=.
  rewrite /de; case: (max_depth_of w 0 _) => [m||] //=.
  by case: (max_depth_of w m _) => [m'||] //=.
split=> //.
- by rewrite size_cat /= size_nseq h2.
- case=> // i /andP [_ hi]; rewrite /= nth_cat size_nseq hi nth_nseq.
  by rewrite hi.
Qed.

End BacsDepth.
