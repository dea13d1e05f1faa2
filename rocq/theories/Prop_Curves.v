(** C42: the elliptic-curve gadgets.

    Vocabulary (GadgetSpec.v, CurveSpec.v): [x] is the vector of variable values,
    [holds cs x] says that all the constraints hold; [g1_val x P] is the affine point a
    gadget variable stands for.  The curve is [y^2 = x^3 + a x + b], [ec_add a] its
    group law with [None] the point at infinity.  [ec_multiscalar a R [:: (P1, bits1); ...]]
    is [R + sum_i n_i P_i], [n_i] the number with the bits [bits_i], lowest first;
    [ec_multiscalar_ok] says that all the additions [R + 2^j P] on the way have
    finite operands with different first coordinates. *)
From mathcomp Require Import all_ssreflect all_algebra zify.
From Verif Require Import Outcome Lincomb LincombSpec LincombFacts R1CS R1CSSpec R1CSFacts Fieldtac.
From Verif Require Import Protoboard GadgetSpec GadgetLogic FieldGadgets ExtFieldSpec FieldGadgetsSat.
From Verif Require Import Weierstrass CurveSpec CurveFacts CurveSat CurveG2.
Set Implicit Arguments.
Unset Strict Implicit.
Unset Printing Implicit Defensive.
Local Open Scope ring_scope.
Import GRing.Theory.

Section Props.
Variable F : fieldType.
Variables a b nr : F.
Add Field Fp : (Fth F).
Implicit Types (x : seq F) (pb : protoboard F).

Lemma wf_tidy pb : pb_wf pb -> tidy pb. Proof. by case. Qed.

(** * Membership *)

(** The curve check accepts exactly the points of the curve. *)
Theorem C42_checker pb P g pb' x : g1_checker_new pb P = (g, pb') ->
  (holds (g1_checker_constraints a b g) x -> on_curve a b (g1_val x P)) /\
  (pb_wf pb -> size x = size (pb_values pb) -> g1_ranged (size x) P -> on_curve a b (g1_val x P) ->
   exists zs, size (x ++ zs) = size (pb_values pb') /\ holds (g1_checker_constraints a b g) (x ++ zs)).
Proof.
move=> e; split=> [|/wf_tidy ht hs r hc]; last exact: checker_sat ht hs r e hc.
have <- : gc_P g = P by move: e; rewrite /g1_checker_new; do 2 step; case=> <- _.
move=> /checker_coef[_ _ h]; apply/eqP; rewrite expr2 h !exprS expr0 mulr1.
by move: (lval x (g1_X (gc_P g)) : F) => X; fring F.
Qed.

(** * Addition *)

(** Every satisfying assignment has operands with different first coordinates, and
    the sum of the operands as the result; all such operands and results are accepted. *)
Theorem C42_add pb A B C g pb' x : g1_add_new pb A B C = (g, pb') ->
  (holds (g1_add_constraints g) x ->
   distinct_x (g1_val x A) (g1_val x B) /\ g1_val x C = ec_add a (g1_val x A) (g1_val x B)) /\
  (pb_wf pb -> size x = size (pb_values pb) -> g1_ranged (size x) A -> g1_ranged (size x) B -> g1_ranged (size x) C ->
   distinct_x (g1_val x A) (g1_val x B) -> g1_val x C = ec_add a (g1_val x A) (g1_val x B) ->
   exists zs, size (x ++ zs) = size (pb_values pb') /\ holds (g1_add_constraints g) (x ++ zs)).
Proof.
move=> e; split=> [|/wf_tidy ht hs rA rB rC hd hC].
  have [<- <- <-] : [/\ ga_A g = A, ga_B g = B & ga_C g = C] by move: e; rewrite /g1_add_new; do 2 step; case=> <- _.
  by move=> /(add_sound a)[/eqP h1 h2]; split.
have [l [i [_ s h]]] := add_sat ht hs rA rB rC e hd hC.
by exists [:: l; i]; rewrite size_cat addn2 s; split.
Qed.

(** The sum of two points of the curve is on the curve, in either order. *)
Theorem C42_add_closed (P Q : point F) : 2%:R != 0 :> F -> on_curve a b P -> on_curve a b Q ->
  on_curve a b (ec_add a P Q) /\ ec_add a P Q = ec_add a Q P.
Proof. by move=> h2 hP hQ; split; [apply: ec_add_on_curve | apply: ec_addC]. Qed.

(** * Doubling *)

(** For a point of a nonsingular curve every satisfying assignment has the double of
    the operand as the result, and the operand is not of order two. *)
Theorem C42_dbl pb A B g pb' x : 2%:R != 0 :> F -> g1_dbl_new pb A B = (g, pb') ->
  (4%:R * a ^+ 3 + 27%:R * b ^+ 2 != 0 -> on_curve a b (g1_val x A) -> holds (g1_dbl_constraints a g) x ->
   g1_val x B = ec_add a (g1_val x A) (g1_val x A)) /\
  (pb_wf pb -> size x = size (pb_values pb) -> g1_ranged (size x) A -> g1_ranged (size x) B ->
   g1_val x B = ec_add a (g1_val x A) (g1_val x A) ->
   exists zs, size (x ++ zs) = size (pb_values pb') /\ holds (g1_dbl_constraints a g) (x ++ zs)).
Proof.
move=> h2 e; split=> [hn|/wf_tidy ht hs rA rB hB].
  have [<- <-] : gd_A g = A /\ gd_B g = B by move: e; rewrite /g1_dbl_new; do 2 step; case=> <- _.
  by move=> hc; apply: (dbl_sound h2 hn hc).
have [l [i [_ s h]]] := dbl_sat h2 ht hs rA rB e hB.
by exists [:: l; i]; rewrite size_cat addn2 s; split.
Qed.

(** * Multi-scalar multiplication *)

(** The constructor accepts any positive number of points with [n > 0] scalar bits
    each, and the count of constraints that the constraint generator asserts is right. *)
Theorem C42_multiscalar_defined pb base scalars n points result :
  (0 < size points)%N -> (size points * n.+1 = size scalars)%N ->
  exists g pb' cs, g1_mul_new pb base scalars n.+1 points result = Ok (g, pb') /\ g1_mul_constraints a g = Ok cs.
Proof.
move=> h1 h2; case e: (g1_mul_new pb base scalars n.+1 points result) => [[g pb']||].
- have [m [ps [ds [pb1 [steps [_ _ _ _ ec]]]]]] := mul_constraints_ok a b e.
  by exists g, pb', (all_constraints a ds steps).
- by move: e; rewrite /g1_mul_new h1 h2 eqxx; cbn [oassert]; case: (all_powers_new _ _ _) => [[ps ds] pb1]; case: (steps_new _ _ _ _).
- by move: e; rewrite /g1_mul_new h1 h2 eqxx; cbn [oassert]; case: (all_powers_new _ _ _) => [[ps ds] pb1]; case: (steps_new _ _ _ _).
Qed.

(** On points of a nonsingular curve and scalar bits, the constraints accept exactly
    the right result, whenever no addition on the way is exceptional; otherwise they
    accept nothing. *)
Theorem C42_multiscalar pb base scalars n points result g pb' cs x (bs : seq (seq bool)) :
  2%:R != 0 :> F -> g1_mul_new pb base scalars n points result = Ok (g, pb') -> g1_mul_constraints a g = Ok cs ->
  size bs = size points -> all (fun c => size c == n) bs ->
  map (xval x) scalars = [seq (nat_of_bool c)%:R | c <- flatten bs] ->
  let terms := zip (map (g1_val x) points) bs in
  (4%:R * a ^+ 3 + 27%:R * b ^+ 2 != 0 -> all (fun P => on_curve a b (g1_val x P)) points -> holds cs x ->
   ec_multiscalar_ok a (g1_val x base) terms /\ g1_val x result = ec_multiscalar a (g1_val x base) terms) /\
  (pb_wf pb -> size x = size (pb_values pb) ->
   g1_ranged (size x) base -> g1_ranged (size x) result -> all (g1_ranged (size x)) points ->
   all (fun v => (v <= size x)%N) scalars ->
   ec_multiscalar_ok a (g1_val x base) terms -> g1_val x result = ec_multiscalar a (g1_val x base) terms ->
   exists zs, size (x ++ zs) = size (pb_values pb') /\ holds cs (x ++ zs)).
Proof.
move=> h2 e ec s1 s2 hb terms; split=> [hn hc h|/wf_tidy ht hs rb rr rp rs hok hres].
  exact: (mul_sound h2 hn hc e ec h s1 s2 hb).
exact: (mul_sat b h2 ht hs rb rr rp rs e ec s1 s2 hb hok hres).
Qed.

(** Hence the gadget is not complete: when the base and the first point have the same
    first coordinate the constraints cannot be satisfied, even if all the scalars are 0
    and the result, the base itself, is well defined. *)
Theorem C42_multiscalar_zero_scalar_refuted pb base scalars n P points result g pb' cs x (bs : seq (seq bool)) :
  2%:R != 0 :> F -> 4%:R * a ^+ 3 + 27%:R * b ^+ 2 != 0 ->
  g1_mul_new pb base scalars n (P :: points) result = Ok (g, pb') -> g1_mul_constraints a g = Ok cs ->
  all (fun P => on_curve a b (g1_val x P)) (P :: points) ->
  size bs = size (P :: points) -> all (fun c => size c == n) bs ->
  map (xval x) scalars = [seq (nat_of_bool c)%:R | c <- flatten bs] ->
  lval x (g1_X base) = lval x (g1_X P) -> ~ holds cs x.
Proof.
move=> h2 hn e ec hc s1 s2 hb hx h.
have [] := mul_sound h2 hn hc e ec h s1 s2 hb.
have [m [ps [ds [pb1 [steps [en _ _ _ _]]]]]] := mul_constraints_ok a b e.
case: bs s1 s2 hb => [|[|c cs0] bs] //; first by move=> _ /andP[/eqP z _]; move: en; rewrite -z.
move=> _ _ _; cbn [map zip ec_multiscalar_ok ec_scalar_ok]; rewrite /distinct_x /g1_val hx eqxx //.
Qed.

(** With no scalar bits per point the constructor's loop bound wraps around. *)
Theorem C42_multiscalar_no_bits pb base points result :
  (0 < size points)%N -> g1_mul_new pb base [::] 0 points result = UB.
Proof. by move=> h; rewrite /g1_mul_new h muln0. Qed.

(** * G2 *)

(** The checks over the extension fields [F[X]/(X^2 - nr)] and [F[X]/(X^3 - nr)]
    accept exactly the points of the twist. *)
Theorem C42_checker_fp2 pb Q a2 b2 g pb' x : 2%:R != 0 :> F -> g2_checker2_new pb Q a2 b2 = (g, pb') ->
  (holds (g2_checker2_constraints nr g) x -> on_curve2 nr a2 b2 (fp2_val x (g2_X Q)) (fp2_val x (g2_Y Q))) /\
  (pb_wf pb -> size x = size (pb_values pb) -> ranged2 (size x) (g2_X Q) -> ranged2 (size x) (g2_Y Q) ->
   on_curve2 nr a2 b2 (fp2_val x (g2_X Q)) (fp2_val x (g2_Y Q)) ->
   exists zs, size (x ++ zs) = size (pb_values pb') /\ holds (g2_checker2_constraints nr g) (x ++ zs)).
Proof.
move=> h2 e; split; first exact: checker2_sound h2 e.
by move=> hw hs r1 r2; exact: (checker2_sat h2 hw hs r1 r2 e).
Qed.
Theorem C42_checker_fp3 pb Q a3 b3 g pb' x : 2%:R != 0 :> F -> 3%:R != 0 :> F -> nr != 0 ->
  g2_checker3_new pb Q a3 b3 = (g, pb') ->
  (holds (g2_checker3_constraints nr g) x -> on_curve3 nr a3 b3 (fp3_val x (g2_X Q)) (fp3_val x (g2_Y Q))) /\
  (pb_wf pb -> size x = size (pb_values pb) -> ranged3 (size x) (g2_X Q) -> ranged3 (size x) (g2_Y Q) ->
   on_curve3 nr a3 b3 (fp3_val x (g2_X Q)) (fp3_val x (g2_Y Q)) ->
   exists zs, size (x ++ zs) = size (pb_values pb') /\ holds (g2_checker3_constraints nr g) (x ++ zs)).
Proof.
move=> h2 h3 hn e; split; first exact: (checker3_sound h2 h3 hn e).
by move=> hw hs r1 r2; exact: (checker3_sat h2 h3 hn hw hs r1 r2 e).
Qed.
End Props.
Print Assumptions C42_checker.
Print Assumptions C42_add.
Print Assumptions C42_add_closed.
Print Assumptions C42_dbl.
Print Assumptions C42_multiscalar_defined.
Print Assumptions C42_multiscalar.
Print Assumptions C42_multiscalar_zero_scalar_refuted.
Print Assumptions C42_multiscalar_no_bits.
Print Assumptions C42_checker_fp2.
Print Assumptions C42_checker_fp3.

(** * A concrete curve: [y^2 = x^3 + 2 x + 2] over the field with 13 elements. *)
Local Notation F13 := [fieldType of 'F_13].
Local Notation pt x y := (Some (x%:R : F13, y%:R : F13)).

Example curve13 : 2%:R != 0 :> F13 /\ 4%:R * 2%:R ^+ 3 + 27%:R * 2%:R ^+ 2 != 0 :> F13.
Proof. by split; vm_compute. Qed.
(** [(2, 1) + 3 (3, 3) = (6, 3)], and no addition on the way is exceptional. *)
Example curve13_mul : [/\ on_curve (2%:R : F13) 2%:R (pt 3 3), distinct_x (pt 2 1) (pt 3 3),
  ec_add 2%:R (pt 2 1) (pt 3 3) == pt 12 5,
  ec_multiscalar_ok 2%:R (pt 2 1) [:: (pt 3 3, [:: true; true])] &
  ec_multiscalar 2%:R (pt 2 1) [:: (pt 3 3, [:: true; true])] == pt 6 3].
Proof. by split; vm_compute. Qed.

(** The gadget for it: base, point, result and two scalar bits are variables 1 to 8. *)
Definition pt_var (i : nat) : g1_var F13 := G1Var (plc_of_var F13 i) (plc_of_var F13 i.+1).
Definition pb8 : protoboard F13 := (allocate_array (pb_new F13) 8).2.
Definition x8 : seq F13 := [seq v%:R | v <- [:: 2%N; 1%N; 3%N; 3%N; 6%N; 3%N; 1%N; 1%N]].
Lemma wf_array (F : fieldType) n : pb_wf (allocate_array (pb_new F) n).2 /\ size (pb_values (allocate_array (pb_new F) n).2) = n.
Proof.
have w0 : pb_wf (pb_new F) by [].
case e: (allocate_array _ _) => [vs q]; have [_ -> _ _ h] := allocate_array_wf w0 e.
by rewrite size_cat size_nseq.
Qed.
Lemma x8_val i : (0 < i < 8)%N -> g1_val x8 (pt_var i) = Some (nth 0 x8 i.-1, nth 0 x8 i).
Proof. by case: i => // i _; rewrite /g1_val /pt_var; cbn [g1_X g1_Y]; rewrite !lval_var. Qed.
Lemma x8_scalars : map (xval x8) [:: 7%N; 8%N] = [seq (nat_of_bool c)%:R | c <- flatten [:: [:: true; true]]].
Proof. by apply/eqP; vm_compute. Qed.
Lemma x8_terms : zip (map (g1_val x8) [:: pt_var 3]) [:: [:: true; true]] = [:: (pt 3 3, [:: true; true])].
Proof. by rewrite [map _ _]/= x8_val. Qed.
Lemma pt8_ranged i : (i < 8)%N -> g1_ranged (size x8) (pt_var i).
Proof. by move=> h; rewrite /g1_ranged /pt_var; cbn [g1_X g1_Y]; rewrite !in_range_var // ltnW. Qed.

Example curve13_gadget : exists g pb' cs zs,
  [/\ g1_mul_new pb8 (pt_var 1) [:: 7%N; 8%N] 2 [:: pt_var 3] (pt_var 5) = Ok (g, pb'),
      g1_mul_constraints (2%:R : F13) g = Ok cs & holds cs (x8 ++ zs)].
Proof.
have hz : (1 * 2 = size [:: 7%N; 8%N])%N by [].
have [hw hs] := wf_array F13 8; have {}hs : size x8 = size (pb_values pb8) := esym hs.
have rp : all (g1_ranged (size x8)) [:: pt_var 3] by rewrite [all _ _]andbT; apply: pt8_ranged.
have hok : ec_multiscalar_ok 2%:R (g1_val x8 (pt_var 1)) (zip (map (g1_val x8) [:: pt_var 3]) [:: [:: true; true]]).
  by rewrite x8_terms x8_val //; vm_compute.
have hres : g1_val x8 (pt_var 5) = ec_multiscalar 2%:R (g1_val x8 (pt_var 1)) (zip (map (g1_val x8) [:: pt_var 3]) [:: [:: true; true]]).
  rewrite x8_terms (x8_val (isT : (0 < 5 < 8)%N)) (x8_val (isT : (0 < 1 < 8)%N)); apply/eqP; by vm_compute.
have r1 : g1_ranged (size x8) (pt_var 1) by apply: pt8_ranged.
have r5 : g1_ranged (size x8) (pt_var 5) by apply: pt8_ranged.
have hv := x8_scalars; have h2 := proj1 curve13.
have rs : all (fun v => (v <= size x8)%N) [:: 7%N; 8%N] by [].
have [g [pb' [cs [e ec]]]] := @C42_multiscalar_defined F13 2%:R 2%:R pb8 (pt_var 1) [:: 7%N; 8%N] 1 [:: pt_var 3] (pt_var 5) isT hz.
have [_ h] := C42_multiscalar 2%:R h2 e ec (erefl : size [:: [:: true; true]] = 1%N) isT hv.
have [zs [_ hh]] := h hw hs r1 r5 rp rs hok hres.
exact: (ex_intro _ g (ex_intro _ pb' (ex_intro _ cs (ex_intro _ zs (And3 e ec hh))))).
Qed.
(** [(3, 3)] as base and point: nothing satisfies the constraints. *)
Example curve13_stuck : ec_multiscalar 2%:R (pt 3 3) [:: (pt 3 3, [:: false; false])] == pt 3 3 /\
  ~~ ec_multiscalar_ok 2%:R (pt 3 3) [:: (pt 3 3, [:: false; false])].
Proof. by split; vm_compute. Qed.
(** Points with proper extension coordinates: [x = X], [y = 1] on [y^2 = x^3 + (- X^2) x + 1] over both. *)
Example curve13_fp2 : on_curve2 (2%:R : F13) (11%:R, 0) (1, 0) (Poly [:: 0; 1]) (Poly [:: 1; 0]).
Proof. by apply/curve2; split; apply/eqP; vm_compute. Qed.
Example curve13_fp3 : on_curve3 (2%:R : F13) (0, 0, 12%:R) (1, 0, 0) (Poly [:: 0; 1; 0]) (Poly [:: 1; 0; 0]).
Proof. by apply/curve3; split; apply/eqP; vm_compute. Qed.
