(** C41: the extension-field gadgets and the exponentiation gadget.

    Vocabulary (GadgetSpec.v, ExtFieldSpec.v): [x] is the vector of variable values,
    [holds cs x] says that all the constraints hold.  The extension field of degree
    [k] is [F[X]/(X^k - nr)]; [fp2_val x v] ... [fp6_val x v] are the polynomials that
    the variables stand for, [P %% ext_modulus k nr] is the element of the field that
    the polynomial [P] represents.  [ranged2 n v] etc. say that the combinations in [v]
    involve only the first [n] variables. *)
From mathcomp Require Import all_ssreflect all_algebra zify.
From Verif Require Import Outcome Lincomb LincombSpec LincombFacts R1CS R1CSSpec R1CSFacts Fieldtac.
From Verif Require Import Protoboard GadgetSpec GadgetLogic FieldGadgets ExtFieldSpec ExtFieldFacts ExtFieldAlgebra.
From Verif Require Import FieldGadgetsFacts ExtFrobenius FieldGadgetsCyc ExpGadget FieldGadgetsSat.
Set Implicit Arguments.
Unset Strict Implicit.
Unset Printing Implicit Defensive.
Local Open Scope ring_scope.
Import GRing.Theory.

Section Props.
Variable F : fieldType.
Variable nr : F.
Add Field Fp : (Fth F).
Implicit Types (x : seq F) (pb : protoboard F).

(** * Fp2 *)

(** In every satisfying assignment the result is the product; and every assignment
    with the right result extends to a satisfying one. *)
Theorem C41_fp2_mul pb A B R g pb' x : fp2_mul_new pb A B R = (g, pb') ->
  (holds (fp2_mul_constraints nr g) x -> fp2_val x R = (fp2_val x A * fp2_val x B) %% ext_modulus 2 nr) /\
  (pb_wf pb -> size x = size (pb_values pb) -> ranged2 (size x) A -> ranged2 (size x) B -> ranged2 (size x) R ->
   fp2_val x R = (fp2_val x A * fp2_val x B) %% ext_modulus 2 nr ->
   exists zs, size (x ++ zs) = size (pb_values pb') /\ holds (fp2_mul_constraints nr g) (x ++ zs)).
Proof.
move=> e; split; last by move=> *; apply: fp2_mul_sat e _.
move: e; rewrite /fp2_mul_new /= => -[<- _]; rewrite fp2_mul_coef /= => -[_ h].
by rewrite {2 3}/fp2_val ext2_mul fp2_val_eq.
Qed.

Theorem C41_fp2_sqr (g : fp2_sqr F) x : 2%:R != 0 :> F ->
  holds (fp2_sqr_constraints nr g) x <->
  fp2_val x (f2s_result g) = (fp2_val x (f2s_A g) * fp2_val x (f2s_A g)) %% ext_modulus 2 nr.
Proof. by move=> h2; rewrite fp2_sqr_coef // {2 3}/fp2_val ext2_mul fp2_val_eq. Qed.

Theorem C41_fp2_mul_by_lc (g : fp2_mul_by_lc F) x :
  holds (fp2_mul_by_lc_constraints g) x <-> fp2_val x (f2l_result g) = lval x (f2l_lc g) *: fp2_val x (f2l_A g).
Proof.
rewrite /fp2_mul_by_lc_constraints !holds_cons holds_nil /constraint_holds /= !sum_lval.
have -> : lval x (f2l_lc g) *: fp2_val x (f2l_A g) =
  Poly [:: lval x (f2_c0 (f2l_A g)) * lval x (f2l_lc g); lval x (f2_c1 (f2l_A g)) * lval x (f2l_lc g)].
  apply/polyP=> i; rewrite coefZ !coef_Poly.
  by case: i => [|[|i]]; rewrite /= ?nth_nil ?mulr0 // mulrC.
by rewrite fp2_val_eq; split=> [[-> [-> _]]|[-> ->]].
Qed.

(** The operations without constraints. *)
Theorem C41_fp2_linear pb (v w : fp2_var F) (c : F) (e : fp2_elt F) x :
  [/\ fp2_val x (fp2_scale pb v c).1 = c *: fp2_val x v,
      fp2_val x (fp2_add pb v w).1 = fp2_val x v + fp2_val x w,
      fp2_val x (fp2_add_const pb v e).1 = fp2_val x v + Poly [:: e.1; e.2] &
      fp2_val x (fp2_mul_by_X nr pb v).1 = (fp2_val x v * 'X) %% ext_modulus 2 nr].
Proof.
have lvE pb1 l1 pb2 l2 : fp2_val x (Fp2Var (lc_assign pb1 l1).1 (lc_assign pb2 l2).1) = Poly [:: formal_sum l1 x; formal_sum l2 x] by [].
split.
- rewrite (_ : fp2_val _ _ = Poly [:: c * lval x (f2_c0 v); c * lval x (f2_c1 v)]); last first.
    by rewrite -!formal_sum_scale.
  by apply/polyP=> i; rewrite coefZ !coef_Poly; case: i => [|[|i]]; rewrite /= ?nth_nil ?mulr0.
- rewrite (_ : fp2_val _ _ = Poly [:: lval x (f2_c0 v) + lval x (f2_c0 w); lval x (f2_c1 v) + lval x (f2_c1 w)]); last first.
    by rewrite -!formal_sum_add.
  by apply/polyP=> i; rewrite coefD !coef_Poly; case: i => [|[|i]]; rewrite /= ?nth_nil ?addr0.
- rewrite (_ : fp2_val _ _ = Poly [:: lval x (f2_c0 v) + e.1; lval x (f2_c1 v) + e.2]); last first.
    by rewrite -[e.1](formal_sum_const _ x) -[e.2](formal_sum_const _ x) -!formal_sum_add.
  by apply/polyP=> i; rewrite coefD !coef_Poly; case: i => [|[|i]]; rewrite /= ?nth_nil ?addr0.
- have -> : 'X = Poly [:: 0; 1] :> {poly F} by rewrite Poly2 polyC0 add0r mul1r.
  rewrite [fp2_val x v]/fp2_val ext2_mul fp2_val_eq; split.
  + by rewrite (_ : lval _ _ = nr * lval x (f2_c1 v)) ?mulr0 ?add0r ?mulr1 // -formal_sum_scale.
  + by rewrite (_ : lval _ _ = lval x (f2_c0 v)) // mulr1 mulr0 addr0.
Qed.

(** * Fp3 *)

Theorem C41_fp3_mul pb A B R g pb' x : 2%:R != 0 :> F -> 3%:R != 0 :> F -> nr != 0 ->
  fp3_mul_new pb A B R = (g, pb') ->
  (holds (fp3_mul_constraints nr g) x -> fp3_val x R = (fp3_val x A * fp3_val x B) %% ext_modulus 3 nr) /\
  (pb_wf pb -> size x = size (pb_values pb) -> ranged3 (size x) A -> ranged3 (size x) B -> ranged3 (size x) R ->
   fp3_val x R = (fp3_val x A * fp3_val x B) %% ext_modulus 3 nr ->
   exists zs, size (x ++ zs) = size (pb_values pb') /\ holds (fp3_mul_constraints nr g) (x ++ zs)).
Proof.
move=> h2 h3 hn e; split; last by move=> *; apply: fp3_mul_sat e _.
move: e; rewrite /fp3_mul_new /= => -[<- _]; rewrite fp3_mul_coef //= => -[_ _ e0 e1 e2].
by rewrite {2 3}/fp3_val ext3_mul fp3_val_eq.
Qed.

Theorem C41_fp3_sqr pb A R g pb' x : 2%:R != 0 :> F -> 3%:R != 0 :> F -> nr != 0 ->
  fp3_sqr_new pb A R = (g, pb') -> holds (fp3_sqr_constraints nr g) x ->
  fp3_val x R = (fp3_val x A * fp3_val x A) %% ext_modulus 3 nr.
Proof.
move=> h2 h3 hn; rewrite /fp3_sqr_new; case e: (fp3_mul_new _ _ _ _) => [m pb1] [<- _].
exact: (C41_fp3_mul x h2 h3 hn e).1.
Qed.

Theorem C41_fp3_mul_by_lc (g : fp3_mul_by_lc F) x :
  holds (fp3_mul_by_lc_constraints g) x <-> fp3_val x (f3l_result g) = lval x (f3l_lc g) *: fp3_val x (f3l_A g).
Proof.
rewrite /fp3_mul_by_lc_constraints !holds_cons holds_nil /constraint_holds /= !sum_lval.
have -> : lval x (f3l_lc g) *: fp3_val x (f3l_A g) =
  Poly [:: lval x (f3_c0 (f3l_A g)) * lval x (f3l_lc g); lval x (f3_c1 (f3l_A g)) * lval x (f3l_lc g);
           lval x (f3_c2 (f3l_A g)) * lval x (f3l_lc g)].
  apply/polyP=> i; rewrite coefZ !coef_Poly.
  by case: i => [|[|[|i]]]; rewrite /= ?nth_nil ?mulr0 // mulrC.
by rewrite fp3_val_eq; split=> [[-> [-> [-> _]]]|[-> -> ->]].
Qed.

Theorem C41_fp3_linear pb (v w : fp3_var F) (c : F) (e : fp3_elt F) x :
  [/\ fp3_val x (fp3_scale pb v c).1 = c *: fp3_val x v,
      fp3_val x (fp3_add pb v w).1 = fp3_val x v + fp3_val x w,
      fp3_val x (fp3_add_const pb v e).1 = fp3_val x v + Poly [:: e.1.1; e.1.2; e.2] &
      fp3_val x (fp3_mul_by_X nr pb v).1 = (fp3_val x v * 'X) %% ext_modulus 3 nr].
Proof.
split.
- rewrite (_ : fp3_val _ _ = Poly [:: c * lval x (f3_c0 v); c * lval x (f3_c1 v); c * lval x (f3_c2 v)]); last first.
    by rewrite -!formal_sum_scale.
  by apply/polyP=> i; rewrite coefZ !coef_Poly; case: i => [|[|[|i]]]; rewrite /= ?nth_nil ?mulr0.
- rewrite (_ : fp3_val _ _ = Poly [:: lval x (f3_c0 v) + lval x (f3_c0 w); lval x (f3_c1 v) + lval x (f3_c1 w);
    lval x (f3_c2 v) + lval x (f3_c2 w)]); last first.
    by rewrite -!formal_sum_add.
  by apply/polyP=> i; rewrite coefD !coef_Poly; case: i => [|[|[|i]]]; rewrite /= ?nth_nil ?addr0.
- rewrite (_ : fp3_val _ _ = Poly [:: lval x (f3_c0 v) + e.1.1; lval x (f3_c1 v) + e.1.2; lval x (f3_c2 v) + e.2]); last first.
    by rewrite -[e.1.1](formal_sum_const _ x) -[e.1.2](formal_sum_const _ x) -[e.2](formal_sum_const _ x) -!formal_sum_add.
  by apply/polyP=> i; rewrite coefD !coef_Poly; case: i => [|[|[|i]]]; rewrite /= ?nth_nil ?addr0.
- have -> : 'X = Poly [:: 0; 1; 0] :> {poly F} by rewrite Poly3 polyC0 add0r mul0r addr0 mul1r.
  rewrite [fp3_val x v]/fp3_val ext3_mul fp3_val_eq; split.
  + by rewrite (_ : lval _ _ = nr * lval x (f3_c2 v)) ?mulr0 ?add0r ?mulr1 // -formal_sum_scale.
  + by rewrite (_ : lval _ _ = lval x (f3_c0 v)) // !mulr0 mulr1 !addr0.
  + by rewrite (_ : lval _ _ = lval x (f3_c1 v)) // !mulr0 mulr1 addr0 add0r.
Qed.

(** * Fp4 *)

Theorem C41_fp4_tower_mul pb A B R g pb' x : fp4_tower_mul_new nr pb A B R = (g, pb') ->
  (holds (fp4_tower_mul_constraints nr g) x -> fp4_val x R = (fp4_val x A * fp4_val x B) %% ext_modulus 4 nr) /\
  (pb_wf pb -> size x = size (pb_values pb) -> ranged4 (size x) A -> ranged4 (size x) B -> ranged4 (size x) R ->
   fp4_val x R = (fp4_val x A * fp4_val x B) %% ext_modulus 4 nr ->
   exists zs, size (x ++ zs) = size (pb_values pb') /\ holds (fp4_tower_mul_constraints nr g) (x ++ zs)).
Proof. by move=> e; split; [exact: fp4_tower_mul_sound e | move=> *; apply: fp4_tower_mul_sat e _]. Qed.

Theorem C41_fp4_direct_mul pb A B R g pb' x :
  2%:R != 0 :> F -> 3%:R != 0 :> F -> 5%:R != 0 :> F -> 1 - nr != 0 ->
  fp4_direct_mul_new pb A B R = (g, pb') ->
  (holds (fp4_direct_mul_constraints nr g) x -> fp4_val x R = (fp4_val x A * fp4_val x B) %% ext_modulus 4 nr) /\
  (pb_wf pb -> size x = size (pb_values pb) -> ranged4 (size x) A -> ranged4 (size x) B -> ranged4 (size x) R ->
   fp4_val x R = (fp4_val x A * fp4_val x B) %% ext_modulus 4 nr ->
   exists zs, size (x ++ zs) = size (pb_values pb') /\ holds (fp4_direct_mul_constraints nr g) (x ++ zs)).
Proof.
move=> h2 h3 h5 hn e; split; last by move=> *; apply: fp4_direct_mul_sat e _.
move=> h; have := fp4_direct_mul_holds h2 h3 h5 hn h.
by move: e; rewrite /fp4_direct_mul_new /= => -[<- _].
Qed.

Theorem C41_fp4_sqr pb A R g pb' x : 2%:R != 0 :> F -> fp4_sqr_new nr pb A R = (g, pb') ->
  holds (fp4_sqr_constraints nr g) x -> fp4_val x R = (fp4_val x A * fp4_val x A) %% ext_modulus 4 nr.
Proof. exact: fp4_sqr_sound. Qed.

(** * Fp6 *)

Theorem C41_fp6_mul pb A B R g pb' x : 2%:R != 0 :> F -> 3%:R != 0 :> F -> nr != 0 ->
  fp6_mul_new nr pb A B R = (g, pb') ->
  (holds (fp6_mul_constraints nr g) x -> fp6_val x R = (fp6_val x A * fp6_val x B) %% ext_modulus 6 nr) /\
  (pb_wf pb -> size x = size (pb_values pb) -> ranged6 (size x) A -> ranged6 (size x) B -> ranged6 (size x) R ->
   fp6_val x R = (fp6_val x A * fp6_val x B) %% ext_modulus 6 nr ->
   exists zs, size (x ++ zs) = size (pb_values pb') /\ holds (fp6_mul_constraints nr g) (x ++ zs)).
Proof.
move=> h2 h3 hn e; split; first exact: fp6_mul_sound e.
by move=> *; apply: fp6_mul_sat e _.
Qed.

Theorem C41_fp6_sqr pb A R g pb' x : 2%:R != 0 :> F -> 3%:R != 0 :> F -> nr != 0 ->
  fp6_sqr_new nr pb A R = (g, pb') -> holds (fp6_sqr_constraints nr g) x ->
  fp6_val x R = (fp6_val x A * fp6_val x A) %% ext_modulus 6 nr.
Proof.
move=> h2 h3 hn; rewrite /fp6_sqr_new; case e: (fp6_mul_new _ _ _ _ _) => [m pb1] [<- _].
exact: (C41_fp6_mul x h2 h3 hn e).1.
Qed.

(** * The Frobenius maps and squaring in the cyclotomic subgroups *)

Section Prime.
Variable p : nat.
(** [F] is the prime field of order [p]. *)
Hypothesis hp : p \in [char F].
Hypothesis hF : forall a : F, a ^+ p = a.

Theorem C41_fp4_Frobenius_map i pb v c2 c4 w pb' x : (4 %| p.-1)%N ->
  c2 = nr ^+ ((p ^ i).-1 %/ 2) -> c4 = nr ^+ ((p ^ i).-1 %/ 4) ->
  fp4_Frobenius_map pb v c2 c4 = (w, pb') -> fp4_val x w = (fp4_val x v ^+ (p ^ i)) %% ext_modulus 4 nr.
Proof. exact: fp4_Frobenius_pow. Qed.

Theorem C41_fp6_Frobenius_map i pb v c31 c32 c61 w pb' x : (6 %| p.-1)%N ->
  c31 = nr ^+ ((p ^ i).-1 %/ 3) -> c32 = nr ^+ (2 * ((p ^ i).-1 %/ 3)) -> c61 = nr ^+ ((p ^ i).-1 %/ 6) ->
  fp6_Frobenius_map pb v c31 c32 c61 = (w, pb') -> fp6_val x w = (fp6_val x v ^+ (p ^ i)) %% ext_modulus 6 nr.
Proof. exact: fp6_Frobenius_pow. Qed.

(** For elements of order dividing [p^2 + 1], the constraints hold exactly of the square. *)
Theorem C41_fp4_cyclotomic_sqr pb A R g pb' x : 2%:R != 0 :> F -> nr != 0 -> (4 %| p.-1)%N ->
  nr ^+ (p.-1 %/ 2) = -1 -> (fp4_val x A ^+ (p ^ 2 + 1)) %% ext_modulus 4 nr = 1 ->
  fp4_cyclotomic_sqr_new nr pb A R = (g, pb') ->
  holds (fp4_cyclotomic_sqr_constraints nr g) x <->
  fp4_val x R = (fp4_val x A * fp4_val x A) %% ext_modulus 4 nr.
Proof. by move=> h2 hn h4 hr h; apply: (fp4_cyclotomic_sqr_iff h2 hn (cyclotomic4 hp hF h4 hr h)). Qed.

(** For elements of order dividing [p^2 - p + 1]; [nr] is no square and no cube. *)
Lemma zeta6 : (6 %| p.-1)%N -> nr != 0 -> nr ^+ (p.-1 %/ 2) != 1 -> nr ^+ (p.-1 %/ 3) != 1 ->
  let z := nr ^+ (p.-1 %/ 6) in z ^+ 2 - z + 1 = 0.
Proof.
move=> /dvdnP[t e] hn; rewrite e (_ : (t * 6 = t * 3 * 2)%N) ?mulnK //; last by lia.
rewrite [X in _ -> (nr ^+ X != 1) -> _](_ : _ = (t * 2)%N); last by rewrite (_ : (t * 3 * 2 = t * 2 * 3)%N) ?mulnK //; lia.
rewrite (_ : (t * 3 * 2 = t * 6)%N) ?mulnK //; last by lia.
rewrite !exprM; set z := nr ^+ t => h3 h2 /=.
have z6 : z ^+ 6 = 1.
  have p0 : (0 < p)%N by rewrite prime_gt0 // (charf_prime hp).
  apply: (mulfI hn); rewrite mulr1 /z -exprM -e -exprS prednK //.
have f : (z ^+ 3 - 1) * ((z + 1) * (z ^+ 2 - z + 1)) = 0.
  rewrite (_ : _ * _ = z ^+ 6 - 1); first by rewrite z6 subrr.
  by move: (z : F) => u; fring F.
move: f => /eqP; rewrite !mulf_eq0 subr_eq0 (negbTE h3) /= => /orP[/eqP h|/eqP //].
have ez : z = -1 by apply/eqP; rewrite -addr_eq0 h.
by move: h2; rewrite ez expr2 mulrNN mulr1 eqxx.
Qed.

Theorem C41_fp6_cyclotomic_sqr pb A R g pb' x : 2%:R != 0 :> F -> 3%:R != 0 :> F -> nr != 0 -> (6 %| p.-1)%N ->
  nr ^+ (p.-1 %/ 2) != 1 -> nr ^+ (p.-1 %/ 3) != 1 ->
  (fp6_val x A ^+ (p ^ 2 - p + 1)) %% ext_modulus 6 nr = 1 ->
  fp6_cyclotomic_sqr_new nr pb A R = (g, pb') ->
  holds (fp6_cyclotomic_sqr_constraints nr g) x <->
  fp6_val x R = (fp6_val x A * fp6_val x A) %% ext_modulus 6 nr.
Proof.
move=> h2 h3 hn h6 r2 r3 h; apply: (fp6_cyclotomic_sqr_iff h2 h3 hn (zeta6 h6 hn r2 r3)).
have p0 : (0 < p)%N by rewrite prime_gt0 // (charf_prime hp).
by have := cyclotomic6 hp hF h6 p0 h; rewrite /ext_eq => ->; rewrite small6.
Qed.
End Prime.

(** * Exponentiation *)

Lemma fp2_const_val pb e v pb' x : fp2_const pb e = Ok (v, pb') -> fp2_val x v = Poly [:: e.1; e.2].
Proof.
rewrite /fp2_const; do 2 step; do 2 (case: (lc_evaluate _ _) => [?| |] //=).
by case=> <- _; rewrite fp2_val_eq /= E E0 !fsE.
Qed.
Lemma fp3_const_val pb e v pb' x : fp3_const pb e = Ok (v, pb') -> fp3_val x v = Poly [:: e.1.1; e.1.2; e.2].
Proof.
rewrite /fp3_const; do 3 step; do 3 (case: (lc_evaluate _ _) => [?| |] //=).
by case=> <- _; rewrite fp3_val_eq /= E E0 E1 !fsE.
Qed.

(** The gadget over each field.  [digits] are the signed binary digits of the
    exponent, most significant first (libff's [find_wnaf]).  When a digit is negative
    the base has to be invertible. *)
Theorem C41_fp2_exponentiation pb (elt : fp2_var F) digits result g pb' x : 2%:R != 0 :> F ->
  exponentiation_new (@fp2_new F) (@fp2_const F) (@fp2_mul_new F) (fun pb A R => (Fp2Sqr A R, pb)) (1, 0)
    pb elt digits result = Ok (g, pb') ->
  all signed_digit digits -> 0 < digits_value digits ->
  (all (fun d => 0 <= d) digits \/ coprimep (fp2_val x elt) (ext_modulus 2 nr)) ->
  holds (exponentiation_constraints (fp2_mul_constraints nr) (fp2_sqr_constraints nr) g) x ->
  fp2_val x result = (fp2_val x elt ^+ `|digits_value digits|%N) %% ext_modulus 2 nr.
Proof.
move=> h2 e hd hv hn; apply: (exponentiation_sound _ _ _ _ e) => //.
- by move=> v; rewrite small_mod.
- by move=> pb1 v pb2 /(fp2_const_val x) ->; rewrite Poly2 polyC0 mul0r addr0.
- by move=> pb1 A B R g1 pb2 e1; apply: (C41_fp2_mul x e1).1.
- by move=> pb1 A R g1 pb2 [<- _] /(C41_fp2_sqr _ _ h2).
Qed.

Theorem C41_fp3_exponentiation pb (elt : fp3_var F) digits result g pb' x : 2%:R != 0 :> F -> 3%:R != 0 :> F -> nr != 0 ->
  exponentiation_new (@fp3_new F) (@fp3_const F) (@fp3_mul_new F) (@fp3_sqr_new F) (1, 0, 0)
    pb elt digits result = Ok (g, pb') ->
  all signed_digit digits -> 0 < digits_value digits ->
  (all (fun d => 0 <= d) digits \/ coprimep (fp3_val x elt) (ext_modulus 3 nr)) ->
  holds (exponentiation_constraints (fp3_mul_constraints nr) (fp3_sqr_constraints nr) g) x ->
  fp3_val x result = (fp3_val x elt ^+ `|digits_value digits|%N) %% ext_modulus 3 nr.
Proof.
move=> h2 h3 h0 e hd hv hn; apply: (exponentiation_sound _ _ _ _ e) => //.
- by move=> v; rewrite small_mod.
- by move=> pb1 v pb2 /(fp3_const_val x) ->; rewrite Poly3 polyC0 !(mul0r, addr0).
- by move=> pb1 A B R g1 pb2 e1; apply: (C41_fp3_mul x h2 h3 h0 e1).1.
- by move=> pb1 A R g1 pb2 e1 h _; apply: C41_fp3_sqr e1 h.
Qed.

Lemma fp4_const_val pb (e : fp4_elt F) v pb' x : fp4_const pb e = Ok (v, pb') ->
  fp4_val x v = Poly [:: e.1.1; e.2.1; e.1.2; e.2.2].
Proof.
rewrite /fp4_const; case e1: (fp2_const pb e.1) => [[c pb1]| |] //=; case e2: (fp2_const pb1 e.2) => [[d pb2]| |] //= [<- _].
by move: e1 e2 => /(fp2_const_val x)/fp2_val_eq[h1 h2] /(fp2_const_val x)/fp2_val_eq[h3 h4]; rewrite fp4_val_eq.
Qed.
Lemma fp6_const_val pb (e : fp6_elt F) v pb' x : fp6_const pb e = Ok (v, pb') ->
  fp6_val x v = Poly [:: e.1.1.1; e.2.1.1; e.1.1.2; e.2.1.2; e.1.2; e.2.2].
Proof.
rewrite /fp6_const; case e1: (fp3_const pb e.1) => [[c pb1]| |] //=; case e2: (fp3_const pb1 e.2) => [[d pb2]| |] //= [<- _].
by move: e1 e2 => /(fp3_const_val x)/fp3_val_eq[h1 h2 h3] /(fp3_const_val x)/fp3_val_eq[h4 h5 h6]; rewrite fp6_val_eq.
Qed.

Theorem C41_fp4_exponentiation pb (elt : fp4_var F) digits result g pb' x : 2%:R != 0 :> F ->
  exponentiation_new (@fp4_new F) (@fp4_const F) (@fp4_tower_mul_new F nr) (@fp4_sqr_new F nr) ((1, 0), (0, 0))
    pb elt digits result = Ok (g, pb') ->
  all signed_digit digits -> 0 < digits_value digits ->
  (all (fun d => 0 <= d) digits \/ coprimep (fp4_val x elt) (ext_modulus 4 nr)) ->
  holds (exponentiation_constraints (fp4_tower_mul_constraints nr) (fp4_sqr_constraints nr) g) x ->
  fp4_val x result = (fp4_val x elt ^+ `|digits_value digits|%N) %% ext_modulus 4 nr.
Proof.
move=> h2 e hd hv hn.
have s1 v : fp4_val x v %% ext_modulus 4 nr = fp4_val x v by rewrite small_mod.
have s2 pb1 v pb2 : fp4_const pb1 ((1, 0), (0, 0)) = Ok (v, pb2) -> fp4_val x v = 1.
  by move/(fp4_const_val x) => ->; rewrite Poly4 polyC0 !(mul0r, addr0).
have s3 pb1 A B R g1 pb2 (e1 : fp4_tower_mul_new nr pb1 A B R = (g1, pb2)) := (C41_fp4_tower_mul x e1).1.
have s4 pb1 A R g1 pb2 : fp4_sqr_new nr pb1 A R = (g1, pb2) -> holds (fp4_sqr_constraints nr g1) x ->
  (exists n : nat, fp4_val x A = (fp4_val x elt ^+ n) %% ext_modulus 4 nr) -> fp4_val x R = (fp4_val x A * fp4_val x A) %% ext_modulus 4 nr.
  by move=> e1 h _; apply: C41_fp4_sqr e1 h.
exact: (exponentiation_sound s1 s2 s3 s4 e hd hn hv).
Qed.

(** As in the final exponentiation of the pairing: squaring is the cyclotomic one. *)
Theorem C41_fp6_cyclotomic_exponentiation p pb (elt : fp6_var F) digits result g pb' x :
  p \in [char F] -> (forall a : F, a ^+ p = a) ->
  2%:R != 0 :> F -> 3%:R != 0 :> F -> nr != 0 -> (6 %| p.-1)%N ->
  nr ^+ (p.-1 %/ 2) != 1 -> nr ^+ (p.-1 %/ 3) != 1 ->
  (fp6_val x elt ^+ (p ^ 2 - p + 1)) %% ext_modulus 6 nr = 1 ->
  exponentiation_new (@fp6_new F) (@fp6_const F) (@fp6_mul_new F nr) (@fp6_cyclotomic_sqr_new F nr) ((1, 0, 0), (0, 0, 0))
    pb elt digits result = Ok (g, pb') ->
  all signed_digit digits -> 0 < digits_value digits ->
  holds (exponentiation_constraints (fp6_mul_constraints nr) (fp6_cyclotomic_sqr_constraints nr) g) x ->
  fp6_val x result = (fp6_val x elt ^+ `|digits_value digits|%N) %% ext_modulus 6 nr.
Proof.
move=> hp hF h2 h3 hn h6 r2 r3 hc e hd hv.
have s1 v : fp6_val x v %% ext_modulus 6 nr = fp6_val x v by rewrite small_mod.
have s2 pb1 v pb2 : fp6_const pb1 ((1, 0, 0), (0, 0, 0)) = Ok (v, pb2) -> fp6_val x v = 1.
  by move/(fp6_const_val x) => ->; rewrite Poly6 polyC0 !(mul0r, addr0).
have s3 pb1 A B R g1 pb2 (e1 : fp6_mul_new nr pb1 A B R = (g1, pb2)) := (C41_fp6_mul x h2 h3 hn e1).1.
have s4 pb1 A R g1 pb2 : fp6_cyclotomic_sqr_new nr pb1 A R = (g1, pb2) -> holds (fp6_cyclotomic_sqr_constraints nr g1) x ->
  (exists n : nat, fp6_val x A = (fp6_val x elt ^+ n) %% ext_modulus 6 nr) -> fp6_val x R = (fp6_val x A * fp6_val x A) %% ext_modulus 6 nr.
  move=> e1 h [n en]; apply/(C41_fp6_cyclotomic_sqr hp hF h2 h3 hn h6 r2 r3 _ e1) => //.
  have e2 : ext_eq 6 nr (fp6_val x A) (fp6_val x elt ^+ n) by rewrite /ext_eq en modp_mod.
  have h1 : ext_eq 6 nr (fp6_val x elt ^+ (p ^ 2 - p + 1)) 1 by rewrite /ext_eq hc modp_small // size_poly1 size_modulus.
  have := mod_exp (p ^ 2 - p + 1) e2; rewrite /ext_eq => ->; rewrite exprAC.
  by have := mod_exp n h1; rewrite /ext_eq => ->; rewrite expr1n modp_small // size_poly1 size_modulus.
have s5 : coprimep (fp6_val x elt) (ext_modulus 6 nr).
  have m1 : ext_modulus 6 nr %| fp6_val x elt ^+ (p ^ 2 - p + 1) - 1.
    by rewrite /dvdp modpD modpN hc modp_small ?subrr // size_poly1 size_modulus.
  apply/Bezout_eq1_coprimepP.
  move/dvdpP: m1 => [q eq]; exists (fp6_val x elt ^+ (p ^ 2 - p), - q) => /=.
  by rewrite -exprSr -addn1 mulNr -eq opprB addrC subrK.
exact: (exponentiation_sound s1 s2 s3 s4 e hd (or_intror s5) hv).
Qed.

(** Without a non-zero digit (exponent 0) the constructor reads outside its vector. *)
Theorem C41_exponentiation_power_zero (Var MulG SqrG Elt : Type) var_new var_const mul_new sqr_new (one : Elt) pb (elt : Var) n result :
  @exponentiation_new F Var MulG SqrG Elt var_new var_const mul_new sqr_new one pb elt (nseq n 0) result = UB.
Proof.
rewrite /exponentiation_new (_ : exp_ops false (nseq n 0) = [::]) //.
by elim: n => [|n IH].
Qed.

(** With base 0 and a negative digit the constraints leave the result open: for
    0^3, with 3 written 1 0 -1, every result is accepted. *)
Lemma fp2_const_new : exists c0 c1 pb', fp2_const (fp2_new (fp2_new (pb_new F)).2).2 (1, 0) = Ok (Fp2Var c0 c1, pb') /\
  pb_next_free_var pb' = 5%N.
Proof. by eexists; eexists; eexists; split. Qed.

Lemma exponentiation_cube (a r0 r1 : F) : 2%:R != 0 :> F -> r0 * a = a * a * (a * a) -> r1 * a = 0 ->
  let: (elt, pb) := fp2_new (pb_new F) in
  let: (result, pb) := fp2_new pb in
  exists g pb' x,
  [/\ exponentiation_new (@fp2_new F) (@fp2_const F) (@fp2_mul_new F) (fun pb A R => (Fp2Sqr A R, pb)) (1, 0)
        pb elt [:: 1; 0; -1] result = Ok (g, pb'),
      holds (exponentiation_constraints (fp2_mul_constraints nr) (fp2_sqr_constraints nr) g) x,
      fp2_val x elt = Poly [:: a; 0] & fp2_val x result = Poly [:: r0; r1]].
Proof.
move=> h2 ha hb; have [c0 [c1 [pb [ec en]]]] := fp2_const_new.
case e1: (fp2_new (pb_new F)) => [elt pb1]; case e2: (fp2_new pb1) => [result pb2].
rewrite /exponentiation_new [exp_ops _ _]/=; cbn [size].
rewrite e1 [(_, _).2]/= e2 [(_, _).2]/= in ec.
have uc := fp2_const_val [:: a; 0; r0; r1; a; 0; a * a; 0; a * a * (a * a); 0; 0; 0] ec.
move: e1 e2 uc; rewrite ec => {ec} [[<- <-]] [<- _]; cbn [obind fst snd].
move=> /fp2_val_eq[u0 u1]; cbn [f2_c0 f2_c1] in u0, u1.
rewrite /exp_vars /fp2_new; do 6 step; cbn [exp_build rcons]; rewrite /fp2_mul_new; do 2 step.
eexists; eexists; exists [:: a; 0; r0; r1; a; 0; a * a; 0; a * a * (a * a); 0; 0; 0]; split; first by reflexivity.
- rewrite /exponentiation_constraints; cbn [ex_steps map flatten add_constraints sub_constraints dbl_constraints foldr].
  rewrite !holds_cat !fp2_mul_coef !(fp2_sqr_coef _ _ _ h2) !holds_nil; cbn [f2m_A f2m_B f2m_result f2m_v1 f2s_A f2s_result f2_c0 f2_c1].
  rewrite u0 u1 !lval_var.
  rewrite {}en in E; rewrite {}E in N *; rewrite {}N in E0; rewrite {}E0 in N0 *; rewrite {}N0 in E1; rewrite {}E1 in N1 *; rewrite {}N1 in E2.
  rewrite {}E2 in N2 *; rewrite {}N2 in E3; rewrite {}E3 in N3 *; rewrite {}N3 in E4; rewrite {}E4 in N4 *; rewrite {}N4 in E5; rewrite {}E5 in N5 *; rewrite {}N5 in E6; rewrite {}E6.
  rewrite /xval /=.
  by rewrite !(mul0r, mulr0, addr0, add0r, mul1r) ha hb.
- by rewrite fp2_val_eq !lval_var.
- by rewrite fp2_val_eq !lval_var.
Qed.

Theorem C41_exponentiation_zero_base_refuted (r0 r1 : F) : 2%:R != 0 :> F ->
  let: (elt, pb) := fp2_new (pb_new F) in
  let: (result, pb) := fp2_new pb in
  exists g pb' x,
  [/\ exponentiation_new (@fp2_new F) (@fp2_const F) (@fp2_mul_new F) (fun pb A R => (Fp2Sqr A R, pb)) (1, 0)
        pb elt [:: 1; 0; -1] result = Ok (g, pb'),
      holds (exponentiation_constraints (fp2_mul_constraints nr) (fp2_sqr_constraints nr) g) x,
      fp2_val x elt = 0 & fp2_val x result = Poly [:: r0; r1]].
Proof.
move=> h2; have := @exponentiation_cube 0 r0 r1 h2; rewrite !mulr0 => /(_ erefl erefl).
case: (fp2_new _) => [elt pb]; case: (fp2_new _) => [result pb1] [g [pb' [x [h1 h3 h4 h5]]]].
by exists g, pb', x; split; rewrite // h4 Poly2 polyC0 mul0r addr0.
Qed.

(** The hypotheses of [C41_fp2_exponentiation]: a cube, with the digits 1 0 -1. *)
Example exponentiation_example (a : F) : 2%:R != 0 :> F ->
  all signed_digit [:: 1; 0; -1] /\ digits_value [:: 1; 0; -1] = 3 /\
  let: (elt, pb) := fp2_new (pb_new F) in
  let: (result, pb) := fp2_new pb in
  exists g pb' x,
  [/\ exponentiation_new (@fp2_new F) (@fp2_const F) (@fp2_mul_new F) (fun pb A R => (Fp2Sqr A R, pb)) (1, 0)
        pb elt [:: 1; 0; -1] result = Ok (g, pb'),
      holds (exponentiation_constraints (fp2_mul_constraints nr) (fp2_sqr_constraints nr) g) x,
      fp2_val x elt = Poly [:: a; 0] & fp2_val x result = Poly [:: a ^+ 3; 0]].
Proof. by move=> h2; do 2 split=> //; apply: exponentiation_cube => //; rewrite ?mul0r // !exprS expr0 mulr1 !mulrA. Qed.
End Props.

Print Assumptions C41_fp2_mul.
Print Assumptions C41_fp2_sqr.
Print Assumptions C41_fp2_mul_by_lc.
Print Assumptions C41_fp2_linear.
Print Assumptions C41_fp3_mul.
Print Assumptions C41_fp3_sqr.
Print Assumptions C41_fp3_mul_by_lc.
Print Assumptions C41_fp3_linear.
Print Assumptions C41_fp4_tower_mul.
Print Assumptions C41_fp4_direct_mul.
Print Assumptions C41_fp4_sqr.
Print Assumptions C41_fp6_mul.
Print Assumptions C41_fp6_sqr.
Print Assumptions C41_fp4_Frobenius_map.
Print Assumptions C41_fp6_Frobenius_map.
Print Assumptions C41_fp4_cyclotomic_sqr.
Print Assumptions C41_fp6_cyclotomic_sqr.
Print Assumptions C41_fp2_exponentiation.
Print Assumptions C41_fp3_exponentiation.
Print Assumptions C41_fp4_exponentiation.
Print Assumptions C41_fp6_cyclotomic_exponentiation.
Print Assumptions C41_exponentiation_power_zero.
Print Assumptions C41_exponentiation_zero_base_refuted.
