(** C41: concrete cases over the field with 13 elements; 2 is neither a square nor a cube there. *)
From mathcomp Require Import all_ssreflect all_algebra zify.
From Verif Require Import Outcome Lincomb LincombSpec LincombFacts R1CS R1CSSpec R1CSFacts Fieldtac.
From Verif Require Import Protoboard GadgetSpec GadgetLogic FieldGadgets ExtFieldSpec ExtFieldFacts ExtFieldAlgebra.
From Verif Require Import FieldGadgetsFacts ExtFrobenius FieldGadgetsCyc ExpGadget FieldGadgetsSat Prop_FieldGadgets.
Set Implicit Arguments.
Unset Strict Implicit.
Unset Printing Implicit Defensive.
Local Open Scope ring_scope.
Import GRing.Theory.


Definition F13 : fieldType := [fieldType of 'F_13].
Local Notation nr := (2%:R : F13).
Lemma F13_char : 13%N \in [char F13].
Proof. by apply/andP; split. Qed.
Lemma F13_prime (a : F13) : a ^+ 13 = a.
Proof. by case: a => [[|[|[|[|[|[|[|[|[|[|[|[|[|]]]]]]]]]]]]] i] //; apply/eqP; vm_compute. Qed.
Lemma F13_nonresidue : [/\ nr ^+ (13.-1 %/ 2) = -1, nr ^+ (13.-1 %/ 2) != 1 & nr ^+ (13.-1 %/ 3) != 1].
Proof. by split; [apply/eqP | |]; vm_compute. Qed.
Lemma F13_small : [/\ 2%:R != 0 :> F13, 3%:R != 0 :> F13, 5%:R != 0 :> F13 & nr != 0].
Proof. by split; vm_compute. Qed.

Definition elt4 : seq F13 := [:: 9%:R; 5%:R; 5%:R; 0].
Definition elt6 : seq F13 := [:: 12%:R; 12%:R; 4%:R; 3%:R; 1; 7%:R].
Definition inv6 : seq F13 := [:: 12%:R; 1; 4%:R; 10%:R; 1; 6%:R].

Lemma Poly_one n : Poly (1 :: nseq n 0) = 1 :> {poly F13}.
Proof. by apply/polyP=> i; rewrite coef_Poly coef1; case: i => [|i] //=; rewrite nth_nseq if_same. Qed.

(** An element of order dividing p^2 + 1 in Fp4. *)
Lemma cyclotomic4_elt : (Poly elt4 ^+ (13 ^ 2 + 1)) %% ext_modulus 4 nr = 1.
Proof.
have h := @powq F13 nr 13 F13_char F13_prime 4 2 (Poly elt4) isT.
rewrite addn1 exprS; have := mod_mull (Poly elt4) h; rewrite /ext_eq => ->.
rewrite comp_scale [[seq _ | i <- _]]/= ext4_mul -(Poly_one 3); congr Poly.
by apply/eqP; vm_compute.
Qed.

(** An element of order dividing p^2 - p + 1 in Fp6. *)
Lemma cyclotomic6_elt : (Poly elt6 ^+ (13 ^ 2 - 13 + 1)) %% ext_modulus 6 nr = 1.
Proof.
have h1 := @powq F13 nr 13 F13_char F13_prime 6 1 (Poly elt6) isT.
have h2 := @powq F13 nr 13 F13_char F13_prime 6 2 (Poly elt6) isT.
have hi : ext_eq 6 nr (Poly elt6 * Poly inv6) 1.
  rewrite /ext_eq ext6_mul (modp_small (p := 1)) ?size_poly1 ?size_modulus // -(Poly_one 5); congr Poly.
  by apply/eqP; vm_compute.
set E := _ ^+ (_ - _ + 1).
have e1 : ext_eq 6 nr (E * Poly elt6 ^+ 13) (Poly elt6 ^+ 13).
  rewrite /E -exprD (_ : (13 ^ 2 - 13 + 1 + 13 = (13 ^ 2).+1)%N) // exprS.
  rewrite -{2}[13%N]/(13 ^ 1)%N; apply: mod_trans (mod_mull _ h2) _; apply: mod_trans _ (mod_sym h1).
  rewrite /ext_eq !comp_scale [[seq _ | i <- _]]/= ext6_mul.
  rewrite [in RHS]small_mod //; congr Poly.
  by apply/eqP; vm_compute.
have e2 : ext_eq 6 nr (Poly elt6 ^+ 13 * Poly inv6 ^+ 13) 1 by have := mod_exp 13 hi; rewrite exprMn expr1n.
have e3 : ext_eq 6 nr E 1.
  rewrite -[E]mulr1; apply: mod_trans (mod_mull _ (mod_sym e2)) _; rewrite mulrA.
  by apply: mod_trans e2; apply: mod_mulr.
by rewrite e3 modp_small // size_poly1 size_modulus.
Qed.

(** The cyclotomic squaring gadgets on these elements. *)
Example fp4_cyclotomic_sqr_example : exists pb A R g pb' x,
  [/\ fp4_cyclotomic_sqr_new nr pb A R = (g, pb'), holds (fp4_cyclotomic_sqr_constraints nr g) x, fp4_val x A = Poly elt4,
      (fp4_val x A ^+ (13 ^ 2 + 1)) %% ext_modulus 4 nr = 1 &
      fp4_val x R = (Poly elt4 * Poly elt4) %% ext_modulus 4 nr].
Proof.
pose x := elt4 ++ [:: 1; 12%:R; 11%:R; 11%:R] : seq F13.
pose mk i := Fp4Var (Fp2Var (plc_of_var F13 i) (plc_of_var F13 i.+2)) (Fp2Var (plc_of_var F13 i.+1) (plc_of_var F13 i.+3)).
case e: (fp4_cyclotomic_sqr_new nr (pb_new F13) (mk 1%N) (mk 5%N)) => [g pb'].
have vA : fp4_val x (mk 1%N) = Poly elt4 by rewrite /fp4_val !lval_var.
have vR : fp4_val x (mk 5%N) = (Poly elt4 * Poly elt4) %% ext_modulus 4 nr.
  by rewrite ext4_mul /fp4_val !lval_var; congr Poly; apply/eqP; vm_compute.
exists (pb_new F13), (mk 1%N), (mk 5%N), g, pb', x; split; rewrite ?vA //; last by exact: cyclotomic4_elt.
have [n1 n2 _] := F13_nonresidue; have [s1 s2 s3 s4] := F13_small.
apply/(C41_fp4_cyclotomic_sqr F13_char F13_prime s1 s4 _ n1 _ e) => //; rewrite vA //; exact: cyclotomic4_elt.
Qed.

Example fp6_cyclotomic_sqr_example : exists pb A R g pb' x,
  [/\ fp6_cyclotomic_sqr_new nr pb A R = (g, pb'), holds (fp6_cyclotomic_sqr_constraints nr g) x, fp6_val x A = Poly elt6,
      (fp6_val x A ^+ (13 ^ 2 - 13 + 1)) %% ext_modulus 6 nr = 1 &
      fp6_val x R = (Poly elt6 * Poly elt6) %% ext_modulus 6 nr].
Proof.
pose x := elt6 ++ [:: 7%:R; 9%:R; 1; 1; 2%:R; 8%:R] : seq F13.
pose mk i := Fp6Var (Fp3Var (plc_of_var F13 i) (plc_of_var F13 i.+2) (plc_of_var F13 i.+4))
  (Fp3Var (plc_of_var F13 i.+1) (plc_of_var F13 i.+3) (plc_of_var F13 i.+4.+1)).
case e: (fp6_cyclotomic_sqr_new nr (pb_new F13) (mk 1%N) (mk 7%N)) => [g pb'].
have vA : fp6_val x (mk 1%N) = Poly elt6 by rewrite /fp6_val !lval_var.
have vR : fp6_val x (mk 7%N) = (Poly elt6 * Poly elt6) %% ext_modulus 6 nr.
  by rewrite ext6_mul /fp6_val !lval_var; congr Poly; apply/eqP; vm_compute.
have ok : holds (fp6_cyclotomic_sqr_constraints nr g) x.
  have [n1 n2 n3] := F13_nonresidue; have [s1 s2 s3 s4] := F13_small.
  apply/(C41_fp6_cyclotomic_sqr F13_char F13_prime s1 s2 s4 _ n2 n3 _ e) => //; rewrite vA //; exact: cyclotomic6_elt.
exists (pb_new F13), (mk 1%N), (mk 7%N), g, pb', x; rewrite vA; exact: (And5 e ok erefl cyclotomic6_elt vR).
Qed.
