(** Model of libsnark/gadgetlib1/gadgets/curves/weierstrass_{g1,g2}_gadget.{hpp,tcc}.

    [libff::G1<other_curve>::coeff_a], [coeff_b] are parameters ([a], [b]).  The
    conversion to affine coordinates in the witness functions is libff's; the model
    takes affine coordinates.  Annotations are not modelled; those of
    weierstrass_g1_gadget.tcc:262-271 have a format directive without an argument. *)
From mathcomp Require Import all_ssreflect all_algebra.
From Verif Require Import Outcome Lincomb R1CS Protoboard FieldGadgets.
Set Implicit Arguments.
Unset Strict Implicit.
Unset Printing Implicit Defensive.
Local Open Scope ring_scope.

Section Weierstrass.
Variable F : fieldType.
(** The coefficients of the curve [y^2 = x^3 + a x + b]. *)
Variables a b : F.
Implicit Types (pb : protoboard F).
Let plc := pb_linear_combination F.
Let lcomb := linear_combination F.
Let tm (l : plc) : lcomb := lc_terms l.
Let vlc (v : pb_variable) : lcomb := lc_of_var F v.
Let vsc (v : pb_variable) (c : F) : lcomb := lc_of_term (var_scale v c).
Let neg (l : plc) : lcomb := lc_scale (tm l) (-1).
(** [ONE] is variable 0. *)
Let one_times (c : F) : lcomb := vsc 0%N c.

(** weierstrass_g1_gadget.hpp:28-50 [class G1_variable]; its member [all_vars] lists [X] and [Y]. *)
Record g1_var := G1Var { g1_X : plc; g1_Y : plc }.
(** weierstrass_g1_gadget.tcc:19-34 *)
Definition g1_new pb : g1_var * protoboard F :=
  let: (X, pb) := allocate_var pb in
  let: (Y, pb) := allocate_var pb in
  (G1Var (plc_of_var F X) (plc_of_var F Y), pb).
(** weierstrass_g1_gadget.tcc:36-51 *)
Definition g1_const pb (P : F * F) : outcome (g1_var * protoboard F) :=
  let: (X, pb) := lc_assign pb (lc_of_const P.1) in
  let: (Y, pb) := lc_assign pb (lc_of_const P.2) in
  let! pb := lc_evaluate pb X in
  let! pb := lc_evaluate pb Y in
  Ok (G1Var X Y, pb).
(** weierstrass_g1_gadget.tcc:53-61 *)
Definition g1_set (P : g1_var) (el : F * F) pb : outcome (protoboard F) :=
  let! pb := pb_lc_set pb (g1_X P) el.1 in pb_lc_set pb (g1_Y P) el.2.

(** weierstrass_g1_gadget.hpp:55-69, weierstrass_g1_gadget.tcc:75-81 [G1_checker_gadget]. *)
Record g1_checker := G1Checker { gc_P : g1_var; gc_Xsq : pb_variable; gc_Ysq : pb_variable }.
Definition g1_checker_new pb (P : g1_var) : g1_checker * protoboard F :=
  let: (xs, pb) := allocate_var pb in
  let: (ys, pb) := allocate_var pb in (G1Checker P xs ys, pb).
(** weierstrass_g1_gadget.tcc:83-101 *)
Definition g1_checker_constraints (g : g1_checker) : seq (r1cs_constraint F) :=
  let P := gc_P g in
  [:: r1cs_constraint_of_lists [:: tm (g1_X P)] [:: tm (g1_X P)] [:: vlc (gc_Xsq g)];
      r1cs_constraint_of_lists [:: tm (g1_Y P)] [:: tm (g1_Y P)] [:: vlc (gc_Ysq g)];
      r1cs_constraint_of_lists [:: tm (g1_X P)] [:: vlc (gc_Xsq g); one_times a] [:: vlc (gc_Ysq g); one_times (- b)]].
(** weierstrass_g1_gadget.tcc:103-108 *)
Definition g1_checker_witness (g : g1_checker) pb : outcome (protoboard F) :=
  let! x := pb_lc_val pb (g1_X (gc_P g)) in
  let! pb := pb_set pb (gc_Xsq g) (x * x) in
  let! y := pb_lc_val pb (g1_Y (gc_P g)) in
  pb_set pb (gc_Ysq g) (y * y).

(** weierstrass_g1_gadget.hpp:74-93, weierstrass_g1_gadget.tcc:110-140 [G1_add_gadget]. *)
Record g1_add := G1Add {
  ga_A : g1_var; ga_B : g1_var; ga_C : g1_var; ga_lambda : pb_variable; ga_inv : pb_variable }.
Definition g1_add_new pb (A B C : g1_var) : g1_add * protoboard F :=
  let: (lambda, pb) := allocate_var pb in
  let: (inv, pb) := allocate_var pb in (G1Add A B C lambda inv, pb).
(** weierstrass_g1_gadget.tcc:142-168 *)
Definition g1_add_constraints (g : g1_add) : seq (r1cs_constraint F) :=
  let A := ga_A g in let B := ga_B g in let C := ga_C g in
  [:: r1cs_constraint_of_lists [:: vlc (ga_lambda g)] [:: tm (g1_X B); neg (g1_X A)] [:: tm (g1_Y B); neg (g1_Y A)];
      r1cs_constraint_of_lists [:: vlc (ga_lambda g)] [:: vlc (ga_lambda g)] [:: tm (g1_X C); tm (g1_X A); tm (g1_X B)];
      r1cs_constraint_of_lists [:: vlc (ga_lambda g)] [:: tm (g1_X A); neg (g1_X C)] [:: tm (g1_Y C); tm (g1_Y A)];
      r1cs_constraint_of_lists [:: vlc (ga_inv g)] [:: tm (g1_X B); neg (g1_X A)] [:: vlc 0%N]].
(** weierstrass_g1_gadget.tcc:170-177; [inverse] of 0 fails an assertion in libff. *)
Definition g1_add_witness (g : g1_add) pb : outcome (protoboard F) :=
  let A := ga_A g in let B := ga_B g in let C := ga_C g in
  let! bx := pb_lc_val pb (g1_X B) in
  let! ax := pb_lc_val pb (g1_X A) in
  assert! (bx - ax != 0) in
  let! pb := pb_set pb (ga_inv g) (bx - ax)^-1 in
  let! by_ := pb_lc_val pb (g1_Y B) in
  let! ay := pb_lc_val pb (g1_Y A) in
  let! inv := pb_val pb (ga_inv g) in
  let! pb := pb_set pb (ga_lambda g) ((by_ - ay) * inv) in
  let! l := pb_val pb (ga_lambda g) in
  let! ax := pb_lc_val pb (g1_X A) in
  let! bx := pb_lc_val pb (g1_X B) in
  let! pb := pb_lc_set pb (g1_X C) (l * l - ax - bx) in
  let! l := pb_val pb (ga_lambda g) in
  let! ax := pb_lc_val pb (g1_X A) in
  let! cx := pb_lc_val pb (g1_X C) in
  let! ay := pb_lc_val pb (g1_Y A) in
  pb_lc_set pb (g1_Y C) (l * (ax - cx) - ay).

(** weierstrass_g1_gadget.hpp:98-115, weierstrass_g1_gadget.tcc:179-190 [G1_dbl_gadget]. *)
Record g1_dbl := G1Dbl { gd_A : g1_var; gd_B : g1_var; gd_Xsq : pb_variable; gd_lambda : pb_variable }.
Definition g1_dbl_new pb (A B : g1_var) : g1_dbl * protoboard F :=
  let: (xs, pb) := allocate_var pb in
  let: (lambda, pb) := allocate_var pb in (G1Dbl A B xs lambda, pb).
(** weierstrass_g1_gadget.tcc:192-218 *)
Definition g1_dbl_constraints (g : g1_dbl) : seq (r1cs_constraint F) :=
  let A := gd_A g in let B := gd_B g in
  [:: r1cs_constraint_of_lists [:: tm (g1_X A)] [:: tm (g1_X A)] [:: vlc (gd_Xsq g)];
      r1cs_constraint_of_lists [:: vsc (gd_lambda g) 2%:R] [:: tm (g1_Y A)] [:: vsc (gd_Xsq g) 3%:R; one_times a];
      r1cs_constraint_of_lists [:: vlc (gd_lambda g)] [:: vlc (gd_lambda g)] [:: tm (g1_X B); lc_scale (tm (g1_X A)) 2%:R];
      r1cs_constraint_of_lists [:: vlc (gd_lambda g)] [:: tm (g1_X A); neg (g1_X B)] [:: tm (g1_Y B); tm (g1_Y A)]].
(** weierstrass_g1_gadget.tcc:220-226 *)
Definition g1_dbl_witness (g : g1_dbl) pb : outcome (protoboard F) :=
  let A := gd_A g in let B := gd_B g in
  let! ax := pb_lc_val pb (g1_X A) in
  let! pb := pb_set pb (gd_Xsq g) (ax * ax) in
  let! xs := pb_val pb (gd_Xsq g) in
  let! ay := pb_lc_val pb (g1_Y A) in
  assert! (2%:R * ay != 0) in
  let! pb := pb_set pb (gd_lambda g) ((3%:R * xs + a) * (2%:R * ay)^-1) in
  let! l := pb_val pb (gd_lambda g) in
  let! ax := pb_lc_val pb (g1_X A) in
  let! pb := pb_lc_set pb (g1_X B) (l * l - 2%:R * ax) in
  let! l := pb_val pb (gd_lambda g) in
  let! ax := pb_lc_val pb (g1_X A) in
  let! bx := pb_lc_val pb (g1_X B) in
  let! ay := pb_lc_val pb (g1_Y A) in
  pb_lc_set pb (g1_Y B) (l * (ax - bx) - ay).

(** weierstrass_g1_gadget.tcc:249-257: the point [P] and [n] more points, each with
    the doubling gadget from the one before it. *)
Fixpoint powers_new pb (P : g1_var) (n : nat) : seq g1_var * seq g1_dbl * protoboard F :=
  if n is n'.+1
  then let: (Q, pb) := g1_new pb in
       let: (d, pb) := g1_dbl_new pb P Q in
       let: (ps, ds, pb) := powers_new pb Q n' in (P :: ps, d :: ds, pb)
  else ([:: P], [::], pb).
(** The loop over the points; the results are [points_and_powers] and [doublers]. *)
Fixpoint all_powers_new pb (points : seq g1_var) (n : nat) : seq g1_var * seq g1_dbl * protoboard F :=
  if points is P :: points'
  then let: (ps, ds, pb) := powers_new pb P n in
       let: (ps', ds', pb) := all_powers_new pb points' n in (ps ++ ps', ds ++ ds', pb)
  else ([::], [::], pb).

(** One round of weierstrass_g1_gadget.tcc:259-272: [chosen_results[i]], [computed_results[i]],
    [chosen_results[i+1]], the adder and [scalars[i]]. *)
Record mul_step := MulStep {
  ms_cur : g1_var; ms_computed : g1_var; ms_next : g1_var; ms_adder : g1_add; ms_scalar : pb_variable }.
Fixpoint steps_new pb (cur : g1_var) (sps : seq (pb_variable * g1_var)) (result : g1_var) :
    seq mul_step * protoboard F :=
  if sps is (s, P) :: sps'
  then let: (computed, pb) := g1_new pb in
       let: (next, pb) := if sps' is [::] then (result, pb) else g1_new pb in
       let: (adder, pb) := g1_add_new pb cur P computed in
       let: (steps, pb) := steps_new pb next sps' result in
       (MulStep cur computed next adder s :: steps, pb)
  else ([::], pb).

(** weierstrass_g1_gadget.hpp:120-155, weierstrass_g1_gadget.tcc:228-273 [G1_multiscalar_mul_gadget].
    With [elt_size] 0 the bound [elt_size - 1] of the inner loop wraps around. *)
Record g1_mul := G1Mul { gm_doublers : seq g1_dbl; gm_steps : seq mul_step; gm_num_points : nat; gm_scalar_size : nat }.
Definition g1_mul_new pb (base : g1_var) (scalars : seq pb_variable) (elt_size : nat) (points : seq g1_var)
    (result : g1_var) : outcome (g1_mul * protoboard F) :=
  assert! (0 < size points)%N in
  assert! (size points * elt_size == size scalars)%N in
  if elt_size is n.+1
  then let: (ps, ds, pb) := all_powers_new pb points n in
       let: (steps, pb) := steps_new pb base (zip scalars ps) result in
       Ok (G1Mul ds steps (size points) (size scalars), pb)
  else UB.
(** weierstrass_g1_gadget.tcc:289-300 *)
Definition select_constraints (s : mul_step) : seq (r1cs_constraint F) :=
  let sel (f : g1_var -> plc) := R1csConstraint (vlc (ms_scalar s))
    (lc_sub (tm (f (ms_computed s))) (tm (f (ms_cur s)))) (lc_sub (tm (f (ms_next s))) (tm (f (ms_cur s)))) in
  [:: sel g1_X; sel g1_Y].
(** weierstrass_g1_gadget.tcc:275-305; the final assertion counts the new constraints. *)
Definition g1_mul_constraints (g : g1_mul) : outcome (seq (r1cs_constraint F)) :=
  let cs := flatten (map g1_dbl_constraints (take (gm_scalar_size g - gm_num_points g) (gm_doublers g))) ++
    flatten [seq g1_add_constraints (ms_adder s) ++ select_constraints s | s <- gm_steps g] in
  assert! (size cs == 4 * (gm_scalar_size g - gm_num_points g) + (4 + 2) * gm_scalar_size g)%N in Ok cs.

(** weierstrass_g2_gadget.hpp:30-90, weierstrass_g2_gadget.tcc:21-105 [G2_variable] and
    [G2_checker_gadget] over Fp2 (pairing_selector<mnt6_pp>) ... *)
Variable nr : F.
Record g2_var (fqe : Type) := G2Var { g2_X : fqe; g2_Y : fqe }.
Record g2_checker2 := G2Checker2 {
  g22_compute_Xsq : fp2_sqr F; g22_compute_Ysq : fp2_sqr F; g22_curve_equation : fp2_mul F }.
Definition g2_checker2_new pb (Q : g2_var (fp2_var F)) (a2 b2 : fp2_elt F) : g2_checker2 * protoboard F :=
  let: (Xsq, pb) := fp2_new pb in
  let: (Ysq, pb) := fp2_new pb in
  let: (Xa, pb) := fp2_add_const pb Xsq a2 in
  let: (Yb, pb) := fp2_add_const pb Ysq (- b2.1, - b2.2) in
  let: (eq, pb) := fp2_mul_new pb (g2_X Q) Xa Yb in
  (G2Checker2 (Fp2Sqr (g2_X Q) Xsq) (Fp2Sqr (g2_Y Q) Ysq) eq, pb).
Definition g2_checker2_constraints (g : g2_checker2) : seq (r1cs_constraint F) :=
  fp2_sqr_constraints nr (g22_compute_Xsq g) ++ fp2_sqr_constraints nr (g22_compute_Ysq g) ++
  fp2_mul_constraints nr (g22_curve_equation g).
(** ... and over Fp3 (pairing_selector<mnt4_pp>). *)
Record g2_checker3 := G2Checker3 {
  g23_compute_Xsq : fp3_sqr F; g23_compute_Ysq : fp3_sqr F; g23_curve_equation : fp3_mul F }.
Definition g2_checker3_new pb (Q : g2_var (fp3_var F)) (a3 b3 : fp3_elt F) : g2_checker3 * protoboard F :=
  let: (Xsq, pb) := fp3_new pb in
  let: (Ysq, pb) := fp3_new pb in
  let: (cX, pb) := fp3_sqr_new pb (g2_X Q) Xsq in
  let: (cY, pb) := fp3_sqr_new pb (g2_Y Q) Ysq in
  let: (Xa, pb) := fp3_add_const pb Xsq a3 in
  let: (Yb, pb) := fp3_add_const pb Ysq (- b3.1.1, - b3.1.2, - b3.2) in
  let: (eq, pb) := fp3_mul_new pb (g2_X Q) Xa Yb in
  (G2Checker3 cX cY eq, pb).
Definition g2_checker3_constraints (g : g2_checker3) : seq (r1cs_constraint F) :=
  fp3_sqr_constraints nr (g23_compute_Xsq g) ++ fp3_sqr_constraints nr (g23_compute_Ysq g) ++
  fp3_mul_constraints nr (g23_curve_equation g).
End Weierstrass.
