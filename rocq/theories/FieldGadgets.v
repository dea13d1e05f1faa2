(** Model of libsnark/gadgetlib1/gadgets/fields/{fp2,fp3,fp4,fp6}_gadgets.{hpp,tcc}
    and exponentiation_gadget.{hpp,tcc}.

    [Fp2T::non_residue] etc. are parameters ([nr]): libff sets the non-residues of
    the fields of one tower to the same element of the prime field.
    Products, squares and inverses of elements of the extension fields computed
    during witness generation are libff functions (not in /repo); they are
    parameters here.  The members [all_vars] only copy the components. *)
From mathcomp Require Import all_ssreflect all_algebra.
From Verif Require Import Outcome Lincomb R1CS Protoboard.
Set Implicit Arguments.
Unset Strict Implicit.
Unset Printing Implicit Defensive.
Local Open Scope ring_scope.

Section FieldGadgets.
Variable F : fieldType.
(** [Fp2T::non_residue], [Fp3T::non_residue], [Fp4T::non_residue], [Fp6T::non_residue]. *)
Variable nr : F.
Implicit Types (pb : protoboard F).
Let plc := pb_linear_combination F.
Let lcomb := linear_combination F.

(** Conversions: [pb_linear_combination] and [pb_variable] to [linear_combination]. *)
Let tm (l : plc) : lcomb := lc_terms l.
Let vlc (v : pb_variable) : lcomb := lc_of_var F v.
(** [v * c] as a linear combination. *)
Let vsc (v : pb_variable) (c : F) : lcomb := lc_of_term (var_scale v c).
Let one_lc := lc_of_int F 1.

(** * Fp2 *)

(** fp2_gadgets.hpp:26-68 [class Fp2_variable]. *)
Record fp2_var := Fp2Var { f2_c0 : plc; f2_c1 : plc }.
(** The values of a variable of the extension field, as the list of its coefficients. *)
Definition fp2_elt := (F * F)%type.

(** fp2_gadgets.tcc:19-33 *)
Definition fp2_new pb : fp2_var * protoboard F :=
  let: (c0, pb) := allocate_var pb in
  let: (c1, pb) := allocate_var pb in
  (Fp2Var (plc_of_var F c0) (plc_of_var F c1), pb).
(** fp2_gadgets.tcc:35-49 *)
Definition fp2_const pb (el : fp2_elt) : outcome (fp2_var * protoboard F) :=
  let: (c0, pb) := lc_assign pb (lc_of_const el.1) in
  let: (c1, pb) := lc_assign pb (lc_of_const el.2) in
  let! pb := lc_evaluate pb c0 in
  let! pb := lc_evaluate pb c1 in
  Ok (Fp2Var c0 c1, pb).
(** fp2_gadgets.tcc:51-63 *)
Definition fp2_coeff pb (el : fp2_elt) (coeff : plc) : fp2_var * protoboard F :=
  let: (c0, pb) := lc_assign pb (lc_scale (tm coeff) el.1) in
  let: (c1, pb) := lc_assign pb (lc_scale (tm coeff) el.2) in
  (Fp2Var c0 c1, pb).
(** fp2_gadgets.tcc:76-83 *)
Definition fp2_equals_const_constraints (v : fp2_var) (el : fp2_elt) : seq (r1cs_constraint F) :=
  [:: R1csConstraint one_lc (lc_of_const el.1) (tm (f2_c0 v));
      R1csConstraint one_lc (lc_of_const el.2) (tm (f2_c1 v))].
(** fp2_gadgets.tcc:85-90 *)
Definition fp2_set (v : fp2_var) (el : fp2_elt) pb : outcome (protoboard F) :=
  let! pb := pb_lc_set pb (f2_c0 v) el.1 in pb_lc_set pb (f2_c1 v) el.2.
(** fp2_gadgets.tcc:92-99 *)
Definition fp2_get (v : fp2_var) pb : outcome fp2_elt :=
  let! a := pb_lc_val pb (f2_c0 v) in let! b := pb_lc_val pb (f2_c1 v) in Ok (a, b).
(** fp2_gadgets.tcc:101-108 [operator*] by a field element. *)
Definition fp2_scale pb (v : fp2_var) (c : F) : fp2_var * protoboard F :=
  let: (c0, pb) := lc_assign pb (lc_scale (tm (f2_c0 v)) c) in
  let: (c1, pb) := lc_assign pb (lc_scale (tm (f2_c1 v)) c) in (Fp2Var c0 c1, pb).
(** fp2_gadgets.tcc:110-117 [operator+]. *)
Definition fp2_add pb (v w : fp2_var) : fp2_var * protoboard F :=
  let: (c0, pb) := lc_assign pb (lc_add (tm (f2_c0 v)) (tm (f2_c0 w))) in
  let: (c1, pb) := lc_assign pb (lc_add (tm (f2_c1 v)) (tm (f2_c1 w))) in (Fp2Var c0 c1, pb).
(** fp2_gadgets.tcc:119-126 [operator+] of a constant. *)
Definition fp2_add_const pb (v : fp2_var) (el : fp2_elt) : fp2_var * protoboard F :=
  let: (c0, pb) := lc_assign pb (lc_add (tm (f2_c0 v)) (lc_of_const el.1)) in
  let: (c1, pb) := lc_assign pb (lc_add (tm (f2_c1 v)) (lc_of_const el.2)) in (Fp2Var c0 c1, pb).
(** fp2_gadgets.tcc:128-135 *)
Definition fp2_mul_by_X pb (v : fp2_var) : fp2_var * protoboard F :=
  let: (c0, pb) := lc_assign pb (lc_scale (tm (f2_c1 v)) nr) in
  let: (c1, pb) := lc_assign pb (tm (f2_c0 v)) in (Fp2Var c0 c1, pb).
(** fp2_gadgets.tcc:137-142 *)
Definition fp2_evaluate (v : fp2_var) pb : outcome (protoboard F) :=
  let! pb := lc_evaluate pb (f2_c0 v) in lc_evaluate pb (f2_c1 v).
(** fp2_gadgets.tcc:144-148 *)
Definition fp2_is_constant (v : fp2_var) : bool := lc_is_constant (f2_c0 v) && lc_is_constant (f2_c1 v).

(** fp2_gadgets.hpp:73-92, fp2_gadgets.tcc:162-171 [Fp2_mul_gadget]. *)
Record fp2_mul := Fp2Mul { f2m_A : fp2_var; f2m_B : fp2_var; f2m_result : fp2_var; f2m_v1 : pb_variable }.
Definition fp2_mul_new pb (A B result : fp2_var) : fp2_mul * protoboard F :=
  let: (v1, pb) := allocate_var pb in (Fp2Mul A B result v1, pb).
(** fp2_gadgets.tcc:173-199 *)
Definition fp2_mul_constraints (g : fp2_mul) : seq (r1cs_constraint F) :=
  let A := f2m_A g in let B := f2m_B g in let R := f2m_result g in
  [:: R1csConstraint (tm (f2_c1 A)) (tm (f2_c1 B)) (vlc (f2m_v1 g));
      R1csConstraint (tm (f2_c0 A)) (tm (f2_c0 B)) (lc_add (tm (f2_c0 R)) (vsc (f2m_v1 g) (- nr)));
      R1csConstraint (lc_add (tm (f2_c0 A)) (tm (f2_c1 A))) (lc_add (tm (f2_c0 B)) (tm (f2_c1 B)))
        (lc_add (lc_add (tm (f2_c1 R)) (tm (f2_c0 R))) (vsc (f2m_v1 g) (1 - nr)))].
(** fp2_gadgets.tcc:201-208 *)
Definition fp2_mul_witness (g : fp2_mul) pb : outcome (protoboard F) :=
  let A := f2m_A g in let B := f2m_B g in let R := f2m_result g in
  let! a0 := pb_lc_val pb (f2_c0 A) in
  let! b0 := pb_lc_val pb (f2_c0 B) in
  let aA := a0 * b0 in
  let! a1 := pb_lc_val pb (f2_c1 A) in
  let! b1 := pb_lc_val pb (f2_c1 B) in
  let! pb := pb_set pb (f2m_v1 g) (a1 * b1) in
  let! v1 := pb_val pb (f2m_v1 g) in
  let! pb := pb_lc_set pb (f2_c0 R) (aA + nr * v1) in
  let! a0 := pb_lc_val pb (f2_c0 A) in
  let! a1 := pb_lc_val pb (f2_c1 A) in
  let! b0 := pb_lc_val pb (f2_c0 B) in
  let! b1 := pb_lc_val pb (f2_c1 B) in
  let! v1 := pb_lc_val pb (plc_of_var F (f2m_v1 g)) in
  pb_lc_set pb (f2_c1 R) ((a0 + a1) * (b0 + b1) - aA - v1).

(** fp2_gadgets.hpp:97-111, fp2_gadgets.tcc:210-234 [Fp2_mul_by_lc_gadget]. *)
Record fp2_mul_by_lc := Fp2MulByLc { f2l_A : fp2_var; f2l_lc : plc; f2l_result : fp2_var }.
Definition fp2_mul_by_lc_constraints (g : fp2_mul_by_lc) : seq (r1cs_constraint F) :=
  [:: R1csConstraint (tm (f2_c0 (f2l_A g))) (tm (f2l_lc g)) (tm (f2_c0 (f2l_result g)));
      R1csConstraint (tm (f2_c1 (f2l_A g))) (tm (f2l_lc g)) (tm (f2_c1 (f2l_result g)))].
Definition fp2_mul_by_lc_witness (g : fp2_mul_by_lc) pb : outcome (protoboard F) :=
  let! a := pb_lc_val pb (f2_c0 (f2l_A g)) in
  let! c := pb_lc_val pb (f2l_lc g) in
  let! pb := pb_lc_set pb (f2_c0 (f2l_result g)) (a * c) in
  let! a := pb_lc_val pb (f2_c1 (f2l_A g)) in
  let! c := pb_lc_val pb (f2l_lc g) in
  pb_lc_set pb (f2_c1 (f2l_result g)) (a * c).

(** fp2_gadgets.hpp:116-131, fp2_gadgets.tcc:236-277 [Fp2_sqr_gadget]. *)
Record fp2_sqr := Fp2Sqr { f2s_A : fp2_var; f2s_result : fp2_var }.
Definition fp2_sqr_constraints (g : fp2_sqr) : seq (r1cs_constraint F) :=
  let A := f2s_A g in let R := f2s_result g in
  [:: R1csConstraint (lc_scale (tm (f2_c0 A)) 2%:R) (tm (f2_c1 A)) (tm (f2_c1 R));
      R1csConstraint (lc_add (tm (f2_c0 A)) (tm (f2_c1 A)))
        (lc_add (tm (f2_c0 A)) (lc_scale (tm (f2_c1 A)) nr))
        (lc_add (tm (f2_c0 R)) (lc_scale (lc_scale (tm (f2_c1 R)) (1 + nr)) 2%:R^-1))].
Definition fp2_sqr_witness (g : fp2_sqr) pb : outcome (protoboard F) :=
  let A := f2s_A g in let R := f2s_result g in
  let! a := pb_lc_val pb (f2_c0 A) in
  let! b := pb_lc_val pb (f2_c1 A) in
  let! pb := pb_lc_set pb (f2_c1 R) (2%:R * a * b) in
  pb_lc_set pb (f2_c0 R) ((a + b) * (a + nr * b) - a * b - nr * a * b).

(** * Fp3 *)

(** fp3_gadgets.hpp:26-70 [class Fp3_variable]. *)
Record fp3_var := Fp3Var { f3_c0 : plc; f3_c1 : plc; f3_c2 : plc }.
Definition fp3_elt := (F * F * F)%type.
(** fp3_gadgets.tcc:19-36 *)
Definition fp3_new pb : fp3_var * protoboard F :=
  let: (c0, pb) := allocate_var pb in
  let: (c1, pb) := allocate_var pb in
  let: (c2, pb) := allocate_var pb in
  (Fp3Var (plc_of_var F c0) (plc_of_var F c1) (plc_of_var F c2), pb).
(** fp3_gadgets.tcc:38-55 *)
Definition fp3_const pb (el : fp3_elt) : outcome (fp3_var * protoboard F) :=
  let: (c0, pb) := lc_assign pb (lc_of_const el.1.1) in
  let: (c1, pb) := lc_assign pb (lc_of_const el.1.2) in
  let: (c2, pb) := lc_assign pb (lc_of_const el.2) in
  let! pb := lc_evaluate pb c0 in
  let! pb := lc_evaluate pb c1 in
  let! pb := lc_evaluate pb c2 in
  Ok (Fp3Var c0 c1 c2, pb).
(** fp3_gadgets.tcc:57-71 *)
Definition fp3_coeff pb (el : fp3_elt) (coeff : plc) : fp3_var * protoboard F :=
  let: (c0, pb) := lc_assign pb (lc_scale (tm coeff) el.1.1) in
  let: (c1, pb) := lc_assign pb (lc_scale (tm coeff) el.1.2) in
  let: (c2, pb) := lc_assign pb (lc_scale (tm coeff) el.2) in
  (Fp3Var c0 c1 c2, pb).
(** fp3_gadgets.tcc:86-95 *)
Definition fp3_equals_const_constraints (v : fp3_var) (el : fp3_elt) : seq (r1cs_constraint F) :=
  [:: R1csConstraint one_lc (lc_of_const el.1.1) (tm (f3_c0 v));
      R1csConstraint one_lc (lc_of_const el.1.2) (tm (f3_c1 v));
      R1csConstraint one_lc (lc_of_const el.2) (tm (f3_c2 v))].
(** fp3_gadgets.tcc:97-103 *)
Definition fp3_set (v : fp3_var) (el : fp3_elt) pb : outcome (protoboard F) :=
  let! pb := pb_lc_set pb (f3_c0 v) el.1.1 in
  let! pb := pb_lc_set pb (f3_c1 v) el.1.2 in pb_lc_set pb (f3_c2 v) el.2.
(** fp3_gadgets.tcc:105-113 *)
Definition fp3_get (v : fp3_var) pb : outcome fp3_elt :=
  let! a := pb_lc_val pb (f3_c0 v) in let! b := pb_lc_val pb (f3_c1 v) in
  let! c := pb_lc_val pb (f3_c2 v) in Ok (a, b, c).
(** fp3_gadgets.tcc:115-123 *)
Definition fp3_scale pb (v : fp3_var) (c : F) : fp3_var * protoboard F :=
  let: (c0, pb) := lc_assign pb (lc_scale (tm (f3_c0 v)) c) in
  let: (c1, pb) := lc_assign pb (lc_scale (tm (f3_c1 v)) c) in
  let: (c2, pb) := lc_assign pb (lc_scale (tm (f3_c2 v)) c) in (Fp3Var c0 c1 c2, pb).
(** fp3_gadgets.tcc:125-133 *)
Definition fp3_add pb (v w : fp3_var) : fp3_var * protoboard F :=
  let: (c0, pb) := lc_assign pb (lc_add (tm (f3_c0 v)) (tm (f3_c0 w))) in
  let: (c1, pb) := lc_assign pb (lc_add (tm (f3_c1 v)) (tm (f3_c1 w))) in
  let: (c2, pb) := lc_assign pb (lc_add (tm (f3_c2 v)) (tm (f3_c2 w))) in (Fp3Var c0 c1 c2, pb).
(** fp3_gadgets.tcc:135-143 *)
Definition fp3_add_const pb (v : fp3_var) (el : fp3_elt) : fp3_var * protoboard F :=
  let: (c0, pb) := lc_assign pb (lc_add (tm (f3_c0 v)) (lc_of_const el.1.1)) in
  let: (c1, pb) := lc_assign pb (lc_add (tm (f3_c1 v)) (lc_of_const el.1.2)) in
  let: (c2, pb) := lc_assign pb (lc_add (tm (f3_c2 v)) (lc_of_const el.2)) in (Fp3Var c0 c1 c2, pb).
(** fp3_gadgets.tcc:145-153 *)
Definition fp3_mul_by_X pb (v : fp3_var) : fp3_var * protoboard F :=
  let: (c0, pb) := lc_assign pb (lc_scale (tm (f3_c2 v)) nr) in
  let: (c1, pb) := lc_assign pb (tm (f3_c0 v)) in
  let: (c2, pb) := lc_assign pb (tm (f3_c1 v)) in (Fp3Var c0 c1 c2, pb).
(** fp3_gadgets.tcc:155-161 *)
Definition fp3_evaluate (v : fp3_var) pb : outcome (protoboard F) :=
  let! pb := lc_evaluate pb (f3_c0 v) in let! pb := lc_evaluate pb (f3_c1 v) in lc_evaluate pb (f3_c2 v).

(** fp3_gadgets.hpp:75-95, fp3_gadgets.tcc:181-191 [Fp3_mul_gadget]. *)
Record fp3_mul := Fp3Mul {
  f3m_A : fp3_var; f3m_B : fp3_var; f3m_result : fp3_var; f3m_v0 : pb_variable; f3m_v4 : pb_variable }.
Definition fp3_mul_new pb (A B result : fp3_var) : fp3_mul * protoboard F :=
  let: (v0, pb) := allocate_var pb in
  let: (v4, pb) := allocate_var pb in (Fp3Mul A B result v0 v4, pb).
(** fp3_gadgets.tcc:193-248 *)
Definition fp3_mul_constraints (g : fp3_mul) : seq (r1cs_constraint F) :=
  let A := f3m_A g in let B := f3m_B g in let R := f3m_result g in
  let v0 := f3m_v0 g in let v4 := f3m_v4 g in
  let a0 := tm (f3_c0 A) in let a1 := tm (f3_c1 A) in let a2 := tm (f3_c2 A) in
  let b0 := tm (f3_c0 B) in let b1 := tm (f3_c1 B) in let b2 := tm (f3_c2 B) in
  let r0 := tm (f3_c0 R) in let r1 := tm (f3_c1 R) in let r2 := tm (f3_c2 R) in
  [:: R1csConstraint a0 b0 (vlc v0);
      R1csConstraint a2 b2 (vlc v4);
      R1csConstraint (lc_add (lc_add a0 a1) a2) (lc_add (lc_add b0 b1) b2)
        (lc_add (lc_add (lc_add (lc_add r1 r2) (lc_scale r0 nr^-1)) (vsc v0 (1 - nr^-1))) (vsc v4 (1 - nr)));
      R1csConstraint (lc_add (lc_sub a0 a1) a2) (lc_add (lc_sub b0 b1) b2)
        (lc_add (lc_sub (lc_add (lc_add (lc_neg r1) r2) (vsc v0 (1 + nr^-1))) (lc_scale r0 nr^-1)) (vsc v4 (1 + nr)));
      R1csConstraint (lc_add (lc_add a0 (lc_scale a1 2%:R)) (lc_scale a2 4%:R))
        (lc_add (lc_add b0 (lc_scale b1 2%:R)) (lc_scale b2 4%:R))
        (lc_add (lc_add (lc_add (lc_add (lc_scale r1 2%:R) (lc_scale r2 4%:R)) (lc_scale r0 (8%:R * nr^-1)))
                   (vsc v0 (1 - 8%:R * nr^-1))) (vsc v4 (16%:R - 2%:R * nr)))].
(** fp3_gadgets.tcc:250-260; [mul3] is libff's [Fp3T::operator*]. *)
Variable mul3 : fp3_elt -> fp3_elt -> fp3_elt.
Definition fp3_mul_witness (g : fp3_mul) pb : outcome (protoboard F) :=
  let A := f3m_A g in let B := f3m_B g in
  let! a0 := pb_lc_val pb (f3_c0 A) in
  let! b0 := pb_lc_val pb (f3_c0 B) in
  let! pb := pb_set pb (f3m_v0 g) (a0 * b0) in
  let! a2 := pb_lc_val pb (f3_c2 A) in
  let! b2 := pb_lc_val pb (f3_c2 B) in
  let! pb := pb_set pb (f3m_v4 g) (a2 * b2) in
  let! a := fp3_get A pb in
  let! b := fp3_get B pb in
  fp3_set (f3m_result g) (mul3 a b) pb.

(** fp3_gadgets.hpp:100-114, fp3_gadgets.tcc:262-289 [Fp3_mul_by_lc_gadget]. *)
Record fp3_mul_by_lc := Fp3MulByLc { f3l_A : fp3_var; f3l_lc : plc; f3l_result : fp3_var }.
Definition fp3_mul_by_lc_constraints (g : fp3_mul_by_lc) : seq (r1cs_constraint F) :=
  [:: R1csConstraint (tm (f3_c0 (f3l_A g))) (tm (f3l_lc g)) (tm (f3_c0 (f3l_result g)));
      R1csConstraint (tm (f3_c1 (f3l_A g))) (tm (f3l_lc g)) (tm (f3_c1 (f3l_result g)));
      R1csConstraint (tm (f3_c2 (f3l_A g))) (tm (f3l_lc g)) (tm (f3_c2 (f3l_result g)))].

(** fp3_gadgets.hpp:119-137, fp3_gadgets.tcc:291-313 [Fp3_sqr_gadget]. *)
Record fp3_sqr := Fp3Sqr { f3s_mul : fp3_mul }.
Definition fp3_sqr_new pb (A result : fp3_var) : fp3_sqr * protoboard F :=
  let: (m, pb) := fp3_mul_new pb A A result in (Fp3Sqr m, pb).
Definition fp3_sqr_constraints (g : fp3_sqr) : seq (r1cs_constraint F) := fp3_mul_constraints (f3s_mul g).
Definition fp3_sqr_witness (g : fp3_sqr) pb : outcome (protoboard F) := fp3_mul_witness (f3s_mul g) pb.

(** * Fp4 *)

(** fp4_gadgets.hpp:28-56 [class Fp4_variable]. *)
Record fp4_var := Fp4Var { f4_c0 : fp2_var; f4_c1 : fp2_var }.
Definition fp4_elt := (fp2_elt * fp2_elt)%type.
(** fp4_gadgets.tcc:19-23 *)
Definition fp4_new pb : fp4_var * protoboard F :=
  let: (c0, pb) := fp2_new pb in let: (c1, pb) := fp2_new pb in (Fp4Var c0 c1, pb).
(** fp4_gadgets.tcc:25-31 *)
Definition fp4_const pb (el : fp4_elt) : outcome (fp4_var * protoboard F) :=
  let! c := fp2_const pb el.1 in
  let! d := fp2_const c.2 el.2 in Ok (Fp4Var c.1 d.1, d.2).
(** fp4_gadgets.tcc:39-44 *)
Definition fp4_equals_const_constraints (v : fp4_var) (el : fp4_elt) : seq (r1cs_constraint F) :=
  fp2_equals_const_constraints (f4_c0 v) el.1 ++ fp2_equals_const_constraints (f4_c1 v) el.2.
(** fp4_gadgets.tcc:46-60 *)
Definition fp4_set (v : fp4_var) (el : fp4_elt) pb : outcome (protoboard F) :=
  let! pb := fp2_set (f4_c0 v) el.1 pb in fp2_set (f4_c1 v) el.2 pb.
Definition fp4_get (v : fp4_var) pb : outcome fp4_elt :=
  let! a := fp2_get (f4_c0 v) pb in let! b := fp2_get (f4_c1 v) pb in Ok (a, b).
(** fp4_gadgets.tcc:62-75 [Frobenius_map]; [c2] is [Fp2T::Frobenius_coeffs_c1[power % 2]] and [c4] is
    [Fp4T::Frobenius_coeffs_c1[power % 4]]. *)
Definition fp4_Frobenius_map pb (v : fp4_var) (c2 c4 : F) : fp4_var * protoboard F :=
  let: (c0c0, pb) := lc_assign pb (tm (f2_c0 (f4_c0 v))) in
  let: (c0c1, pb) := lc_assign pb (lc_scale (tm (f2_c1 (f4_c0 v))) c2) in
  let: (c1c0, pb) := lc_assign pb (lc_scale (tm (f2_c0 (f4_c1 v))) c4) in
  let: (c1c1, pb) := lc_assign pb (lc_scale (lc_scale (tm (f2_c1 (f4_c1 v))) c4) c2) in
  (Fp4Var (Fp2Var c0c0 c0c1) (Fp2Var c1c0 c1c1), pb).

(** fp4_gadgets.hpp:61-93, fp4_gadgets.tcc:84-140 [Fp4_tower_mul_gadget]. *)
Record fp4_tower_mul := Fp4TowerMul {
  f4t_A : fp4_var; f4t_B : fp4_var; f4t_result : fp4_var;
  f4t_v1 : fp2_var; f4t_v0 : fp2_var; f4t_Ac : fp2_var; f4t_Bc : fp2_var; f4t_rv : fp2_var;
  f4t_compute_v1 : fp2_mul; f4t_compute_v0 : fp2_mul; f4t_compute_result_c1 : fp2_mul }.
Definition fp4_tower_mul_new pb (A B result : fp4_var) : fp4_tower_mul * protoboard F :=
  let: (v1, pb) := fp2_new pb in
  let: (compute_v1, pb) := fp2_mul_new pb (f4_c1 A) (f4_c1 B) v1 in
  let: (v0_c0, pb) := lc_assign pb (lc_sub (tm (f2_c0 (f4_c0 result))) (lc_scale (tm (f2_c1 v1)) nr)) in
  let: (v0_c1, pb) := lc_assign pb (lc_sub (tm (f2_c1 (f4_c0 result))) (tm (f2_c0 v1))) in
  let v0 := Fp2Var v0_c0 v0_c1 in
  let: (compute_v0, pb) := fp2_mul_new pb (f4_c0 A) (f4_c0 B) v0 in
  let: (Ac, pb) := fp2_add pb (f4_c0 A) (f4_c1 A) in
  let: (Bc, pb) := fp2_add pb (f4_c0 B) (f4_c1 B) in
  let: (rv_c0, pb) := lc_assign pb (lc_add (lc_add (tm (f2_c0 (f4_c1 result))) (tm v0_c0)) (tm (f2_c0 v1))) in
  let: (rv_c1, pb) := lc_assign pb (lc_add (lc_add (tm (f2_c1 (f4_c1 result))) (tm v0_c1)) (tm (f2_c1 v1))) in
  let rv := Fp2Var rv_c0 rv_c1 in
  let: (compute_result_c1, pb) := fp2_mul_new pb Ac Bc rv in
  (Fp4TowerMul A B result v1 v0 Ac Bc rv compute_v1 compute_v0 compute_result_c1, pb).
Definition fp4_tower_mul_constraints (g : fp4_tower_mul) : seq (r1cs_constraint F) :=
  fp2_mul_constraints (f4t_compute_v0 g) ++ fp2_mul_constraints (f4t_compute_v1 g) ++
  fp2_mul_constraints (f4t_compute_result_c1 g).
(** fp4_gadgets.tcc:142-160; [mul4] is libff's [Fp4T::operator*]. *)
Variable mul4 : fp4_elt -> fp4_elt -> fp4_elt.
Definition fp4_tower_mul_witness (g : fp4_tower_mul) pb : outcome (protoboard F) :=
  let! pb := fp2_mul_witness (f4t_compute_v0 g) pb in
  let! pb := fp2_mul_witness (f4t_compute_v1 g) pb in
  let! pb := fp2_evaluate (f4t_Ac g) pb in
  let! pb := fp2_evaluate (f4t_Bc g) pb in
  let! pb := fp2_mul_witness (f4t_compute_result_c1 g) pb in
  let! a := fp4_get (f4t_A g) pb in
  let! b := fp4_get (f4t_B g) pb in
  fp4_set (f4t_result g) (mul4 a b) pb.

(** fp4_gadgets.hpp:99-124, fp4_gadgets.tcc:163-221 [Fp4_direct_mul_gadget]. *)
Record fp4_direct_mul := Fp4DirectMul {
  f4d_A : fp4_var; f4d_B : fp4_var; f4d_result : fp4_var;
  f4d_v1 : pb_variable; f4d_v2 : pb_variable; f4d_v6 : pb_variable }.
Definition fp4_direct_mul_new pb (A B result : fp4_var) : fp4_direct_mul * protoboard F :=
  let: (v1, pb) := allocate_var pb in
  let: (v2, pb) := allocate_var pb in
  let: (v6, pb) := allocate_var pb in (Fp4DirectMul A B result v1 v2 v6, pb).
(** fp4_gadgets.tcc:223-271 *)
Definition fp4_direct_mul_constraints (g : fp4_direct_mul) : seq (r1cs_constraint F) :=
  let beta := nr in
  let u := (1 - beta)^-1 in
  let A := f4d_A g in let B := f4d_B g in let R := f4d_result g in
  let v1 := f4d_v1 g in let v2 := f4d_v2 g in let v6 := f4d_v6 g in
  let a0 := tm (f2_c0 (f4_c0 A)) in let a1 := tm (f2_c0 (f4_c1 A)) in
  let a2 := tm (f2_c1 (f4_c0 A)) in let a3 := tm (f2_c1 (f4_c1 A)) in
  let b0 := tm (f2_c0 (f4_c0 B)) in let b1 := tm (f2_c0 (f4_c1 B)) in
  let b2 := tm (f2_c1 (f4_c0 B)) in let b3 := tm (f2_c1 (f4_c1 B)) in
  let c0 := tm (f2_c0 (f4_c0 R)) in let c1 := tm (f2_c0 (f4_c1 R)) in
  let c2 := tm (f2_c1 (f4_c0 R)) in let c3 := tm (f2_c1 (f4_c1 R)) in
  [:: R1csConstraint (lc_add (lc_add (lc_add a0 a1) a2) a3) (lc_add (lc_add (lc_add b0 b1) b2) b3) (vlc v1);
      R1csConstraint (lc_sub (lc_add (lc_sub a0 a1) a2) a3) (lc_sub (lc_add (lc_sub b0 b1) b2) b3) (vlc v2);
      R1csConstraint a3 b3 (vlc v6);
      R1csConstraint a0 b0
        (lc_add (lc_sub (lc_sub (lc_add (lc_scale c0 u) (lc_scale c2 (beta * u)))
                           (vsc v1 (beta * u * 2%:R^-1))) (vsc v2 (beta * u * 2%:R^-1))) (vsc v6 beta));
      R1csConstraint
        (lc_add (lc_add (lc_add a0 (lc_scale a1 2%:R)) (lc_scale a2 4%:R)) (lc_scale a3 8%:R))
        (lc_add (lc_add (lc_add b0 (lc_scale b1 2%:R)) (lc_scale b2 4%:R)) (lc_scale b3 8%:R))
        (lc_sub (lc_add (lc_add (lc_sub (lc_sub (lc_sub (lc_scale c0 (- 15%:R * u)) (lc_scale c1 (30%:R * u)))
            (lc_scale c2 (3%:R * (4%:R + beta) * u))) (lc_scale c3 (6%:R * (4%:R + beta) * u)))
            (vsc v1 ((24%:R - 3%:R * beta * 2%:R^-1) * u))) (vsc v2 ((- 8%:R + beta * 2%:R^-1) * u)))
            (vsc v6 (3%:R * (- 16%:R + beta))));
      R1csConstraint
        (lc_sub (lc_add (lc_sub a0 (lc_scale a1 2%:R)) (lc_scale a2 4%:R)) (lc_scale a3 8%:R))
        (lc_sub (lc_add (lc_sub b0 (lc_scale b1 2%:R)) (lc_scale b2 4%:R)) (lc_scale b3 8%:R))
        (lc_sub (lc_add (lc_add (lc_add (lc_sub (lc_add (lc_scale c0 (- 15%:R * u)) (lc_scale c1 (30%:R * u)))
            (lc_scale c2 (3%:R * (4%:R + beta) * u))) (lc_scale c3 (6%:R * (4%:R + beta) * u)))
            (vsc v2 ((24%:R - 3%:R * beta * 2%:R^-1) * u))) (vsc v1 ((- 8%:R + beta * 2%:R^-1) * u)))
            (vsc v6 (3%:R * (- 16%:R + beta))));
      R1csConstraint
        (lc_add (lc_add (lc_add a0 (lc_scale a1 3%:R)) (lc_scale a2 9%:R)) (lc_scale a3 27%:R))
        (lc_add (lc_add (lc_add b0 (lc_scale b1 3%:R)) (lc_scale b2 9%:R)) (lc_scale b3 27%:R))
        (lc_sub (lc_add (lc_sub (lc_sub (lc_sub (lc_sub (lc_scale c0 (- 80%:R * u)) (lc_scale c1 (240%:R * u)))
            (lc_scale c2 (8%:R * (9%:R + beta) * u))) (lc_scale c3 (24%:R * (9%:R + beta) * u)))
            (vsc v1 (2%:R * (- 81%:R + beta) * u))) (vsc v2 ((- 81%:R + beta) * u)))
            (vsc v6 (8%:R * (- 81%:R + beta))))].
(** fp4_gadgets.tcc:273-291 *)
Definition fp4_direct_mul_witness (g : fp4_direct_mul) pb : outcome (protoboard F) :=
  let A := f4d_A g in let B := f4d_B g in
  let! a := fp4_get A pb in
  let! b := fp4_get B pb in
  let: ((a0, a2), (a1, a3)) := a in
  let: ((b0, b2), (b1, b3)) := b in
  let! pb := pb_set pb (f4d_v1 g) ((a0 + a1 + a2 + a3) * (b0 + b1 + b2 + b3)) in
  let! a := fp4_get A pb in
  let! b := fp4_get B pb in
  let: ((a0, a2), (a1, a3)) := a in
  let: ((b0, b2), (b1, b3)) := b in
  let! pb := pb_set pb (f4d_v2 g) ((a0 - a1 + a2 - a3) * (b0 - b1 + b2 - b3)) in
  let! a3 := pb_lc_val pb (f2_c1 (f4_c1 A)) in
  let! b3 := pb_lc_val pb (f2_c1 (f4_c1 B)) in
  let! pb := pb_set pb (f4d_v6 g) (a3 * b3) in
  let! a := fp4_get A pb in
  let! b := fp4_get B pb in
  fp4_set (f4d_result g) (mul4 a b) pb.

(** fp4_gadgets.hpp:131-160, fp4_gadgets.tcc:293-343 [Fp4_sqr_gadget]. *)
Record fp4_sqr := Fp4Sqr {
  f4s_A : fp4_var; f4s_result : fp4_var; f4s_v1 : fp2_var; f4s_v0 : fp2_var; f4s_Ac : fp2_var; f4s_rv : fp2_var;
  f4s_compute_v1 : fp2_sqr; f4s_compute_v0 : fp2_sqr; f4s_compute_result_c1 : fp2_sqr }.
Definition fp4_sqr_new pb (A result : fp4_var) : fp4_sqr * protoboard F :=
  let: (v1, pb) := fp2_new pb in
  let: (v0_c0, pb) := lc_assign pb (lc_sub (tm (f2_c0 (f4_c0 result))) (lc_scale (tm (f2_c1 v1)) nr)) in
  let: (v0_c1, pb) := lc_assign pb (lc_sub (tm (f2_c1 (f4_c0 result))) (tm (f2_c0 v1))) in
  let v0 := Fp2Var v0_c0 v0_c1 in
  let: (Ac, pb) := fp2_add pb (f4_c0 A) (f4_c1 A) in
  let: (rv_c0, pb) := lc_assign pb (lc_add (lc_add (tm (f2_c0 (f4_c1 result))) (tm v0_c0)) (tm (f2_c0 v1))) in
  let: (rv_c1, pb) := lc_assign pb (lc_add (lc_add (tm (f2_c1 (f4_c1 result))) (tm v0_c1)) (tm (f2_c1 v1))) in
  let rv := Fp2Var rv_c0 rv_c1 in
  (Fp4Sqr A result v1 v0 Ac rv (Fp2Sqr (f4_c1 A) v1) (Fp2Sqr (f4_c0 A) v0) (Fp2Sqr Ac rv), pb).
Definition fp4_sqr_constraints (g : fp4_sqr) : seq (r1cs_constraint F) :=
  fp2_sqr_constraints (f4s_compute_v1 g) ++ fp2_sqr_constraints (f4s_compute_v0 g) ++
  fp2_sqr_constraints (f4s_compute_result_c1 g).

(** fp4_gadgets.hpp:166-200, fp4_gadgets.tcc:363-416 [Fp4_cyclotomic_sqr_gadget]. *)
Record fp4_cyclotomic_sqr := Fp4CyclotomicSqr {
  f4c_A : fp4_var; f4c_result : fp4_var; f4c_c0 : fp2_sqr; f4c_c1 : fp2_sqr }.
Definition fp4_cyclotomic_sqr_new pb (A result : fp4_var) : fp4_cyclotomic_sqr * protoboard F :=
  let r00 := tm (f2_c0 (f4_c0 result)) in let r01 := tm (f2_c1 (f4_c0 result)) in
  let r10 := tm (f2_c0 (f4_c1 result)) in let r11 := tm (f2_c1 (f4_c1 result)) in
  let minus1 (l : lcomb) := lc_sub l (lc_of_const 1) in
  let: (e0_c0, pb) := lc_assign pb (lc_scale r01 2%:R^-1) in
  let: (e0_c1, pb) := lc_assign pb (lc_scale (minus1 r00) (2%:R * nr)^-1) in
  let: (Ac, pb) := fp2_add pb (f4_c0 A) (f4_c1 A) in
  let: (e1_c0, pb) := lc_assign pb
    (lc_add (lc_add (lc_scale (minus1 (lc_add r01 r00)) 2%:R^-1) r10) (lc_of_const 1)) in
  let: (e1_c1, pb) := lc_assign pb
    (lc_add (lc_add (lc_scale (minus1 r00) (2%:R * nr)^-1) r11) (lc_scale r01 2%:R^-1)) in
  (Fp4CyclotomicSqr A result (Fp2Sqr (f4_c1 A) (Fp2Var e0_c0 e0_c1)) (Fp2Sqr Ac (Fp2Var e1_c0 e1_c1)), pb).
Definition fp4_cyclotomic_sqr_constraints (g : fp4_cyclotomic_sqr) : seq (r1cs_constraint F) :=
  fp2_sqr_constraints (f4c_c0 g) ++ fp2_sqr_constraints (f4c_c1 g).

(** * Fp6 *)

(** fp6_gadgets.hpp:28-56 [class Fp6_variable]. *)
Record fp6_var := Fp6Var { f6_c0 : fp3_var; f6_c1 : fp3_var }.
Definition fp6_elt := (fp3_elt * fp3_elt)%type.
(** fp6_gadgets.tcc:19-31 *)
Definition fp6_new pb : fp6_var * protoboard F :=
  let: (c0, pb) := fp3_new pb in let: (c1, pb) := fp3_new pb in (Fp6Var c0 c1, pb).
Definition fp6_const pb (el : fp6_elt) : outcome (fp6_var * protoboard F) :=
  let! c := fp3_const pb el.1 in
  let! d := fp3_const c.2 el.2 in Ok (Fp6Var c.1 d.1, d.2).
(** fp6_gadgets.tcc:39-44 *)
Definition fp6_equals_const_constraints (v : fp6_var) (el : fp6_elt) : seq (r1cs_constraint F) :=
  fp3_equals_const_constraints (f6_c0 v) el.1 ++ fp3_equals_const_constraints (f6_c1 v) el.2.
(** fp6_gadgets.tcc:46-60 *)
Definition fp6_set (v : fp6_var) (el : fp6_elt) pb : outcome (protoboard F) :=
  let! pb := fp3_set (f6_c0 v) el.1 pb in fp3_set (f6_c1 v) el.2 pb.
Definition fp6_get (v : fp6_var) pb : outcome fp6_elt :=
  let! a := fp3_get (f6_c0 v) pb in let! b := fp3_get (f6_c1 v) pb in Ok (a, b).
(** fp6_gadgets.tcc:62-77 [Frobenius_map]; the coefficients are libff constants. *)
Definition fp6_Frobenius_map pb (v : fp6_var) (c31 c32 c61 : F) : fp6_var * protoboard F :=
  let: (c0c0, pb) := lc_assign pb (tm (f3_c0 (f6_c0 v))) in
  let: (c0c1, pb) := lc_assign pb (lc_scale (tm (f3_c1 (f6_c0 v))) c31) in
  let: (c0c2, pb) := lc_assign pb (lc_scale (tm (f3_c2 (f6_c0 v))) c32) in
  let: (c1c0, pb) := lc_assign pb (lc_scale (tm (f3_c0 (f6_c1 v))) c61) in
  let: (c1c1, pb) := lc_assign pb (lc_scale (tm (f3_c1 (f6_c1 v))) (c61 * c31)) in
  let: (c1c2, pb) := lc_assign pb (lc_scale (tm (f3_c2 (f6_c1 v))) (c61 * c32)) in
  (Fp6Var (Fp3Var c0c0 c0c1 c0c2) (Fp3Var c1c0 c1c1 c1c2), pb).

(** fp6_gadgets.hpp:61-98, fp6_gadgets.tcc:86-150 [Fp6_mul_gadget]. *)
Record fp6_mul := Fp6Mul {
  f6m_A : fp6_var; f6m_B : fp6_var; f6m_result : fp6_var;
  f6m_v1 : fp3_var; f6m_v0 : fp3_var; f6m_Ac : fp3_var; f6m_Bc : fp3_var; f6m_rv : fp3_var;
  f6m_compute_v1 : fp3_mul; f6m_compute_v0 : fp3_mul; f6m_compute_result_c1 : fp3_mul }.
Definition fp6_mul_new pb (A B result : fp6_var) : fp6_mul * protoboard F :=
  let: (v1, pb) := fp3_new pb in
  let: (compute_v1, pb) := fp3_mul_new pb (f6_c1 A) (f6_c1 B) v1 in
  let: (v0_c0, pb) := lc_assign pb (lc_sub (tm (f3_c0 (f6_c0 result))) (lc_scale (tm (f3_c2 v1)) nr)) in
  let: (v0_c1, pb) := lc_assign pb (lc_sub (tm (f3_c1 (f6_c0 result))) (tm (f3_c0 v1))) in
  let: (v0_c2, pb) := lc_assign pb (lc_sub (tm (f3_c2 (f6_c0 result))) (tm (f3_c1 v1))) in
  let v0 := Fp3Var v0_c0 v0_c1 v0_c2 in
  let: (compute_v0, pb) := fp3_mul_new pb (f6_c0 A) (f6_c0 B) v0 in
  let: (Ac, pb) := fp3_add pb (f6_c0 A) (f6_c1 A) in
  let: (Bc, pb) := fp3_add pb (f6_c0 B) (f6_c1 B) in
  let: (rv_c0, pb) := lc_assign pb (lc_add (lc_add (tm (f3_c0 (f6_c1 result))) (tm v0_c0)) (tm (f3_c0 v1))) in
  let: (rv_c1, pb) := lc_assign pb (lc_add (lc_add (tm (f3_c1 (f6_c1 result))) (tm v0_c1)) (tm (f3_c1 v1))) in
  let: (rv_c2, pb) := lc_assign pb (lc_add (lc_add (tm (f3_c2 (f6_c1 result))) (tm v0_c2)) (tm (f3_c2 v1))) in
  let rv := Fp3Var rv_c0 rv_c1 rv_c2 in
  let: (compute_result_c1, pb) := fp3_mul_new pb Ac Bc rv in
  (Fp6Mul A B result v1 v0 Ac Bc rv compute_v1 compute_v0 compute_result_c1, pb).
Definition fp6_mul_constraints (g : fp6_mul) : seq (r1cs_constraint F) :=
  fp3_mul_constraints (f6m_compute_v0 g) ++ fp3_mul_constraints (f6m_compute_v1 g) ++
  fp3_mul_constraints (f6m_compute_result_c1 g).

(** fp6_gadgets.hpp:104-139, fp6_gadgets.tcc:181-258 [Fp6_mul_by_2345_gadget];
    [v0] is a new variable here, not the combination of [Fp6_mul_gadget]. *)
Record fp6_mul_by_2345 := Fp6MulBy2345 {
  f6b_A : fp6_var; f6b_B : fp6_var; f6b_result : fp6_var;
  f6b_v1 : fp3_var; f6b_v0 : fp3_var; f6b_Ac : fp3_var; f6b_Bc : fp3_var; f6b_rv : fp3_var;
  f6b_compute_v1 : fp3_mul; f6b_compute_result_c1 : fp3_mul }.
Definition fp6_mul_by_2345_new pb (A B result : fp6_var) : fp6_mul_by_2345 * protoboard F :=
  let: (v1, pb) := fp3_new pb in
  let: (compute_v1, pb) := fp3_mul_new pb (f6_c1 A) (f6_c1 B) v1 in
  let: (v0, pb) := fp3_new pb in
  let: (Ac, pb) := fp3_add pb (f6_c0 A) (f6_c1 A) in
  let: (Bc, pb) := fp3_add pb (f6_c0 B) (f6_c1 B) in
  let: (rv_c0, pb) := lc_assign pb (lc_add (lc_add (tm (f3_c0 (f6_c1 result))) (tm (f3_c0 v0))) (tm (f3_c0 v1))) in
  let: (rv_c1, pb) := lc_assign pb (lc_add (lc_add (tm (f3_c1 (f6_c1 result))) (tm (f3_c1 v0))) (tm (f3_c1 v1))) in
  let: (rv_c2, pb) := lc_assign pb (lc_add (lc_add (tm (f3_c2 (f6_c1 result))) (tm (f3_c2 v0))) (tm (f3_c2 v1))) in
  let rv := Fp3Var rv_c0 rv_c1 rv_c2 in
  let: (compute_result_c1, pb) := fp3_mul_new pb Ac Bc rv in
  (Fp6MulBy2345 A B result v1 v0 Ac Bc rv compute_v1 compute_result_c1, pb).
Definition fp6_mul_by_2345_constraints (g : fp6_mul_by_2345) : seq (r1cs_constraint F) :=
  let A := f6b_A g in let B := f6b_B g in let R := f6b_result g in let v1 := f6b_v1 g in
  fp3_mul_constraints (f6b_compute_v1 g) ++
  [:: R1csConstraint (tm (f3_c1 (f6_c0 A))) (lc_scale (tm (f3_c2 (f6_c0 B))) nr)
        (lc_sub (tm (f3_c0 (f6_c0 R))) (lc_scale (tm (f3_c2 v1)) nr));
      R1csConstraint (tm (f3_c2 (f6_c0 A))) (lc_scale (tm (f3_c2 (f6_c0 B))) nr)
        (lc_sub (tm (f3_c1 (f6_c0 R))) (tm (f3_c0 v1)));
      R1csConstraint (tm (f3_c0 (f6_c0 A))) (tm (f3_c2 (f6_c0 B)))
        (lc_sub (tm (f3_c2 (f6_c0 R))) (tm (f3_c1 v1)))] ++
  fp3_mul_constraints (f6b_compute_result_c1 g).

(** fp6_gadgets.hpp:145-163, fp6_gadgets.tcc:296-317 [Fp6_sqr_gadget]. *)
Record fp6_sqr := Fp6Sqr { f6s_mul : fp6_mul }.
Definition fp6_sqr_new pb (A result : fp6_var) : fp6_sqr * protoboard F :=
  let: (m, pb) := fp6_mul_new pb A A result in (Fp6Sqr m, pb).
Definition fp6_sqr_constraints (g : fp6_sqr) : seq (r1cs_constraint F) := fp6_mul_constraints (f6s_mul g).

(** fp6_gadgets.hpp:169-204, fp6_gadgets.tcc:319-375 [Fp6_cyclotomic_sqr_gadget]. *)
Record fp6_cyclotomic_sqr := Fp6CyclotomicSqr {
  f6c_A : fp6_var; f6c_result : fp6_var; f6c_a : fp2_sqr; f6c_b : fp2_sqr; f6c_c : fp2_sqr }.
Definition fp6_cyclotomic_sqr_new pb (A result : fp6_var) : fp6_cyclotomic_sqr * protoboard F :=
  let a := Fp2Var (f3_c0 (f6_c0 A)) (f3_c1 (f6_c1 A)) in
  let b := Fp2Var (f3_c0 (f6_c1 A)) (f3_c2 (f6_c0 A)) in
  let c := Fp2Var (f3_c1 (f6_c0 A)) (f3_c2 (f6_c1 A)) in
  let two (l : plc) := lc_scale (tm l) 2%:R in
  let: (asq_c0, pb) := lc_assign pb (lc_scale (lc_add (tm (f3_c0 (f6_c0 result))) (two (f2_c0 a))) 3%:R^-1) in
  let: (asq_c1, pb) := lc_assign pb (lc_scale (lc_sub (tm (f3_c1 (f6_c1 result))) (two (f2_c1 a))) 3%:R^-1) in
  let: (bsq_c0, pb) := lc_assign pb (lc_scale (lc_add (tm (f3_c1 (f6_c0 result))) (two (f2_c0 c))) 3%:R^-1) in
  let: (bsq_c1, pb) := lc_assign pb (lc_scale (lc_sub (tm (f3_c2 (f6_c1 result))) (two (f2_c1 c))) 3%:R^-1) in
  let: (csq_c0, pb) := lc_assign pb (lc_scale (lc_add (tm (f3_c2 (f6_c0 result))) (two (f2_c1 b))) 3%:R^-1) in
  let: (csq_c1, pb) := lc_assign pb (lc_scale (lc_sub (tm (f3_c0 (f6_c1 result))) (two (f2_c0 b))) (3%:R * nr)^-1) in
  (Fp6CyclotomicSqr A result (Fp2Sqr a (Fp2Var asq_c0 asq_c1)) (Fp2Sqr b (Fp2Var bsq_c0 bsq_c1))
     (Fp2Sqr c (Fp2Var csq_c0 csq_c1)), pb).
Definition fp6_cyclotomic_sqr_constraints (g : fp6_cyclotomic_sqr) : seq (r1cs_constraint F) :=
  fp2_sqr_constraints (f6c_a g) ++ fp2_sqr_constraints (f6c_b g) ++ fp2_sqr_constraints (f6c_c g).

End FieldGadgets.

(** * exponentiation_gadget.{hpp,tcc}, a template over the variable and gadget classes *)
Section Exponentiation.
Variable F : fieldType.
(** [Fpk_variableT], [Fpk_mul_gadgetT], [Fpk_sqr_gadgetT], [FpkT] and their members. *)
Variables (Var MulG SqrG Elt : Type).
Variable var_new : protoboard F -> Var * protoboard F.
Variable var_const : protoboard F -> Elt -> outcome (Var * protoboard F).
Variable mul_new : protoboard F -> Var -> Var -> Var -> MulG * protoboard F.
Variable mul_constraints : MulG -> seq (r1cs_constraint F).
Variable sqr_new : protoboard F -> Var -> Var -> SqrG * protoboard F.
Variable sqr_constraints : SqrG -> seq (r1cs_constraint F).
Variable one : Elt.

(** The steps of the loop: a doubling, a multiplication, a division. *)
Inductive exp_op := Dbl | Add | Sub.
(** exponentiation_gadget.tcc:34-59 and 76-113: the loop over the digits
    [NAF], most significant first (the list is in that order), as the list of steps. *)
Fixpoint exp_ops (found_nonzero : bool) (digits : seq int) : seq exp_op :=
  if digits is d :: digits'
  then (if found_nonzero then [:: Dbl] else [::]) ++
       (if d != 0 then [:: if 0 < d then Add else Sub] else [::]) ++
       exp_ops (found_nonzero || (d != 0)) digits'
  else [::].

Inductive exp_step := DblStep of SqrG | AddStep of MulG | SubStep of MulG.
Record exponentiation := Exponentiation { ex_steps : seq exp_step }.

(** exponentiation_gadget.tcc:61-66: [intermediate[1]] to [intermediate[intermed_count-1]]. *)
Fixpoint exp_vars (pb : protoboard F) (n : nat) : seq Var * protoboard F :=
  if n is n'.+1
  then let: (v, pb) := var_new pb in let: (vs, pb) := exp_vars pb n' in (v :: vs, pb)
  else ([::], pb).

(** exponentiation_gadget.tcc:74-113: [cur] is [*intermediate[intermed_id]]; the
    next one is the head of [rest], which ends with [result]. *)
Fixpoint exp_build (pb : protoboard F) (elt cur : Var) (ops : seq exp_op) (rest : seq Var) :
    seq exp_step * protoboard F :=
  match ops, rest with
  | op :: ops', next :: rest' =>
      let: (s, pb) := match op with
        | Dbl => let: (g, pb) := sqr_new pb cur next in (DblStep g, pb)
        | Add => let: (g, pb) := mul_new pb cur elt next in (AddStep g, pb)
        | Sub => let: (g, pb) := mul_new pb next elt cur in (SubStep g, pb)
        end in
      let: (ss, pb) := exp_build pb elt next ops' rest' in (s :: ss, pb)
  | _, _ => ([::], pb)
  end.

(** exponentiation_gadget.tcc:19-114 the constructor.  [digits] is
    [find_wnaf(1, power)] (libff), most significant digit first.  Without a
    non-zero digit, [intermediate[0]] is outside the empty vector. *)
Definition exponentiation_new (pb : protoboard F) (elt : Var) (digits : seq int) (result : Var) :
    outcome (exponentiation * protoboard F) :=
  let ops := exp_ops false digits in
  if size ops is n.+1
  then let! i0 := var_const pb one in
       let: (vs, pb) := exp_vars i0.2 n in
       let: (steps, pb) := exp_build pb elt i0.1 ops (rcons vs result) in
       Ok (Exponentiation steps, pb)
  else UB.

(** exponentiation_gadget.tcc:116-132: the additions, the subtractions, the doublings. *)
Definition add_constraints (s : exp_step) := if s is AddStep g then mul_constraints g else [::].
Definition sub_constraints (s : exp_step) := if s is SubStep g then mul_constraints g else [::].
Definition dbl_constraints (s : exp_step) := if s is DblStep g then sqr_constraints g else [::].
Definition exponentiation_constraints (g : exponentiation) : seq (r1cs_constraint F) :=
  flatten (map add_constraints (ex_steps g)) ++ flatten (map sub_constraints (ex_steps g)) ++
  flatten (map dbl_constraints (ex_steps g)).
End Exponentiation.
