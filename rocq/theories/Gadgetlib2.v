(** Model of gadgetlib2: libsnark/gadgetlib2/variable.{hpp,cpp},
    variable_operators.hpp, constraint.{hpp,cpp}, protoboard.{hpp,cpp},
    adapters.{hpp,cpp}, integration.cpp, infrastructure.{hpp,cpp} and gadget.{hpp,cpp}.
    Definitions only.

    Simplifications, used throughout:
    - names, annotations and printing are left out; what the DEBUG build prints is
      not modelled;
    - GADGETLIB_FATAL, a failed GADGETLIB_ASSERT (infrastructure.hpp:83-90) and a
      failed [dynamic_cast] to a reference throw; all are [AssertFail] here;
    - [long] has 64 bits; overflow of signed arithmetic is [UB];
    - a compound assignment ([a += b], ...) is a function of the two operands, which
      are different objects;
    - the protoboard has the only defined field type, R1P (pp.hpp:39);
    - [int] loop bounds taken from a size are below 2^31, except where the size
      enters a constraint, where the conversion is modelled. *)
From Coq Require Import ZArith NArith.
From mathcomp Require Import all_ssreflect all_algebra zify ssrZ.
From Verif Require Import Outcome Lincomb R1CS Protoboard.
Set Implicit Arguments.
Unset Strict Implicit.
Unset Printing Implicit Defensive.
Local Open Scope ring_scope.
Delimit Scope Z_scope with ZZ.
Delimit Scope N_scope with num.

(** The range of [long], and arithmetic in it. *)
Definition in_long (z : Z) : bool := ((- 2 ^ 63 <=? z) && (z <? 2 ^ 63))%ZZ.
Definition long (z : Z) : outcome Z := if in_long z then Ok z else UB.
(** Conversions to [long] and to [int] (two's complement). *)
Definition to_long (z : Z) : Z := ((z + 2 ^ 63) mod 2 ^ 64 - 2 ^ 63)%ZZ.
Definition to_int (z : Z) : Z := ((z + 2 ^ 31) mod 2 ^ 32 - 2 ^ 31)%ZZ.
(** [-i] on an [int]. *)
Definition int_neg (z : Z) : outcome Z :=
  if (z =? - 2 ^ 31)%ZZ then UB else Ok (- z)%ZZ.

Section Gadgetlib2.
Variable F : fieldType.
Variable R : bigint_repr F.

(** libff [Fp(long)]. *)
Definition Fp (z : Z) : F := (int_of_Z z)%:~R.
(** libff [as_ulong]: the lowest 64 bits of the canonical representative. *)
Definition as_ulong (a : F) : N := N.modulo (N.of_nat (as_bigint R a)) (2 ^ 64)%num.

(** * Field elements *)

(** variable.hpp:108-145 [class FElem] holding an FConst (variable.hpp:176-205), a
    constant of type [long] of no particular field, or an R1P_Elem
    (variable.hpp:222-248). *)
Inductive felem := FConst of Z | R1P of F.

(** variable.cpp:45-47 [FElem(long)], [FElem(int)], [FElem(size_t)]. *)
Definition fe_of_long (z : Z) : felem := FConst z.
Definition fe_of_size (n : nat) : felem := FConst (to_long (Z.of_nat n)).

(** variable.cpp:52-74 [operator=]: an element that has a field keeps it. *)
Definition fe_assign (old new : felem) : felem :=
  match old, new with
  | R1P _, FConst z => R1P (Fp z)
  | _, _ => new
  end.

(** variable.cpp:82-93 [promoteToFieldType(R1P)]. *)
Definition promote (x : felem) : felem := if x is FConst z then R1P (Fp z) else x.

(** variable.cpp:95-110 [*=], [+=], [-=], with promotion when the other operand has a
    field, and the element operations variable.cpp:140-153, 179-213. *)
Definition fe_mul (x y : felem) : outcome felem :=
  match x, y with
  | FConst a, FConst b => omap FConst (long (a * b))
  | FConst a, R1P b => Ok (R1P (Fp a * b))
  | R1P a, FConst b => Ok (R1P (a * Fp b))
  | R1P a, R1P b => Ok (R1P (a * b))
  end.
Definition fe_add (x y : felem) : outcome felem :=
  match x, y with
  | FConst a, FConst b => omap FConst (long (a + b))
  | FConst a, R1P b => Ok (R1P (Fp a + b))
  | R1P a, FConst b => Ok (R1P (a + Fp b))
  | R1P a, R1P b => Ok (R1P (a + b))
  end.
Definition fe_sub (x y : felem) : outcome felem :=
  match x, y with
  | FConst a, FConst b => omap FConst (long (a - b))
  | FConst a, R1P b => Ok (R1P (Fp a - b))
  | R1P a, FConst b => Ok (R1P (a - Fp b))
  | R1P a, R1P b => Ok (R1P (a - b))
  end.
(** variable.hpp:134 unary minus; variable_operators.hpp:108 binary minus. *)
Definition fe_neg (x : felem) : outcome felem := fe_sub (FConst 0) x.
Definition fe_minus (x y : felem) : outcome felem := let! y := fe_neg y in fe_add x y.

(** variable.hpp:130,152-155,191-193,236-238, variable.cpp:215-225 [==]: two constants
    are compared as integers. *)
Definition fe_eqb (x y : felem) : bool :=
  match x, y with
  | FConst a, FConst b => Z.eqb a b
  | FConst a, R1P b => Fp a == b
  | R1P a, FConst b => a == Fp b
  | R1P a, R1P b => a == b
  end.

(** variable.cpp:112-115,227-229 [inverse(R1P)]; libff's inverse of zero is outside its
    contract. *)
Definition fe_inverse (x : felem) : felem :=
  match promote x with R1P a => R1P a^-1 | y => y end.

(** variable.hpp:201, variable.cpp:231-234 [asLong]. *)
Definition fe_as_long (x : felem) : Z :=
  match x with FConst z => z | R1P a => to_long (Z.of_N (as_ulong a)) end.

(** variable.cpp:117-124, variable.hpp:243 [getBit(i, R1P)], of the promoted element. *)
Definition fe_get_bit (x : felem) (i : nat) : bool :=
  match promote x with R1P a => test_bit (as_bigint R a) i | FConst _ => false end.

(** * Variables and assignments *)

(** variable.hpp:277-311 [class Variable]: its index.  variable.cpp:246-259: the static
    counter [nextFreeIndex_] is an argument of every constructor of a gadget here. *)
Definition var := nat.
(** variable.cpp:308-311 [VariableArray(size)]: fresh variables, in order. *)
Definition fresh_array (next n : nat) : seq var := iota next n.

(** variable.hpp:313 [VariableAssignment], a map from indices: [None] is an absent key. *)
Definition assignment := seq (option felem).

(** variable.cpp:271-278 [Variable::eval]. *)
Definition var_eval (a : assignment) (v : var) : outcome felem :=
  if nth None a v is Some x then Ok x else AssertFail.

(** protoboard.cpp:32-38 [Protoboard::val(var)]: [assignment_[var]] creates an absent
    entry with the value FConst(0). *)
Definition val_of (a : assignment) (v : var) : felem :=
  if nth None a v is Some x then x else FConst 0.
Definition val_touch (a : assignment) (v : var) : assignment :=
  set_nth None a v (Some (val_of a v)).
(** [val(v) = x] *)
Definition val_set (a : assignment) (v : var) (x : felem) : assignment :=
  set_nth None a v (Some (fe_assign (val_of a v) x)).

(** * Linear combinations *)

(** variable.hpp:448-466 [class LinearTerm], variable.hpp:483-502
    [class LinearCombination]. *)
Definition lterm := (var * felem)%type.
Record lcomb := Lc { l_terms : seq lterm; l_const : felem }.

(** variable.hpp:453-457 *)
Definition lt_var (v : var) : lterm := (v, FConst 1).
Definition lt_opp (t : lterm) : outcome lterm := let! c := fe_neg t.2 in Ok (t.1, c).
Definition lt_mulby (t : lterm) (x : felem) : outcome lterm :=
  let! c := fe_mul t.2 x in Ok (t.1, c).
(** variable_operators.hpp:79 [-Variable] *)
Definition lt_negvar (v : var) : lterm := (v, FConst (-1)).

(** variable.hpp:489-493 *)
Definition lc_nil : lcomb := Lc [::] (FConst 0).
Definition lcv (v : var) : lcomb := Lc [:: lt_var v] (FConst 0).
Definition lct (t : lterm) : lcomb := Lc [:: t] (FConst 0).
Definition lcc (x : felem) : lcomb := Lc [::] x.
Definition lci (z : Z) : lcomb := lcc (FConst z).

(** variable.cpp:436-440 [+=], 442-448 [-=], 450-456 [*=]. *)
Definition lc_plus (a b : lcomb) : outcome lcomb :=
  let! k := fe_add (l_const a) (l_const b) in Ok (Lc (l_terms a ++ l_terms b) k).
Definition lc_subto (a b : lcomb) : outcome lcomb :=
  let! ts := omapm lt_opp (l_terms b) in
  let! k := fe_sub (l_const a) (l_const b) in Ok (Lc (l_terms a ++ ts) k).
Definition lc_times (a : lcomb) (x : felem) : outcome lcomb :=
  let! k := fe_mul (l_const a) x in
  let! ts := omapm (lt_mulby^~ x) (l_terms a) in Ok (Lc ts k).
(** variable.hpp:507 unary minus, variable_operators.hpp:87 binary minus. *)
Definition lc_opp (a : lcomb) : outcome lcomb := lc_subto lc_nil a.
Definition lc_minus (a b : lcomb) : outcome lcomb := let! b := lc_opp b in lc_plus a b.

(** The mixed operators of variable_operators.hpp that the gadgets use.  101, 112, 118:
    [FElem - LinearCombination] and [int - ...]; 66-72, 120-127: the symmetric operators
    put the constant (or the term) first. *)
Definition lc_minus_var (a : lcomb) (v : var) : outcome lcomb := lc_plus (lct (lt_negvar v)) a.
Definition lc_minus_fe (a : lcomb) (x : felem) : outcome lcomb :=
  let! x := fe_neg x in lc_plus (lcc x) a.
Definition lc_minus_int (a : lcomb) (z : Z) : outcome lcomb :=
  let! z := int_neg z in lc_plus (lci z) a.
Definition int_minus_var (z : Z) (v : var) : outcome lcomb := lc_plus (lci z) (lct (lt_negvar v)).
Definition var_minus_int (v : var) (z : Z) : outcome lcomb :=
  let! z := int_neg z in lc_plus (lci z) (lcv v).
Definition var_minus_var (v w : var) : outcome lcomb := lc_plus (lcv v) (lct (lt_negvar w)).
Definition var_minus_lc (v : var) (a : lcomb) : outcome lcomb :=
  let! a := lc_opp a in lc_plus (lcv v) a.

(** variable.cpp:500-506 [sum], 508-510 [negate]. *)
Definition lc_sum (vs : seq var) : outcome lcomb :=
  ofold (fun l v => lc_plus l (lcv v)) (lci 0) vs.
Definition lc_negate (a : lcomb) : outcome lcomb :=
  let! a := lc_opp a in lc_plus (lci 1) a.

(** variable.cpp:428-430, 458-464 [eval]. *)
Definition lt_eval (a : assignment) (t : lterm) : outcome felem :=
  let! x := var_eval a t.1 in fe_mul t.2 x.
Definition lc_eval (a : assignment) (l : lcomb) : outcome felem :=
  ofold (fun acc t => let! x := lt_eval a t in fe_add acc x) (l_const l) (l_terms l).

(** variable.cpp:487-493 [getUsedVariables] *)
Definition lc_vars (l : lcomb) : seq var := map fst (l_terms l).

(** * Monomials and polynomials *)

(** variable.hpp:528-552 [class Monomial]; the multiset is the sorted list of its
    elements. variable.hpp:567-590 [class Polynomial]. *)
Record monomial := Mono { m_coeff : felem; m_vars : seq var }.
Record polynomial := Poly { p_monos : seq monomial; p_const : felem }.

(** variable.hpp:538-540, variable.cpp:520-521 *)
Definition mono_var (v : var) : monomial := Mono (FConst 1) [:: v].
Definition mono_fe (x : felem) : monomial := Mono x [::].
Definition mono_lt (t : lterm) : monomial := Mono t.2 [:: t.1].
(** variable.cpp:559-563 and 565-569 *)
Definition mono_opp (m : monomial) : outcome monomial :=
  let! c := fe_neg (m_coeff m) in Ok (Mono c (m_vars m)).
Definition mono_mul (a b : monomial) : outcome monomial :=
  let! c := fe_mul (m_coeff a) (m_coeff b) in Ok (Mono c (sort leq (m_vars a ++ m_vars b))).
(** variable.cpp:523-529 *)
Definition mono_eval (a : assignment) (m : monomial) : outcome felem :=
  ofold (fun acc v => let! x := var_eval a v in fe_mul acc x) (m_coeff m) (m_vars m).

(** variable.hpp:572-579, variable.cpp:586-591 *)
Definition poly_nil : polynomial := Poly [::] (FConst 0).
Definition poly_mono (m : monomial) : polynomial := Poly [:: m] (FConst 0).
Definition poly_fe (x : felem) : polynomial := Poly [::] x.
Definition poly_lc (l : lcomb) : polynomial := Poly [seq mono_lt t | t <- l_terms l] (l_const l).
(** variable.cpp:639-643 [+=] *)
Definition poly_plus (a b : polynomial) : outcome polynomial :=
  let! k := fe_add (p_const a) (p_const b) in Ok (Poly (p_monos a ++ p_monos b) k).
(** variable.cpp:645-659 [*=]; [Monomial * FElem] is [FElem * Monomial]
    (variable_operators.hpp:190). *)
Definition poly_mul (a b : polynomial) : outcome polynomial :=
  let! new := omapm (fun m =>
    let! row := omapm (mono_mul m) (p_monos b) in
    let! mc := mono_mul (mono_fe (p_const b)) m in
    Ok (rcons row mc)) (p_monos a) in
  let! tail := omapm (mono_mul (mono_fe (p_const a))) (p_monos b) in
  let! k := fe_mul (p_const a) (p_const b) in
  Ok (Poly (flatten new ++ tail) k).
(** variable.cpp:661-667 [-=], variable.hpp:595 unary and variable_operators.hpp:82
    binary minus. *)
Definition poly_subto (a b : polynomial) : outcome polynomial :=
  let! k := fe_sub (p_const a) (p_const b) in
  let! ms := omapm mono_opp (p_monos b) in Ok (Poly (p_monos a ++ ms) k).
Definition poly_opp (a : polynomial) : outcome polynomial := poly_subto (poly_fe (FConst 0)) a.
Definition poly_minus (a b : polynomial) : outcome polynomial :=
  let! b := poly_opp b in poly_plus a b.
(** variable.cpp:593-599 *)
Definition poly_eval (a : assignment) (p : polynomial) : outcome felem :=
  ofold (fun acc m => let! x := mono_eval a m in fe_add acc x) (p_const p) (p_monos p).
(** variable.cpp:531-533,601-608 *)
Definition poly_vars (p : polynomial) : seq var := flatten [seq m_vars m | m <- p_monos p].

(** * Constraints *)

(** constraint.hpp, classes Rank1Constraint and PolynomialConstraint. *)
Inductive constraint2 :=
| Rank1 of lcomb & lcomb & lcomb
| General of polynomial & polynomial.

(** constraint.cpp:74-101, 146-170 *)
Definition c_is_satisfied (a : assignment) (c : constraint2) : outcome bool :=
  match c with
  | Rank1 x y z =>
      let! x := lc_eval a x in let! y := lc_eval a y in let! z := lc_eval a z in
      let! xy := fe_mul x y in Ok (fe_eqb xy z)
  | General p q =>
      let! x := poly_eval a p in let! y := poly_eval a q in Ok (fe_eqb x y)
  end.

(** constraint.cpp:200-208, protoboard.cpp:94-96 [isSatisfied]: stops at the first
    constraint that does not hold. *)
Fixpoint cs_is_satisfied (a : assignment) (cs : seq constraint2) : outcome bool :=
  match cs with
  | [::] => Ok true
  | c :: cs' => let! b := c_is_satisfied a c in
                if b then cs_is_satisfied a cs' else Ok false
  end.

(** protoboard.hpp:31-119 [class Protoboard]: the assignment and the constraints.
    [numInputs_] is 0 from construction on (protoboard.cpp:29): nothing writes it. *)
Record protoboard2 := Pb2 { pb2_asg : assignment; pb2_cs : seq constraint2 }.
Definition pb2_new : protoboard2 := Pb2 [::] [::].
Definition pb2_num_inputs (pb : protoboard2) : nat := 0.
Definition pb2_is_satisfied (pb : protoboard2) : outcome bool :=
  cs_is_satisfied (pb2_asg pb) (pb2_cs pb).

(** protoboard.cpp:78-83, 85-89, 91-93, 102-104 *)
Definition unary_constraint (l : lcomb) : constraint2 := Rank1 l (lci 1) (lci 0).
Definition boolean2 (v : var) : outcome constraint2 :=
  let! w := var_minus_int v 1 in Ok (Rank1 (lcv v) w (lci 0)).

(** infrastructure.cpp [Log2ceil]: the number of binary digits. *)
Definition log2ceil (n : N) : nat := N.to_nat (N.size n).

(** protoboard.cpp:44-56 [setValuesAsBitArray]: the mask is [1u<<i], undefined from
    [i = 32] on. *)
Definition set_bits (a : assignment) (vs : seq var) (src : N) : outcome assignment :=
  assert! (log2ceil src <= size vs)%N in
  ofold (fun a iv =>
           if (iv.1 < log2ceil src)%N
           then if (iv.1 < 32)%N
                then Ok (val_set a iv.2 (FConst (if N.testbit src (N.of_nat iv.1) then 1 else 0)))
                else UB
           else Ok (val_set a iv.2 (FConst 0)))
        a (zip (iota 0 (size vs)) vs).

(** protoboard.cpp:63-71 [setMultipackedWordValue]: the [size_t] becomes a [long]. *)
Definition set_packed (a : assignment) (ws : seq var) (src : N) : outcome assignment :=
  assert! size ws == 1%N in
  let! w := oget ws 0 in Ok (val_set a w (FConst (to_long (Z.of_N src)))).

(** protoboard.cpp:58-61 [setDualWordValue] *)
Definition set_dual (a : assignment) (ws vs : seq var) (src : N) : outcome assignment :=
  let! a := set_packed a ws src in set_bits a vs src.

(** * Conversion to R1CS *)

(** adapters.cpp:72-77 [convert(FElem)] *)
Definition convert_fe (x : felem) : F := match x with FConst z => Fp z | R1P a => a end.

(** adapters.cpp:19-33, integration.cpp:18-30: terms are shifted by one, the constant
    becomes the coefficient of variable 0; the sum is built with libsnark's merge. *)
Definition convert_lc (l : lcomb) : linear_combination F :=
  foldl (fun acc (t : lterm) => lc_add acc (lc_of_term (var_scale t.1.+1 (convert_fe t.2))))
        (lc_of_term (var_scale 0%N (convert_fe (l_const l)))) (l_terms l).

(** adapters.cpp:35-49: a constraint that is not of rank 1 fails the cast. *)
Definition convert_constraint (c : constraint2) : outcome (r1cs_constraint F) :=
  match c with
  | Rank1 x y z => Ok (R1csConstraint (convert_lc x) (convert_lc y) (convert_lc z))
  | General _ _ => AssertFail
  end.

(** integration.cpp:32-52; [next] is [getNextFreeIndex()]. *)
Definition get_constraint_system (next : nat) (pb : protoboard2) : outcome (r1cs F) :=
  let! cs := omapm convert_constraint (pb2_cs pb) in
  Ok (R1cs (pb2_num_inputs pb) (next - pb2_num_inputs pb) cs).

(** integration.cpp:54-71: writing outside [result] is undefined. *)
Definition get_assignment (next : nat) (pb : protoboard2) : outcome (seq F) :=
  ofold (fun r iv => if iv.2 is Some x then oput r iv.1 (convert_fe x) else Ok r)
        (nseq next 0)
        (zip (iota 0 (size (pb2_asg pb))) (pb2_asg pb)).

(** * Gadgets: constraints and witnesses *)

(** gadget.cpp:95-105 *)
Definition and2_constraints (x y : lcomb) (r : var) : outcome (seq constraint2) :=
  Ok [:: Rank1 x y (lcv r)].
Definition and2_witness (a : assignment) (x y : lcomb) (r : var) : outcome assignment :=
  let! vx := lc_eval a x in
  let! b := (if fe_eqb vx (FConst 1) then let! vy := lc_eval a y in Ok (fe_eqb vy (FConst 1))
             else Ok false) in
  Ok (val_set a r (FConst (if b then 1 else 0))).

(** The loop that sums the values of an array, gadget.cpp:141-144, 249-252. *)
Definition sum_values (a : assignment) (vs : seq var) : outcome (felem * assignment) :=
  ofold (fun st v => let! s := fe_add st.1 (val_of st.2 v) in Ok (s, val_touch st.2 v))
        (FConst 0, a) vs.

(** gadget.cpp:118-126: the constructor's checks; one auxiliary variable. *)
Definition array_check (vs : seq var) : outcome unit :=
  assert! (0 < size vs)%N in
  assert! (N.of_nat (size vs) <=? as_ulong (Fp (-1)))%num in Ok tt.
(** gadget.cpp:128-138 *)
Definition and_constraints (vs : seq var) (r inv : var) : outcome (seq constraint2) :=
  let! _ := array_check vs in
  let! s := lc_sum vs in
  let! s := lc_minus_int s (to_int (Z.of_nat (size vs))) in
  let! nr := int_minus_var 1 r in
  Ok [:: Rank1 s (lcv r) (lci 0); Rank1 (lcv inv) s nr].
(** gadget.cpp:140-153 *)
Definition and_witness (a : assignment) (vs : seq var) (r inv : var) : outcome assignment :=
  let! st := sum_values a vs in
  let! s := fe_sub st.1 (fe_of_size (size vs)) in
  let a := st.2 in
  if fe_eqb s (FConst 0) then Ok (val_set (val_set a inv (FConst 0)) r (FConst 1))
  else Ok (val_set (val_set a inv (fe_inverse s)) r (FConst 0)).

(** gadget.cpp:201-212 *)
Definition or2_constraints (x y : lcomb) (r : var) : outcome (seq constraint2) :=
  let! s := lc_plus x y in
  let! s := lc_minus_var s r in
  Ok [:: Rank1 x y s].
Definition or2_witness (a : assignment) (x y : lcomb) (r : var) : outcome assignment :=
  let! vx := lc_eval a x in
  let! b := (if fe_eqb vx (FConst 1) then Ok true
             else let! vy := lc_eval a y in Ok (fe_eqb vy (FConst 1))) in
  Ok (val_set a r (FConst (if b then 1 else 0))).

(** gadget.cpp:225-245 *)
Definition or_constraints (vs : seq var) (r inv : var) : outcome (seq constraint2) :=
  let! _ := array_check vs in
  let! s := lc_sum vs in
  let! nr := int_minus_var 1 r in
  Ok [:: Rank1 s nr (lci 0); Rank1 (lcv inv) s (lcv r)].
(** gadget.cpp:247-259 *)
Definition or_witness (a : assignment) (vs : seq var) (r inv : var) : outcome assignment :=
  let! st := sum_values a vs in
  let a := st.2 in
  if fe_eqb st.1 (FConst 0) then Ok (val_set (val_set a inv (FConst 0)) r (FConst 0))
  else Ok (val_set (val_set a inv (fe_inverse st.1)) r (FConst 1)).

(** gadget.cpp:305-332 [R1P_InnerProduct_Gadget]; [ps] are the partial sums. *)
Definition inner_constraints (xs ys : seq var) (r : var) (ps : seq var) : outcome (seq constraint2) :=
  assert! (0 < size xs)%N in
  assert! size xs == size ys in
  let n := size xs in
  if n == 1%N then
    let! x := oget xs 0 in let! y := oget ys 0 in Ok [:: Rank1 (lcv x) (lcv y) (lcv r)]
  else
    let! x0 := oget xs 0 in let! y0 := oget ys 0 in let! p0 := oget ps 0 in
    let! mid := omapm (fun i =>
      let! x := oget xs i in let! y := oget ys i in
      let! p := oget ps i in let! q := oget ps i.-1 in
      let! d := var_minus_var p q in Ok (Rank1 (lcv x) (lcv y) d)) (iota 1 (n - 2)) in
    let! xl := oget xs n.-1 in let! yl := oget ys n.-1 in let! pl := oget ps (n - 2) in
    let! d := var_minus_var r pl in
    Ok (Rank1 (lcv x0) (lcv y0) (lcv p0) :: mid ++ [:: Rank1 (lcv xl) (lcv yl) d]).
(** [val(z) = val(w) + val(x) * val(y)], all read and created through [val]. *)
Definition set_product (a : assignment) (z x y : var) : outcome assignment :=
  let! m := fe_mul (val_of a x) (val_of a y) in
  Ok (val_set (val_touch (val_touch a x) y) z m).
Definition set_product_add (a : assignment) (z w x y : var) : outcome assignment :=
  let! m := fe_mul (val_of a x) (val_of a y) in
  let! m := fe_add (val_of a w) m in
  Ok (val_set (val_touch (val_touch (val_touch a w) x) y) z m).
(** gadget.cpp:334-346 *)
Definition inner_witness (a : assignment) (xs ys : seq var) (r : var) (ps : seq var) : outcome assignment :=
  let n := size xs in
  if n == 1%N then
    let! x := oget xs 0 in let! y := oget ys 0 in set_product a r x y
  else
    let! x0 := oget xs 0 in let! y0 := oget ys 0 in let! p0 := oget ps 0 in
    let! a := set_product a p0 x0 y0 in
    let! a := ofold (fun a i =>
      let! x := oget xs i in let! y := oget ys i in
      let! p := oget ps i in let! q := oget ps i.-1 in
      set_product_add a p q x y) a (iota 1 (n - 2)) in
    let! xl := oget xs n.-1 in let! yl := oget ys n.-1 in let! pl := oget ps (n - 2) in
    set_product_add a r pl xl yl.

(** gadget.cpp:371-412 [R1P_LooseMUX_Gadget]: [ins] are the input words, [out] the output
    word, [ind] the indicators and [ps] the partial sums of the inner product of each
    output. *)
Definition mux_column (ins : seq (seq var)) (i : nat) : outcome (seq var) :=
  omapm (fun w => oget w i) ins.
Definition mux_constraints (ins : seq (seq var)) (index : var) (out : seq var) (flag : var)
    (ind : seq var) (ps : seq (seq var)) : outcome (seq constraint2) :=
  assert! (N.of_nat (size ins) <=? as_ulong (Fp (-1)))%num in
  assert! all (fun w => size w == size out) ins in
  let! inds := omapm (fun i =>
    let! v := oget ind i in
    let! d := var_minus_int index (to_int (Z.of_nat i)) in
    Ok (Rank1 (lcv v) d (lci 0))) (iota 0 (size ins)) in
  let! s := lc_sum ind in
  let! fb := boolean2 flag in
  let! prods := omapm (fun i =>
    let! col := mux_column ins i in
    let! o := oget out i in let! p := oget ps i in
    inner_constraints ind col o p) (iota 0 (size out)) in
  Ok (inds ++ [:: Rank1 s (lci 1) (lcv flag); fb] ++ flatten prods).
(** gadget.cpp:414-431 *)
Definition mux_witness (a : assignment) (ins : seq (seq var)) (index : var) (out : seq var) (flag : var)
    (ind : seq var) (ps : seq (seq var)) : outcome assignment :=
  let n := size ins in
  let idx := Z.modulo (fe_as_long (val_of a index)) (2 ^ 64) in
  let a := val_touch a index in
  let a := foldl (fun a v => val_set a v (FConst 0)) a ind in
  let! a := (if (Z.of_nat n <=? idx)%ZZ then Ok (val_set a flag (FConst 0))
             else let! v := oget ind (Z.to_nat idx) in
                  Ok (val_set (val_set a v (FConst 1)) flag (FConst 1))) in
  ofold (fun a i =>
    let! col := mux_column ins i in
    let! o := oget out i in let! p := oget ps i in
    inner_witness a ind col o p) a (iota 0 (size out)).

(** gadget.cpp:500-525 [R1P_CompressionPacking_Gadget]; also what
    R1P_IntegerPacking_Gadget (578-601), DualWord_Gadget (657-681) and
    DualWordArray_Gadget (694-727) consist of. *)
Definition packing_check (bits packed : seq var) : outcome var :=
  assert! (0 < size bits)%N in
  assert! size packed == 1%N in oget packed 0.
Definition packing2_constraints (unpack : bool) (bits packed : seq var) : outcome (seq constraint2) :=
  let! p := packing_check bits packed in
  let! st := ofold (fun st b =>
      let: (l, two_i, cs) := st in
      let! t := lt_mulby (lt_var b) two_i in
      let! l := lc_plus l (lct t) in
      let! two_i := fe_add two_i two_i in
      if unpack then let! c := boolean2 b in Ok (l, two_i, rcons cs c) else Ok (l, two_i, cs))
    (lc_nil, R1P 1, [::]) bits in
  let: (l, _, cs) := st in
  Ok (rcons cs (Rank1 (lcv p) (lci 1) l)).
(** gadget.cpp:527-547 *)
Definition packing2_witness (unpack : bool) (a : assignment) (bits packed : seq var) : outcome assignment :=
  let! p := packing_check bits packed in
  if unpack then
    ofold (fun a ib =>
             let bit := fe_get_bit (val_of a p) ib.1 in
             let a := set_nth None a p (Some (promote (val_of a p))) in
             Ok (val_set a ib.2 (FConst (if bit then 1 else 0))))
          a (zip (iota 0 (size bits)) bits)
  else
    let! st := ofold (fun st b =>
        let: (pv, two_i, a) := st in
        let x := fe_as_long (val_of a b) in
        assert! ((x =? 0) || (x =? 1))%ZZ in
        let! t := fe_mul two_i (FConst x) in
        let! pv := fe_add pv t in
        let! two_i := fe_add two_i two_i in
        Ok (pv, two_i, val_touch a b)) (FConst 0, R1P 1, a) bits in
    let: (pv, _, a) := st in Ok (val_set a p pv).

(** gadget.cpp:627-644 [R1P_EqualsConst_Gadget] *)
Definition equals_constraints (n : felem) (x : lcomb) (r aux : var) : outcome (seq constraint2) :=
  let! d := lc_minus_fe x n in
  let! nr := int_minus_var 1 r in
  Ok [:: Rank1 d (lcv r) (lci 0); Rank1 d (lcv aux) nr].
Definition equals_witness (a : assignment) (n : felem) (x : lcomb) (r aux : var) : outcome assignment :=
  let! v := lc_eval a x in
  let! inv := (if fe_eqb v n then Ok (FConst 0)
               else let! d := fe_minus v n in Ok (fe_inverse d)) in
  let a := val_set a aux inv in
  let! v := lc_eval a x in
  Ok (val_set a r (FConst (if fe_eqb v n then 1 else 0))).

(** gadget.cpp:749-780 [Toggle_Gadget] *)
Definition toggle_constraints (t : var) (x0 x1 : lcomb) (r : var) : outcome (seq constraint2) :=
  let! d := lc_minus x1 x0 in
  let! e := var_minus_lc r x0 in
  Ok [:: Rank1 (lcv t) d e].
Definition toggle_witness (a : assignment) (t : var) (x0 x1 : lcomb) (r : var) : outcome assignment :=
  let vt := val_of a t in
  let a := val_touch a t in
  if fe_eqb vt (FConst 0) then let! v := lc_eval a x0 in Ok (val_set a r v)
  else if fe_eqb vt (FConst 1) then let! v := lc_eval a x1 in Ok (val_set a r v)
  else AssertFail.

(** gadget.cpp:805-833 [ConditionalFlag_Gadget] *)
Definition condflag_constraints (c : lcomb) (flag inv : var) : outcome (seq constraint2) :=
  let! nf := lc_negate (lcv flag) in
  Ok [:: Rank1 c nf (lci 0); Rank1 c (lcv inv) (lcv flag)].
Definition condflag_witness (a : assignment) (c : lcomb) (flag inv : var) : outcome assignment :=
  let! v := lc_eval a c in
  if fe_eqb v (FConst 0) then Ok (val_set (val_set a flag (FConst 0)) inv (FConst 0))
  else let a := val_set a flag (FConst 1) in
       let! v := lc_eval a c in
       Ok (val_set a inv (fe_inverse v)).

(** gadget.cpp:855-876 [LogicImplication_Gadget] *)
Definition implication_constraints (c : lcomb) (flag : var) : outcome (seq constraint2) :=
  let! nf := lc_negate (lcv flag) in
  Ok [:: Rank1 c nf (lci 0)].
Definition implication_witness (a : assignment) (c : lcomb) (flag : var) : outcome assignment :=
  let! v := lc_eval a c in
  Ok (if fe_eqb v (FConst 1) then val_set a flag (FConst 1) else a).

(** gadget.cpp:892-941 [R1P_Comparison_Gadget]: [alpha] are the low bits of the packed
    word [ap], whose top bit is the flag [leq]; [nz] says that the low bits are not all
    zero, [nzinv] is the auxiliary variable of its OR gadget.
    infrastructure.hpp:112-115 [POW2]: [1 << n] is undefined from [n = 63] on (before
    C++20). *)
Definition pow2_long (n : nat) : outcome Z := if (n < 63)%N then Ok (2 ^ Z.of_nat n)%ZZ else UB.
Definition compare_constraints (n : nat) (lhs rhs less leq ap : var) (alpha : seq var)
    (nz nzinv : var) : outcome (seq constraint2) :=
  let! _ := array_check alpha in
  let all_bits := rcons alpha leq in
  let! bz := boolean2 nz in
  let! two_n := pow2_long n in
  let! s := lc_plus (lcc (FConst two_n)) (lcv rhs) in
  let! s := lc_minus_var s lhs in
  let! pk := packing2_constraints true all_bits [:: ap] in
  let! orc := or_constraints alpha nz nzinv in
  let! top := oget all_bits n in
  Ok (bz :: Rank1 (lci 1) (lcv ap) s :: pk ++ orc ++
      [:: Rank1 (lci 1) (lcv top) (lcv leq); Rank1 (lcv top) (lcv nz) (lcv less)]).
Definition compare_witness (a : assignment) (n : nat) (lhs rhs less leq ap : var) (alpha : seq var)
    (nz nzinv : var) : outcome assignment :=
  let all_bits := rcons alpha leq in
  let! two_n := pow2_long n in
  let! s := fe_add (FConst two_n) (val_of a rhs) in
  let! s := fe_minus s (val_of a lhs) in
  let a := val_set (val_touch (val_touch a rhs) lhs) ap s in
  let! a := packing2_witness true a all_bits [:: ap] in
  let! a := or_witness a alpha nz nzinv in
  let! top := oget all_bits n in
  let a := val_set (val_touch a top) leq (val_of a top) in
  let! m := fe_mul (val_of a leq) (val_of a nz) in
  Ok (val_set (val_touch (val_touch a leq) nz) less m).

End Gadgetlib2.
