(** Properties C01-C04: linear combinations and constraint systems. *)
From mathcomp Require Import all_ssreflect all_algebra.
From Verif Require Import Outcome Lincomb LincombSpec LincombFacts R1CS R1CSSpec R1CSFacts.
Import GRing.Theory.
Set Implicit Arguments.
Unset Strict Implicit.
Unset Printing Implicit Defensive.
Local Open Scope ring_scope.

(** * C01 *)

(** [evaluate] computes the formal sum when all indices are covered by the
    assignment, and reads out of bounds otherwise. *)
Theorem C01_evaluate (F : fieldType) (l : linear_combination F) (x : seq F) :
  (in_range (size x) l -> evaluate l x = Ok (formal_sum l x)) /\
  (~~ in_range (size x) l -> evaluate l x = UB).
Proof. exact (conj (@evaluate_ok F l x) (@evaluate_ub F l x)). Qed.
Print Assumptions C01_evaluate.

(** The operators commute with evaluation and never make an evaluation go out
    of range.  [a] and [b] need not be sorted. *)
Theorem C01_operators (F : fieldType) (a b : linear_combination F) (c : F) (k : int)
    (v : variable) (t : linear_term F) (x : seq F) :
  in_range (size x) a -> in_range (size x) b -> (v <= size x)%N -> (lt_index t <= size x)%N ->
  exists va vb : F,
    (evaluate a x = Ok va /\ evaluate b x = Ok vb) /\
    [/\ evaluate (lc_add a b) x = Ok (va + vb),
        evaluate (lc_sub a b) x = Ok (va - vb),
        evaluate (lc_neg a) x = Ok (- va),
        evaluate (lc_scale a c) x = Ok (c * va) &
        evaluate (lc_of_const c) x = Ok c] /\
    [/\ evaluate (lc_of_int F k) x = Ok k%:~R,
        evaluate (lc_of_var F v) x = Ok (xval x v),
        evaluate (lc_of_term t) x = Ok (lt_coeff t * xval x (lt_index t)),
        evaluate (var_add_lc v a) x = Ok (xval x v + va) &
        evaluate (var_sub_lc v a) x = Ok (xval x v - va)] /\
    [/\ evaluate (lt_add_lc t a) x = Ok (lt_coeff t * xval x (lt_index t) + va),
        evaluate (lt_sub_lc t a) x = Ok (lt_coeff t * xval x (lt_index t) - va),
        evaluate (const_add_lc c a) x = Ok (c + va),
        evaluate (const_sub_lc c a) x = Ok (c - va) &
        evaluate (add_term a t) x = Ok (va + lt_coeff t * xval x (lt_index t))].
Proof. exact (@operators_ok F a b c k v t x). Qed.
Print Assumptions C01_operators.

(** Sums of strictly sorted combinations are strictly sorted. *)
Theorem C01_add_sorted (F : fieldType) (a b : linear_combination F) :
  sorted ltn (map (@lt_index F) a) -> sorted ltn (map (@lt_index F) b) ->
  sorted ltn (map (@lt_index F) (lc_add a b)).
Proof. exact (@lc_add_sorted F a b). Qed.
Print Assumptions C01_add_sorted.

(** The constructor from an arbitrary vector of terms: whatever order
    [std::sort] leaves equal indices in, the result evaluates like the given
    terms (including whether evaluation is in range), mentions the same
    indices, is strictly sorted; and the constructor always returns. *)
Theorem C01_constructor_from_terms (F : fieldType) (ts : seq (linear_term F)) :
  (exists l, lc_of_terms ts l) /\
  forall l, lc_of_terms ts l ->
    [/\ forall x, evaluate l x = evaluate ts x,
        sorted ltn (map (@lt_index F) l) &
        map (@lt_index F) l =i map (@lt_index F) ts].
Proof. exact (lc_of_terms_correct ts). Qed.
Print Assumptions C01_constructor_from_terms.

Definition F7 : fieldType := [fieldType of 'F_7].

Example C01_nonvacuous :
  let a : linear_combination F7 := [:: (0%N, 2%:R); (1%N, 3%:R); (1%N, 1); (3%N, 5%:R)] in
  let b : linear_combination F7 := [:: (2%N, 4%:R); (1%N, 6%:R)] in
  let x : seq F7 := [:: 1; 2%:R; 3%:R] in
  in_range (size x) a /\ in_range (size x) b /\
  exists v : F7, evaluate (lc_add a b) x = Ok v /\ nat_of_ord v = 0%N.
Proof.
move=> a b x; split; first by []. split; first by [].
by eexists; split; [reflexivity | vm_compute].
Qed.

(** * C02 *)

(** With in-range indices and inputs of the declared sizes the check returns,
    and returns true exactly when all constraints hold. *)
Theorem C02_r1cs_is_satisfied (F : fieldType) (cs : r1cs F) (primary auxiliary : seq F) :
  r1cs_in_range cs -> size primary = num_inputs cs ->
  size auxiliary = auxiliary_input_size cs ->
  exists2 b, r1cs_is_satisfied cs primary auxiliary = Ok b &
             b <-> r1cs_holds cs (primary ++ auxiliary).
Proof. exact (@r1cs_is_satisfied_iff F cs primary auxiliary). Qed.
Print Assumptions C02_r1cs_is_satisfied.

(** With other sizes it stops on an assertion. *)
Theorem C02_r1cs_wrong_sizes (F : fieldType) (cs : r1cs F) (primary auxiliary : seq F) :
  (size primary != num_inputs cs) || (size primary + size auxiliary != num_variables cs)%N ->
  r1cs_is_satisfied cs primary auxiliary = AssertFail.
Proof. exact (@r1cs_is_satisfied_sizes F cs primary auxiliary). Qed.
Print Assumptions C02_r1cs_wrong_sizes.

(** Acceptance always implies the relation, even for systems that were not
    known to be in range. *)
Theorem C02_r1cs_accept_sound (F : fieldType) (cs : r1cs F) (primary auxiliary : seq F) :
  r1cs_is_satisfied cs primary auxiliary = Ok true ->
  [/\ size primary = num_inputs cs, size auxiliary = auxiliary_input_size cs,
      r1cs_in_range cs & r1cs_holds cs (primary ++ auxiliary)].
Proof. exact (@r1cs_is_satisfied_true F cs primary auxiliary). Qed.
Print Assumptions C02_r1cs_accept_sound.

(** A constraint built from initializer lists means that the products of the
    sums are equal. *)
Theorem C02_constraint_of_lists (F : fieldType) (A B C : seq (linear_combination F)) (x : seq F) :
  constraint_holds (r1cs_constraint_of_lists A B C) x <->
  (\sum_(l <- A) formal_sum l x) * (\sum_(l <- B) formal_sum l x) = \sum_(l <- C) formal_sum l x.
Proof. exact (constraint_of_lists_iff A B C x). Qed.
Print Assumptions C02_constraint_of_lists.

Theorem C02_uscs_is_satisfied (F : fieldType) (cs : uscs F) (primary auxiliary : seq F) :
  uscs_in_range cs -> size primary = u_num_inputs cs ->
  size auxiliary = u_auxiliary_input_size cs ->
  exists2 b, uscs_is_satisfied cs primary auxiliary = Ok b &
             b <-> uscs_holds cs (primary ++ auxiliary).
Proof. exact (@uscs_is_satisfied_iff F cs primary auxiliary). Qed.
Print Assumptions C02_uscs_is_satisfied.

Theorem C02_uscs_wrong_sizes (F : fieldType) (cs : uscs F) (primary auxiliary : seq F) :
  (size primary != u_num_inputs cs) || (size primary + size auxiliary != u_num_variables cs)%N ->
  uscs_is_satisfied cs primary auxiliary = AssertFail.
Proof. exact (@uscs_is_satisfied_sizes F cs primary auxiliary). Qed.
Print Assumptions C02_uscs_wrong_sizes.

(** x1 * x2 = x3 and (x1 + x3) * 1 = 6 over F_7: accepted with (1; 5, 5),
    rejected with (1; 5, 4). *)
Definition ex_cs : r1cs F7 :=
  R1cs 1 2 [:: R1csConstraint [:: (1%N, 1)] [:: (2%N, 1)] [:: (3%N, 1)];
               R1csConstraint [:: (1%N, 1); (3%N, 1)] [:: (0%N, 1)] [:: (0%N, 6%:R)]].

Example C02_nonvacuous :
  [/\ r1cs_in_range ex_cs,
      r1cs_is_satisfied ex_cs [:: 1] [:: 5%:R; 5%:R] = Ok true,
      r1cs_is_satisfied ex_cs [:: 1] [:: 5%:R; 4%:R] = Ok false &
      r1cs_is_satisfied ex_cs [:: 1] [:: 5%:R] = AssertFail].
Proof. by split; vm_compute. Qed.

(** * C03 *)

(** What [is_valid] is meant to decide (comments at variable.tcc:347,356):
    strictly increasing indices, all of them within the [n] variables. *)
Definition lc_valid (F : fieldType) (n : nat) (l : linear_combination F) : bool :=
  sorted ltn (map (@lt_index F) l) && in_range n l.

(** Exact behaviour: on a non-empty combination the code accepts iff the indices
    are strictly increasing and all of them are at most n-1; an accepted
    combination is therefore valid; the empty combination is undefined
    behaviour. *)
Theorem C03_is_valid_exact (F : fieldType) (l : linear_combination F) (n : nat) :
  (l = [::] -> lc_is_valid l n = UB) /\
  (l <> [::] -> lc_is_valid l n =
     Ok (sorted ltn (map (@lt_index F) l) && ((0 < n)%N && in_range n.-1 l))) /\
  (lc_is_valid l n = Ok true -> lc_valid n l).
Proof. exact (lc_is_valid_exact l n). Qed.
Print Assumptions C03_is_valid_exact.

(** Finding: the legal top index is rejected, in every field and for every
    number of variables, and so is every constraint system that uses it. *)
Theorem C03_is_valid_refuted (F : fieldType) (n : nat) :
  exists l : linear_combination F,
    lc_valid n l /\ lc_is_valid l n = Ok false.
Proof. exact (lc_is_valid_rejects_top F n). Qed.
Print Assumptions C03_is_valid_refuted.

Theorem C03_r1cs_is_valid_refuted (F : fieldType) :
  exists cs : r1cs F,
    [/\ forall c, List.In c (constraints cs) ->
          [/\ lc_valid (num_variables cs) (c_a c), lc_valid (num_variables cs) (c_b c) &
              lc_valid (num_variables cs) (c_c c)],
        r1cs_is_satisfied cs [:: 1] [::] = Ok true & r1cs_is_valid cs = Ok false].
Proof. exact (r1cs_is_valid_rejects F). Qed.
Print Assumptions C03_r1cs_is_valid_refuted.

(** An accepted constraint system is in range. *)
Theorem C03_r1cs_is_valid_sound (F : fieldType) (cs : r1cs F) :
  r1cs_is_valid cs = Ok true ->
  r1cs_in_range cs /\
  forall c, List.In c (constraints cs) ->
    [/\ lc_valid (num_variables cs) (c_a c), lc_valid (num_variables cs) (c_b c) &
        lc_valid (num_variables cs) (c_c c)].
Proof. exact (@r1cs_is_valid_true F cs). Qed.
Print Assumptions C03_r1cs_is_valid_sound.

Example C03_nonvacuous :
  r1cs_is_valid (R1cs 1 3 (constraints ex_cs)) = Ok true /\
  lc_is_valid ([:: (1%N, 1); (3%N, 1)] : linear_combination F7) 4 = Ok true.
Proof. by split; vm_compute. Qed.

(** * C04 *)

Theorem C04_swap_AB (F : fieldType) (cs : r1cs F) :
  r1cs_in_range cs ->
  exists2 cs', swap_AB_if_beneficial cs = Ok cs' &
    [/\ (num_inputs cs' = num_inputs cs /\ num_variables cs' = num_variables cs) /\
         num_constraints cs' = num_constraints cs,
        r1cs_in_range cs',
        (count_B cs' <= count_A cs')%N,
        constraints cs' =
          if (count_A cs < count_B cs)%N
          then [seq R1csConstraint (c_b c) (c_a c) (c_c c) | c <- constraints cs]
          else constraints cs &
        forall primary auxiliary,
          r1cs_is_satisfied cs' primary auxiliary = r1cs_is_satisfied cs primary auxiliary].
Proof. exact (@swap_AB_correct F cs). Qed.
Print Assumptions C04_swap_AB.

(** Out-of-range systems make it write outside the bit vectors. *)
Theorem C04_swap_AB_out_of_range (F : fieldType) :
  exists cs : r1cs F, ~~ r1cs_in_range cs /\ swap_AB_if_beneficial cs = UB.
Proof. exact (swap_AB_ub F). Qed.
Print Assumptions C04_swap_AB_out_of_range.

Example C04_nonvacuous :
  let cs := R1cs 1 2 [:: R1csConstraint [:: (1%N, 1)] [:: (2%N, 1); (3%N, 1)] [:: (3%N, 1 : F7)]] in
  r1cs_in_range cs /\ (count_A cs < count_B cs)%N.
Proof. by vm_compute. Qed.
