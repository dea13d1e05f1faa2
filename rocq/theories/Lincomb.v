(** Model of libsnark/relations/variable.{hpp,tcc}: variables, linear terms and
    linear combinations. Definitions only. *)
From mathcomp Require Import all_ssreflect all_algebra.
From Verif Require Import Outcome.
Set Implicit Arguments.
Unset Strict Implicit.
Unset Printing Implicit Defensive.
Local Open Scope ring_scope.

Section Model.
Variable F : fieldType.

(** variable.hpp:48-65 [class variable]: just an index; index 0 is the constant
    one. *)
Definition variable := nat.

(** variable.hpp:91-112 [class linear_term]: (index, coeff).
    operator== (variable.tcc:176-181) is equality of pairs. *)
Definition linear_term := (nat * F)%type.
Definition lt_index (t : linear_term) : nat := t.1.
Definition lt_coeff (t : linear_term) : F := t.2.

(** variable.hpp:147-189 [class linear_combination]: its public member [terms].
    operator== (variable.tcc:338-342) is equality of the term vectors. *)
Definition linear_combination := seq linear_term.

(** variable.tcc:104-120 constructors of [linear_term] from a variable, from a
    variable and an integer coefficient ([FieldT(long)] is the canonical map
    from the integers), and from a variable and a coefficient. *)
Definition lt_of_var (v : variable) : linear_term := (v, 1).
Definition lt_of_int (v : variable) (c : int) : linear_term := (v, c%:~R).
Definition lt_mk (v : variable) (c : F) : linear_term := (v, c).

(** variable.tcc:27-37,68-78 [variable * coeff] (either order). *)
Definition var_scale (v : variable) (c : F) : linear_term := lt_mk v c.

(** variable.tcc:56-60 [variable::operator-()]. *)
Definition var_neg (v : variable) : linear_term := lt_mk v (- 1).

(** variable.tcc:128-132,189-193 [linear_term * coeff]. *)
Definition lt_scale (t : linear_term) (c : F) : linear_term :=
  (lt_index t, c * lt_coeff t).

(** variable.tcc:170-174 [linear_term::operator-()]. *)
Definition lt_neg (t : linear_term) : linear_term := (lt_index t, - lt_coeff t).

(** variable.tcc:249-253 (and 231-247, through the term constructors)
    [add_term]: push at the end. *)
Definition add_term (l : linear_combination) (t : linear_term) : linear_combination :=
  rcons l t.

(** variable.hpp:153, variable.tcc:195-217 constructors. *)
Definition lc_zero : linear_combination := [::].
Definition lc_of_const (c : F) : linear_combination := add_term lc_zero (0%N, c).
Definition lc_of_int (c : int) : linear_combination := add_term lc_zero (0%N, c%:~R).
Definition lc_of_var (v : variable) : linear_combination := add_term lc_zero (lt_of_var v).
Definition lc_of_term (t : linear_term) : linear_combination := add_term lc_zero t.

(** variable.tcc:261-270 [evaluate]: a left-to-right loop with accumulator;
    [assignment[lt.index-1]] is undefined behaviour out of range. *)
Definition var_value (assignment : seq F) (i : nat) : outcome F :=
  if i is i'.+1 then oget assignment i' else Ok 1.

Definition evaluate (l : linear_combination) (assignment : seq F) : outcome F :=
  ofold (fun acc t =>
           let! v := var_value assignment (lt_index t) in
           Ok (acc + v * lt_coeff t)) 0 l.

(** variable.tcc:272-282 [linear_combination * coeff] (also 255-259, 448-458). *)
Definition lc_scale (l : linear_combination) (c : F) : linear_combination :=
  [seq lt_scale t c | t <- l].

(** variable.tcc:284-324 [linear_combination + linear_combination]: the merge of
    the two term vectors driven by comparing the two front indices. *)
Fixpoint lc_add (a : linear_combination) : linear_combination -> linear_combination :=
  fix add_a (b : linear_combination) : linear_combination :=
    match a, b with
    | [::], _ => b
    | _, [::] => a
    | t1 :: a', t2 :: b' =>
        if (lt_index t1 < lt_index t2)%N then t1 :: lc_add a' b
        else if (lt_index t2 < lt_index t1)%N then t2 :: add_a b'
        else (lt_index t1, lt_coeff t1 + lt_coeff t2) :: lc_add a' b'
    end.

(** variable.tcc:332-336 unary minus. *)
Definition lc_neg (l : linear_combination) : linear_combination := lc_scale l (- 1).

(** variable.tcc:326-330 subtraction. *)
Definition lc_sub (a b : linear_combination) : linear_combination := lc_add a (lc_neg b).

(** variable.tcc:39-48 [variable + linear_combination]: the variable's term is
    appended first, the other terms are then inserted in front of it. *)
Definition var_add_lc (v : variable) (l : linear_combination) : linear_combination :=
  l ++ add_term lc_zero (lt_of_var v).

(** variable.tcc:50-54 [variable - linear_combination]. *)
Definition var_sub_lc (v : variable) (l : linear_combination) : linear_combination :=
  var_add_lc v (lc_neg l).

(** variable.tcc:158-168 [linear_term + / - linear_combination]. *)
Definition lt_add_lc (t : linear_term) (l : linear_combination) : linear_combination :=
  lc_add (lc_of_term t) l.
Definition lt_sub_lc (t : linear_term) (l : linear_combination) : linear_combination :=
  lt_add_lc t (lc_neg l).

(** variable.tcc:86-90,98-102,140-144,152-156,466-470,478-482
    [field_coeff + / - (variable | term | combination)]: both go through
    [linear_combination(field_coeff)]; a variable or term on the right is
    converted to a combination. *)
Definition const_add_lc (c : F) (l : linear_combination) : linear_combination :=
  lc_add (lc_of_const c) l.
Definition const_sub_lc (c : F) (l : linear_combination) : linear_combination :=
  lc_sub (lc_of_const c) l.

(** variable.tcc:344-364 [is_valid]: the sortedness loop, then the read of
    [*(--terms.end())], which is undefined behaviour for an empty vector. *)
Fixpoint adjacent_increasing (l : linear_combination) : bool :=
  match l with
  | t1 :: ((t2 :: _) as l') =>
      if (lt_index t2 <= lt_index t1)%N then false else adjacent_increasing l'
  | _ => true
  end.

Definition lc_is_valid (l : linear_combination) (num_variables : nat) : outcome bool :=
  if ~~ adjacent_increasing l then Ok false
  else match l with
       | [::] => UB
       | t :: l' => Ok (~~ (num_variables <= lt_index (last t l'))%N)
       end.

(** variable.tcc:495-507: the merging loop of the constructor from a vector of
    terms, on the sorted vector. [cur] is [*result_it], [done] the (reversed)
    elements before it.  The C++ code compacts in place; [result_it] never
    overtakes [it], so the elements still to be read are unmodified, which is
    why the model may read them from a separate list. *)
Fixpoint merge_loop (done : seq linear_term) (cur : linear_term)
         (rest : seq linear_term) : seq linear_term :=
  match rest with
  | [::] => rev (cur :: done)
  | t :: rest' =>
      if lt_index t == lt_index cur
      then merge_loop done (lt_index cur, lt_coeff cur + lt_coeff t) rest'
      else merge_loop (cur :: done) t rest'
  end.

Definition merge_sorted_terms (l : seq linear_term) : linear_combination :=
  if l is t :: l' then merge_loop [::] t l' else [::].

(** variable.tcc:484-508 the constructor from a vector of terms.  [std::sort] is
    not stable, so the model is a relation: the sorted vector may be any
    permutation of the input that is ordered by index. *)
Definition lc_of_terms (all_terms : seq linear_term) (result : linear_combination) : Prop :=
  exists sorted_terms,
    [/\ perm_eq sorted_terms all_terms,
        sorted leq (map lt_index sorted_terms) &
        result = merge_sorted_terms sorted_terms].

End Model.

Global Arguments lc_of_var : simpl never.
Global Arguments lc_of_const : simpl never.
Global Arguments lc_of_int : simpl never.
Global Arguments lc_of_term : simpl never.
Global Arguments lc_add : simpl never.
Global Arguments lc_sub : simpl never.
Global Arguments lc_neg : simpl never.
Global Arguments lc_scale : simpl never.
