(** Vocabulary for stating what gadgets do.  Models nothing of /repo. *)
From mathcomp Require Import all_ssreflect all_algebra.
From Verif Require Import Lincomb LincombSpec R1CS R1CSSpec Protoboard.
Set Implicit Arguments.
Unset Strict Implicit.
Unset Printing Implicit Defensive.
Local Open Scope ring_scope.

Section Spec.
Variable F : fieldType.

(** All constraints of the list hold of the variable values [x] ([x_0 = 1], and
    [x_i] is the value of the variable of index [i]). *)
Definition holds (cs : seq (r1cs_constraint F)) (x : seq F) : Prop :=
  forall c, List.In c cs -> constraint_holds c x.

(** Evaluating the constraints reads only existing variables. *)
Definition cs_in_range (n : nat) (cs : seq (r1cs_constraint F)) : bool := all (constraint_in_range n) cs.

(** [x'] differs from [x] at most in the variables of [m]. *)
Definition changes_only (m : seq nat) (x x' : seq F) : Prop :=
  size x' = size x /\ forall v, v \notin m -> xval x' v = xval x v.

(** A linear combination object, as the API builds them: a variable, or the
    result of [assign], which gives each assigned combination its own slot for
    its value.  [slot i] is the combination that owns slot [i]; [n] and [m] are
    the numbers of variables and of slots. *)
Definition lc_proper (slot : nat -> linear_combination F) (n m : nat) (l : pb_linear_combination F) : Prop :=
  if lc_is_variable l then (lc_index l <= n)%N /\ lc_terms l = [:: (lc_index l, 1)]
  else [/\ (lc_index l < m)%N, lc_terms l = slot (lc_index l) & in_range n (lc_terms l)].

(** The value of a linear combination object. *)
Definition lval (x : seq F) (l : pb_linear_combination F) : F := formal_sum (lc_terms l) x.

(** [l] does not involve the variables of [m]. *)
Definition avoids (m : seq nat) (l : seq (nat * F)) : bool := all (fun t => t.1 \notin m) l.

(** A protoboard whose bookkeeping is consistent. *)
Definition pb_wf (pb : protoboard F) : Prop :=
  [/\ pb_constant_term pb = 1, pb_next_free_var pb = (size (pb_values pb)).+1,
      pb_next_free_lc pb = size (pb_lc_values pb) &
      num_variables (pb_cs pb) = size (pb_values pb)].

(** The variables allocated between [pb] and [pb']. *)
Definition fresh_vars (pb pb' : protoboard F) : seq nat :=
  iota (size (pb_values pb)).+1 (size (pb_values pb') - size (pb_values pb)).

(** What a gadget's constructor does to the protoboard: it may allocate. *)
Definition allocates (pb pb' : protoboard F) : Prop :=
  [/\ pb_wf pb', exists zs, pb_values pb' = pb_values pb ++ zs,
      exists zs, pb_lc_values pb' = pb_lc_values pb ++ zs &
      constraints (pb_cs pb') = constraints (pb_cs pb) /\ pb_num_inputs pb' = pb_num_inputs pb].

(** What witness generation does to it: it changes the values of the variables
    in [m] (and stored values of linear combinations). *)
Definition assigns (m : seq nat) (pb pb' : protoboard F) : Prop :=
  [/\ pb_cs pb' = pb_cs pb, pb_wf pb', size (pb_lc_values pb') = size (pb_lc_values pb) &
      changes_only m (pb_values pb) (pb_values pb')].

(** [v] is a variable of [pb] (not the constant). *)
Definition is_var (pb : protoboard F) (v : nat) : bool := (0 < v <= size (pb_values pb))%N.

(** [pb1] is some later state of [pb]: it has its variables and slots. *)
Definition later (pb pb1 : protoboard F) : Prop :=
  [/\ pb_wf pb1, (size (pb_values pb) <= size (pb_values pb1))%N &
      (size (pb_lc_values pb) <= size (pb_lc_values pb1))%N].

End Spec.

(** The number with little-endian binary digits [bs]. *)
Fixpoint bits_nat (bs : seq bool) : nat := if bs is b :: bs' then (b + 2 * bits_nat bs')%N else 0%N.

(** The value of a little-endian vector of field elements, and what it means for
    a field element to be a bit. *)
Section Bits.
Variable F : fieldType.
Definition pack (vs : seq F) : F := foldr (fun v s => v + 2%:R * s) 0 vs.
Definition isbit (a : F) : bool := (a == 0) || (a == 1).
Definition bit_of (a : F) : bool := a == 1.
End Bits.
