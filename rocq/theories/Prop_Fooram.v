(** C54: the CPU checker of FOORAM forces one step of the machine.

    [bits_are x vs bs] says that the assignment [x] gives the variables [vs] the bits [bs],
    least significant first, and [bits_nat bs] is their number.  The theorems range over all
    assignments [x] that satisfy the gadget's constraints. *)
From mathcomp Require Import all_ssreflect all_algebra zify.
From Verif Require Import Outcome Lincomb LincombSpec LincombFacts R1CS R1CSSpec R1CSFacts Fieldtac.
From Verif Require Import Protoboard GadgetSpec GadgetLogic BasicGadgets BasicGadgetsFacts BasicGadgetsMore.
From Verif Require Import BasicGadgetsCopy GadgetNew GadgetSeq Benes Alu AluSpec AluFacts Fooram FooramFacts FooramWitness Prop_Alu.
Set Implicit Arguments.
Unset Strict Implicit.
Unset Printing Implicit Defensive.
Local Open Scope ring_scope.
Import GRing.Theory.

(** * Specification: one step of FOORAM with words of [w] bits
    (the comment of fooram_cpu_checker.hpp:8-13).  The instruction is the word [v] at the
    program counter [pc]; [load a] is the memory's word at [a]. *)
Section Spec.
Variable w : nat.
Let wrap (n : nat) : nat := (n %% 2 ^ w)%N.
Record foo_step := FooStep {
  foo_next_pc : nat; foo_access : nat; foo_written : nat; foo_reg : nat }.
(** [v] odd: [reg <- [2 v + (pc + 1)]]; [v] even: [[pc + v] <- reg + pc].  A load leaves the
    accessed word as it is, and a store leaves the register. *)
Definition foo (pc v reg : nat) (load : nat -> nat) : foo_step :=
  if odd v then let a := wrap (2 * v + wrap (pc + 1)) in FooStep (wrap (pc + 1)) a (load a) (load a)
  else FooStep (wrap (pc + 1)) (wrap (pc + v)) (wrap (reg + pc)) reg.
End Spec.

Section Props.
Variable F : fieldType.
Variable R : bigint_repr F.
Implicit Types (x : seq F) (pb : protoboard F).

(** The bar gadget: [Z = a X + b Y] modulo [2^w], for two words of [w] bits. *)
Theorem C54_bar pb X (a : nat) Y (b : nat) Z g pb' x bs cs :
  pb_wf pb -> bar_new pb (plcs_of_vars F X) a%:R (plcs_of_vars F Y) b%:R Z = Ok (g, pb') ->
  (2 ^ (3 * size X) <= fp_order R)%N -> (a + b <= 2 ^ (2 * size X))%N ->
  bits_are x X bs -> bits_are x Y cs -> holds (bar_constraints g) x ->
  xval x Z = ((a * bits_nat bs + b * bits_nat cs) %% 2 ^ size X)%:R.
Proof.
move=> hw hg hp hab hx hy hh; have e : size (plcs_of_vars F X) = size X by rewrite size_map.
by have := bar_sound (R := R) hw hg _ _ (lbits_vars hx) (lbits_vars hy) hh; rewrite e; apply.
Qed.

(** Its witness generation, on any two words, succeeds, changes only the result [Z] and the gadget's
    own variables, and satisfies the constraints. *)
Theorem C54_bar_complete pb0 pb1 pb X (a : nat) Y (b : nat) (Z : nat) g bs cs :
  pb_wf pb0 -> bar_new pb0 (plcs_of_vars F X) a%:R (plcs_of_vars F Y) b%:R Z = Ok (g, pb1) -> later pb1 pb ->
  (2 ^ (3 * size X) <= fp_order R)%N -> (a + b <= 2 ^ (2 * size X))%N ->
  is_var pb0 Z -> all (fun v => is_var pb0 v && (v != Z)) X -> all (fun v => is_var pb0 v && (v != Z)) Y ->
  bits_are (pb_values pb) X bs -> bits_are (pb_values pb) Y cs ->
  exists pb', [/\ bar_witness R g pb = Ok pb', assigns (Z :: fresh_vars pb0 pb1) pb pb' &
    holds (bar_constraints g) (pb_values pb')].
Proof. exact: bar_ok. Qed.

(** The checker: when its inputs and outputs are words and the word found at the accessed
    address is the memory's, the outputs are those of one step, and the step is accepted. *)
Theorem C54_step pb io g pb' x w PC V REG OLD PC' ADDR NEW REG' (load : nat -> nat) :
  pb_wf pb -> foo_cpu_new pb io = Ok (g, pb') -> (2 ^ (3 * w) <= fp_order R)%N ->
  [/\ size PC = w, size V = w, size REG = w & size OLD = w] ->
  [/\ size PC' = w, size ADDR = w, size NEW = w & size REG' = w] ->
  bits_are x (fi_pc_addr io) PC -> bits_are x (fi_pc_val io) V ->
  bits_are x (fi_state io) REG -> bits_are x (fi_ls_prev io) OLD ->
  bits_are x (fi_next_pc io) PC' -> bits_are x (fi_ls_addr io) ADDR ->
  bits_are x (fi_ls_next io) NEW -> bits_are x (fi_next_state io) REG' ->
  holds (foo_cpu_constraints io g) x ->
  bits_nat OLD = load (bits_nat ADDR) ->
  FooStep (bits_nat PC') (bits_nat ADDR) (bits_nat NEW) (bits_nat REG') =
    foo w (bits_nat PC) (bits_nat V) (bits_nat REG) load /\ xval x (fi_accepted io) = 1.
Proof.
move=> hw hg hp hs1 hs2 h1 h2 h3 h4 h5 h6 h7 h8 hh hl.
have [e1 e2 e3 e4 e5] := foo_sound (R := R) hw hg hp hs1 hs2 h1 h2 h3 h4 h5 h6 h7 h8 hh; split=> //.
rewrite /foo; case: (odd (bits_nat V)) e2 e3 e4 => e2 e3 e4; last by rewrite e1 e2 e3 e4.
by rewrite e1 e3 e4 hl e2.
Qed.
End Props.

(** Words of one bit over the field of order 17: a load from 0 at program counter 1,
    and a store of 0 + 1 to 1 + 0. *)
Local Open Scope nat_scope.
Definition foo_io17 : foo_io := FooIo [:: 1] [:: 2] [:: 3] [:: 4] [:: 5] [:: 6] [:: 7] [:: 8] 9.
Definition foo17 (pc v reg old : nat) : protoboard F17 :=
  upd (allocate_array (pb_new F17) 9).2 [seq n%:R%R | n <- [:: pc; v; reg; 0; old; 0; 0; 0; 0]] [::].
Example C54_ex :
  let run pc v reg old := alu_runs (foo_cpu_new (foo17 pc v reg old) foo_io17)
    (fun g pb => if foo_witness_address repr17 foo_io17 g pb is Ok pb then foo_witness_other repr17 foo_io17 g pb else UB)
    (foo_cpu_constraints foo_io17) in
  [&& run 1 1 0 1 [:: (8, 0); (4, 0); (6, 1); (7, 1); (9, 1)], run 1 0 0 0 [:: (8, 0); (4, 1); (6, 1); (7, 0); (9, 1)] &
      (2 ^ (3 * 1) <= fp_order repr17)].
Proof. by vm_compute. Qed.
(** The step function with words of four bits. *)
Example C54_ex_step : (foo 4 9 13 2 (fun a => a + 1) = FooStep 10 4 5 5) /\ (foo 4 9 6 2 id = FooStep 10 15 11 2).
Proof. by vm_compute. Qed.

Print Assumptions C54_bar.
Print Assumptions C54_bar_complete.
Print Assumptions C54_step.
