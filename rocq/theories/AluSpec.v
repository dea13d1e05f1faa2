(** Vocabulary for the TinyRAM ALU.  Models nothing of /repo. *)
From mathcomp Require Import all_ssreflect all_algebra.
From Verif Require Import LincombSpec Protoboard GadgetSpec BasicGadgets.
Set Implicit Arguments.
Unset Strict Implicit.
Unset Printing Implicit Defensive.
Local Open Scope ring_scope.

Section Words.
Variable F : fieldType.
(** The variables [vs] hold the bits [bs]. *)
Definition bits_are (x : seq F) (vs : seq nat) (bs : seq bool) : Prop :=
  map (xval x) vs = [seq (nat_of_bool b)%:R | b <- bs].
(** The word variable [d] holds the little-endian word [bs], bitwise and packed. *)
Definition is_word (x : seq F) (d : dual_variable) (bs : seq bool) : Prop :=
  bits_are x (dv_bits d) bs /\ xval x (dv_packed d) = (bits_nat bs)%:R.
(** [d] consists of variables of [pb], and of none of the variables [outs]. *)
Definition operand (pb : protoboard F) (outs : seq nat) (d : dual_variable) : bool :=
  all (fun v => is_var pb v && (v \notin outs)) (dv_packed d :: dv_bits d).
End Words.

(** The number a word means in two's complement. *)
Definition signed (bs : seq bool) : int := (bits_nat bs)%:Z - (if last false bs then (2 ^ size bs)%:Z else 0).
(** Bitwise operations on words of the same size. *)
Definition bitwise (op : bool -> bool -> bool) (bs cs : seq bool) : seq bool := [seq op p.1 p.2 | p <- zip bs cs].
