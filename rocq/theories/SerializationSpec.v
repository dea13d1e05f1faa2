(** What it means that values survive being written to and read from a stream. *)
From mathcomp Require Import all_ssreflect.
From Verif Require Import Outcome Serialization.
Set Implicit Arguments.
Unset Strict Implicit.
Unset Printing Implicit Defensive.

Definition starts_digit (s : stream) : bool := if s is c :: _ then isdigit c else false.
Definition starts_blank (s : stream) : bool := if s is c :: _ then isspace c else false.

(** Whatever follows in the stream, reading yields the value written and stops right behind it. *)
Definition reads_back (T : Type) (c : codec T) : Prop := forall t rest, get c (put c t ++ rest) = Ok (t, rest).
(** The same, but in text mode only if white space follows: what is assumed of field and group elements. *)
Definition reads_back_line (binary : bool) (T : Type) (c : codec T) : Prop :=
  forall t rest, binary || starts_blank rest -> get c (put c t ++ rest) = Ok (t, rest).

(** Reading several values one after the other *)
Fixpoint get_all (T : Type) (c : codec T) (n : nat) (s : stream) : outcome (seq T * stream) :=
  if n is n'.+1 then
    match get c s with
    | Ok (t, s) => match get_all c n' s with Ok (ts, s) => Ok (t :: ts, s) | AssertFail => AssertFail | UB => UB end
    | AssertFail => AssertFail | UB => UB
    end
  else Ok ([::], s).
