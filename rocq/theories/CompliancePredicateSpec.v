(** The documented order of the wires of a compliance predicate (compliance_predicate.hpp:83-92). *)
From mathcomp Require Import all_ssreflect all_algebra.
From Verif Require Import CompliancePredicate.
Set Implicit Arguments.
Unset Strict Implicit.
Unset Printing Implicit Defensive.
Local Open Scope ring_scope.

Section Spec.
Variable F : fieldType.
(** A message is its type and its payload. *)
Definition message_wires (m : pcd_message F) : seq F := (msg_type m)%:R :: msg_payload m.
(** The incoming messages, padded with zeros up to the maximal arity. *)
Definition incoming_wires (lengths : seq nat) (incoming : seq (pcd_message F)) : seq F :=
  flatten [seq message_wires m | m <- incoming] ++ flatten [seq nseq l.+1 0 | l <- drop (size incoming) lengths].
(** Outgoing message, arity, incoming messages, local data, witness *)
Definition cp_wires (lengths : seq nat) (outgoing : pcd_message F) (incoming : seq (pcd_message F)) (local_ witness_ : seq F) : seq F :=
  message_wires outgoing ++ (size incoming)%:R :: incoming_wires lengths incoming ++ local_ ++ witness_.
(** At most as many messages as there are lengths, with payloads of these lengths. *)
Definition messages_fit (lengths : seq nat) (incoming : seq (pcd_message F)) : bool :=
  [seq size (msg_payload m) | m <- incoming] == take (size incoming) lengths.
End Spec.
