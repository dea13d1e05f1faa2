(** C05 and C49: values survive being written to a stream and read back.

    Vocabulary (SerializationSpec.v): [reads_back c] says that whatever follows in the stream,
    reading with [c] what [c] wrote yields the value written and leaves exactly what follows.
    Of the formats of field and group elements, which libsnark does not define, only
    [reads_back_line binary] is assumed: the same, in text mode only if white space follows.
    [binary] is the compile-time choice between text and binary output. *)
From mathcomp Require Import all_ssreflect all_algebra zify.
From Verif Require Import Outcome Lincomb R1CS Circuits Vectors Pairing.
From Verif Require Import R1csPpzksnark R1csGgPpzksnark R1csSePpzksnark UscsPpzksnark CircuitPpzksnark.
From Verif Require Import Serialization SerializationSpec SerializationFacts.
Set Implicit Arguments.
Unset Strict Implicit.
Unset Printing Implicit Defensive.
Import GRing.Theory.

(** ** Element formats for the examples *)
(** Decimal text, as libff writes field elements in text mode *)
Definition text13 : codec 'F_13 :=
  Codec (fun x : 'F_13 => put_size x) (fun s => let! r := get_size s in Ok ((r.1%:R)%R, r.2)).
Lemma text13_line : reads_back_line false text13.
Proof.
move=> t rest h; cbn [get put text13]; rewrite get_size_put; last first.
  by case: rest h => //= c r; rewrite /isspace /isdigit; lia.
by cbn [obind fst snd]; rewrite natr_Zp.
Qed.
(** One byte *)
Definition byte13 : codec 'F_13 :=
  Codec (fun x : 'F_13 => [:: nat_of_ord x]) (fun s => let! r := read_char s in Ok ((r.1%:R)%R, r.2)).
Lemma byte13_any : reads_back byte13.
Proof. by move=> t rest; cbn [get put byte13 cat read_char obind fst snd]; rewrite natr_Zp. Qed.

(** ** C05: constraint systems and circuits *)
Section Relations.
Variables (binary : bool) (F : fieldType) (cF : codec F).
Hypothesis hF : reads_back_line binary cF.
Theorem C05_linear_combination : reads_back (lc_codec binary cF).
Proof. exact: lc_rb. Qed.
Theorem C05_r1cs_constraint : reads_back (r1cs_constraint_codec binary cF).
Proof. exact: r1cs_constraint_rb. Qed.
Theorem C05_r1cs : reads_back (r1cs_codec binary cF).
Proof. exact: r1cs_rb. Qed.
Theorem C05_uscs : reads_back (uscs_codec binary cF).
Proof. exact: uscs_rb. Qed.
Theorem C05_bacs : reads_back (bacs_codec binary cF).
Proof. exact: bacs_rb. Qed.
End Relations.
Theorem C05_tbcs (binary : bool) : reads_back (tbcs_codec binary).
Proof. exact: tbcs_rb. Qed.
(** Several values in one stream; with the theorems above, for instance several R1CS. *)
Theorem C05_several (T : Type) (c : codec T) (ts : seq T) (rest : stream) :
  reads_back c -> get_all c (size ts) (flatten [seq put c t | t <- ts] ++ rest) = Ok (ts, rest).
Proof. exact: get_all_put. Qed.
(** So no two different values are written in the same way, even as the beginning of a longer stream. *)
Theorem C05_unambiguous (T : Type) (c : codec T) (t1 t2 : T) (rest1 rest2 : stream) :
  reads_back c -> put c t1 ++ rest1 = put c t2 ++ rest2 -> t1 = t2 /\ rest1 = rest2.
Proof. by move=> h e; have := h t1 rest1; rewrite e h => -[-> ->]. Qed.
Print Assumptions C05_linear_combination.
Print Assumptions C05_r1cs_constraint.
Print Assumptions C05_r1cs.
Print Assumptions C05_uscs.
Print Assumptions C05_bacs.
Print Assumptions C05_tbcs.
Print Assumptions C05_several.
Print Assumptions C05_unambiguous.

(** x1 * 12 = x2 - 3 in text mode: "1\n1\n1\n" and the three linear combinations; a second system and
    other data follow. *)
Definition cs13 : r1cs [fieldType of 'F_13] :=
  R1cs 1 1 [:: R1csConstraint [:: (1, 1%R)] [:: (0, (12%:R)%R)] [:: (0, (- 3%:R)%R); (2, 1%R)]].
Example C05_r1cs_text :
  put (r1cs_codec false text13) cs13 =
    [:: 49; 10; 49; 10; 49; 10] ++ [:: 49; 10; 49; 10; 49; 10] ++ [:: 49; 10; 48; 10; 49; 50; 10] ++
    [:: 50; 10; 48; 10; 49; 48; 10; 50; 10; 49; 10].
Proof. by apply/eqP; vm_compute. Qed.
Example C05_r1cs_reads :
  get (r1cs_codec false text13) (put (r1cs_codec false text13) cs13 ++ [:: 55; 55]) = Ok (cs13, [:: 55; 55]).
Proof. exact: (C05_r1cs text13_line). Qed.
Example C05_r1cs_binary :
  get (r1cs_codec true byte13) (put (r1cs_codec true byte13) cs13 ++ [:: 55; 55]) = Ok (cs13, [:: 55; 55]).
Proof. exact: (C05_r1cs (any_line byte13_any)). Qed.
Example C05_two_r1cs rest :
  get_all (r1cs_codec false text13) 2 (flatten [seq put (r1cs_codec false text13) c | c <- [:: cs13; R1cs 0 0 [::]]] ++ rest)
    = Ok ([:: cs13; R1cs 0 0 [::]], rest).
Proof. exact: (C05_several [:: cs13; R1cs 0 0 [::]] rest (C05_r1cs text13_line)). Qed.
(** The reader does reject other streams. *)
Example C05_rejects : get (lc_codec false text13) [:: 49; 10; 49; 32; 49; 10] = AssertFail.
Proof. by vm_compute. Qed.

(** ** C49: vectors, commitments, keys and proofs *)
Section Vectors.
Variables (binary : bool) (F : fieldType).
Theorem C49_vector (T : Type) (c : codec T) : reads_back_line binary c -> reads_back (vector_codec binary c).
Proof. exact: vector_rb. Qed.
Theorem C49_sparse_vector (T : lmodType F) (c : codec T) : reads_back_line binary c -> reads_back (sparse_codec binary c).
Proof. exact: sparse_rb. Qed.
Theorem C49_accumulation_vector (T : lmodType F) (c : codec T) :
  reads_back_line binary c -> reads_back (accumulation_codec binary c).
Proof. exact: accumulation_rb. Qed.
(** A knowledge commitment ends with its second element, so it needs what that needs. *)
Theorem C49_knowledge_commitment (T1 T2 : Type) (c1 : codec T1) (c2 : codec T2) :
  reads_back_line binary c1 -> reads_back_line binary c2 -> reads_back_line binary (kc_codec binary c1 c2).
Proof. exact: kc_line. Qed.
End Vectors.
Theorem C49_set_membership_proof : reads_back set_membership_codec.
Proof. exact: set_membership_rb. Qed.
Theorem C49_tinyram_parameters : reads_back tinyram_params_codec.
Proof. exact: tinyram_params_rb. Qed.

Section Keys.
Variables (binary : bool) (F : fieldType) (P : pairing F).
Variables (cF : codec F) (c1 : codec (G1 P)) (c2 : codec (G2 P)) (cT : codec (GT P)).
(** Precomputed elements *)
Variables (p1 : codec (G1 P)) (p2 : codec (G2 P)).
Hypotheses (hF : reads_back_line binary cF) (h1 : reads_back_line binary c1) (h2 : reads_back_line binary c2).
Hypotheses (hT : reads_back_line binary cT) (hp1 : reads_back_line binary p1) (hp2 : reads_back_line binary p2).
Theorem C49_r1cs_ppzksnark :
  [/\ reads_back (r1cs_pk_codec binary cF c1 c2), reads_back (r1cs_vk_codec binary c1 c2),
      reads_back (r1cs_pvk_codec binary c1 p1 p2) & reads_back (r1cs_proof_codec binary c1 c2)].
Proof. exact: (And4 (r1cs_pk_rb hF h1 h2) (r1cs_vk_rb h1 h2) (r1cs_pvk_rb h1 hp1 hp2) (r1cs_proof_rb h1 h2)). Qed.
Theorem C49_r1cs_gg_ppzksnark :
  [/\ reads_back (gg_pk_codec binary cF c1 c2), reads_back (gg_vk_codec binary c1 c2 cT),
      reads_back (gg_pvk_codec binary c1 cT p2) & reads_back (gg_proof_codec binary c1 c2)].
Proof. exact: (And4 (gg_pk_rb hF h1 h2) (gg_vk_rb h1 h2 hT) (gg_pvk_rb h1 hT hp2) (gg_proof_rb h1 h2)). Qed.
(** The proving key of the simulation-extractable scheme: see below. *)
Theorem C49_r1cs_se_ppzksnark :
  [/\ reads_back (se_vk_codec binary c1 c2), reads_back (se_pvk_codec binary c1 c2 cT p1 p2)
    & reads_back (se_proof_codec binary c1 c2)].
Proof. exact: (And3 (se_vk_rb h1 h2) (se_pvk_rb h1 h2 hT hp1 hp2) (se_proof_rb h1 h2)). Qed.
Theorem C49_uscs_ppzksnark :
  [/\ reads_back (uscs_pk_codec binary cF c1 c2), reads_back (uscs_vk_codec binary c1 c2),
      reads_back (uscs_pvk_codec binary c1 cT p1 p2) & reads_back (uscs_proof_codec binary c1 c2)].
Proof. exact: (And4 (uscs_pk_rb hF h1 h2) (uscs_vk_rb h1 h2) (uscs_pvk_rb h1 hT hp1 hp2) (uscs_proof_rb h1 h2)). Qed.
Theorem C49_circuit_proving_keys :
  reads_back (bacs_pk_codec binary cF c1 c2) /\ reads_back (tbcs_pk_codec binary cF c1 c2).
Proof. exact: (conj (bacs_pk_rb hF h1 h2) (tbcs_pk_rb hF h1 h2)). Qed.
Theorem C49_ram_keys : reads_back (ram_pk_codec binary cF c1 c2) /\ reads_back (ram_vk_codec binary c1 c2).
Proof. exact: (conj (ram_pk_rb hF h1 h2) (ram_vk_rb h1 h2)). Qed.
(** The proving key of the simulation-extractable scheme writes four group elements without anything
    between them; it reads back if group elements can be read whatever follows. *)
Theorem C49_se_proving_key : reads_back c1 -> reads_back c2 -> reads_back (se_pk_codec binary cF c1 c2).
Proof. exact: (se_pk_rb hF h1 h2). Qed.
End Keys.
(** With elements that need white space behind them, it does not: here two different keys are written
    as the same text. *)
Definition toy13 := toy_pairing [fieldType of 'F_13].
Definition se_pk13 (a b : 'F_13) : se_proving_key toy13 :=
  @SeProvingKey _ toy13 [::] [::] [::] [::] a b 1%R 1%R [::] (R1cs 0 0 [::]).
Theorem C49_se_proving_key_text_refuted :
  [/\ reads_back_line false text13, se_pk13 1%R 11%:R%R <> se_pk13 11%:R%R 1%R
    & put (se_pk_codec (P := toy13) false text13 text13 text13) (se_pk13 1%R 11%:R%R) =
      put (se_pk_codec (P := toy13) false text13 text13 text13) (se_pk13 11%:R%R 1%R)].
Proof.
split; first exact: text13_line.
- by move=> h; have := congr1 (fun k : se_proving_key toy13 => nat_of_ord (sk_G_gamma_Z k : 'F_13)) h; vm_compute.
- by apply/eqP; vm_compute.
Qed.
Print Assumptions C49_vector.
Print Assumptions C49_sparse_vector.
Print Assumptions C49_accumulation_vector.
Print Assumptions C49_knowledge_commitment.
Print Assumptions C49_set_membership_proof.
Print Assumptions C49_tinyram_parameters.
Print Assumptions C49_r1cs_ppzksnark.
Print Assumptions C49_r1cs_gg_ppzksnark.
Print Assumptions C49_r1cs_se_ppzksnark.
Print Assumptions C49_uscs_ppzksnark.
Print Assumptions C49_circuit_proving_keys.
Print Assumptions C49_ram_keys.
Print Assumptions C49_se_proving_key.
Print Assumptions C49_se_proving_key_text_refuted.

(** A proof of Groth16's scheme with three elements, and a verification key with two inputs, in text mode *)
Example C49_gg_proof_text (p : gg_proof toy13) rest :
  get (gg_proof_codec (P := toy13) false text13 text13) (put (gg_proof_codec (P := toy13) false text13 text13) p ++ rest) = Ok (p, rest).
Proof. have [_ _ _ h] := C49_r1cs_gg_ppzksnark (P := toy13) text13_line text13_line text13_line text13_line text13_line; exact: h. Qed.
Definition gg_vk13 : gg_verification_key toy13 :=
  @GgVerificationKey _ toy13 (3%:R : 'F_13)%R (4%:R : 'F_13)%R (12%:R : 'F_13)%R
    (@AccumulationVector _ (G1 toy13) (1%R : 'F_13) (@SparseVector (G1 toy13) [:: 0; 1] [:: (7%:R : 'F_13)%R; (11%:R : 'F_13)%R] 2)).
Example C49_gg_vk_text :
  put (gg_vk_codec (P := toy13) false text13 text13 text13) gg_vk13 =
  [:: 51; 10; 52; 10; 49; 50; 10] ++ [:: 49; 10] ++ [:: 50; 10; 50; 10; 48; 10; 49; 10; 50; 10; 55; 10; 49; 49; 10] ++ [:: 10; 10].
Proof. by apply/eqP; vm_compute. Qed.
Example C49_gg_vk_reads rest :
  get (gg_vk_codec (P := toy13) false text13 text13 text13)
    (put (gg_vk_codec (P := toy13) false text13 text13 text13) gg_vk13 ++ rest) = Ok (gg_vk13, rest).
Proof. have [_ h _ _] := C49_r1cs_gg_ppzksnark (P := toy13) text13_line text13_line text13_line text13_line text13_line; exact: h. Qed.
Example C49_se_pk_binary a b rest :
  get (se_pk_codec (P := toy13) true byte13 byte13 byte13)
    (put (se_pk_codec (P := toy13) true byte13 byte13 byte13) (se_pk13 a b) ++ rest) = Ok (se_pk13 a b, rest).
Proof.
have l : reads_back_line true byte13 by exact: any_line byte13_any.
exact: (C49_se_proving_key (P := toy13) l l l byte13_any byte13_any).
Qed.
