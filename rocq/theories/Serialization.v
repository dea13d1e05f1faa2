(** Model of the stream operators of libsnark.

    A stream is a list of characters (their codes); reading consumes a prefix.  A reader that fails
    on a character it does not expect is not followed further: [AssertFail] for the assertions in
    libff's [consume_*] functions, [UB] for a stream whose failure bit is set.  [size_t] values are
    natural numbers: what does not fit into 64 bits cannot be written.

    Not in /repo, and taken by contract (libff/common/serialization.{hpp,tcc}): [consume_newline],
    [consume_OUTPUT_NEWLINE], [consume_OUTPUT_SEPARATOR], [output_bool], [input_bool],
    [output_bool_vector], [input_bool_vector] and the operators for [std::vector], transcribed below
    from their documentation; [binary] is the compile-time option BINARY_OUTPUT, under which
    OUTPUT_NEWLINE and OUTPUT_SEPARATOR are empty.  The operators for field and group elements are a
    parameter ([codec]). *)
From Coq Require Import DecimalNat.
From mathcomp Require Import all_ssreflect all_algebra.
From Verif Require Import Outcome Lincomb R1CS Circuits Vectors Pairing.
From Verif Require Import R1csPpzksnark R1csGgPpzksnark R1csSePpzksnark UscsPpzksnark CircuitPpzksnark.
Set Implicit Arguments.
Unset Strict Implicit.
Unset Printing Implicit Defensive.

Notation stream := (seq nat).
Definition newline : nat := 10.
Definition blank : nat := 32.
Definition isspace (c : nat) : bool := (c == 32) || (9 <= c <= 13).
Definition isdigit (c : nat) : bool := 48 <= c <= 57.

(** The operators [<<] and [>>] of a type. *)
Record codec (T : Type) := Codec { put : T -> stream; get : stream -> outcome (T * stream) }.

(** ** The standard library and libff *)
(** [out << n] and [in >> n] for a [size_t]: decimal digits; reading skips white space. *)
Fixpoint uint_chars (u : Decimal.uint) : stream :=
  match u with
  | Decimal.Nil => [::]
  | Decimal.D0 u => 48 :: uint_chars u | Decimal.D1 u => 49 :: uint_chars u
  | Decimal.D2 u => 50 :: uint_chars u | Decimal.D3 u => 51 :: uint_chars u
  | Decimal.D4 u => 52 :: uint_chars u | Decimal.D5 u => 53 :: uint_chars u
  | Decimal.D6 u => 54 :: uint_chars u | Decimal.D7 u => 55 :: uint_chars u
  | Decimal.D8 u => 56 :: uint_chars u | Decimal.D9 u => 57 :: uint_chars u
  end.
Definition put_size (n : nat) : stream := uint_chars (Nat.to_uint n).
Fixpoint skip_space (s : stream) : stream := if s is c :: s' then if isspace c then skip_space s' else s else [::].
(** The longest prefix of digits. *)
Fixpoint digits (s : stream) : stream * stream :=
  if s is c :: s' then if isdigit c then let: (d, r) := digits s' in (c :: d, r) else ([::], s) else ([::], [::]).
Definition value (d : stream) : nat := foldl (fun n c => 10 * n + (c - 48)) 0 d.
Definition get_size (s : stream) : outcome (nat * stream) :=
  let: (d, r) := digits (skip_space s) in if d is [::] then UB else Ok (value d, r).
(** [in.read(&c, 1)] *)
Definition read_char (s : stream) : outcome (nat * stream) := if s is c :: s' then Ok (c, s') else UB.
Definition consume (c : nat) (s : stream) : outcome stream :=
  let! r := read_char s in assert! (r.1 == c) in Ok r.2.
Definition consume_newline : stream -> outcome stream := consume newline.
Definition put_bool (b : bool) : stream := put_size b ++ [:: newline].
Definition get_bool (s : stream) : outcome (bool * stream) :=
  let! r := get_size s in let! s := consume_newline r.2 in
  assert! ((r.1 == 0) || (r.1 == 1)) in Ok (r.1 == 1, s).

(** A loop that reads [n] values. *)
Fixpoint get_n (T : Type) (g : stream -> outcome (T * stream)) (n : nat) (s : stream) : outcome (seq T * stream) :=
  if n is n'.+1 then let! r := g s in let! rs := get_n g n' r.2 in Ok (r.1 :: rs.1, rs.2) else Ok ([::], s).

Section Mode.
Variable binary : bool.
Definition output_newline : stream := if binary then [::] else [:: newline].
Definition output_separator : stream := if binary then [::] else [:: blank].
Definition consume_output_newline (s : stream) : outcome stream := if binary then Ok s else consume newline s.
Definition consume_output_separator (s : stream) : outcome stream := if binary then Ok s else consume blank s.

(** libff's operators for [std::vector<T>] *)
Definition vector_codec (T : Type) (c : codec T) : codec (seq T) :=
  Codec (fun v => put_size (size v) ++ newline :: flatten [seq put c t ++ output_newline | t <- v])
    (fun s => let! n := get_size s in let! s := consume_newline n.2 in
       get_n (fun s => let! t := get c s in let! s := consume_output_newline t.2 in Ok (t.1, s)) n.1 s).
(** libff's functions for [std::vector<bool>] *)
Definition put_bools (v : seq bool) : stream := put_size (size v) ++ newline :: flatten [seq put_bool b | b <- v].
Definition get_bools (s : stream) : outcome (seq bool * stream) :=
  let! n := get_size s in let! s := consume_newline n.2 in get_n get_bool n.1 s.

(** ** Linear combinations and constraint systems *)
Section Relations.
Variable F : fieldType.
Variable cF : codec F.
(** relations/variable.tcc:410-446, the operators of [linear_combination] *)
Definition lc_codec : codec (linear_combination F) :=
  Codec (fun lc => put_size (size lc) ++ newline ::
           flatten [seq put_size t.1 ++ newline :: put cF t.2 ++ output_newline | t <- lc])
    (fun s => let! n := get_size s in let! s := consume_newline n.2 in
       get_n (fun s => let! i := get_size s in let! s := consume_newline i.2 in
                let! c := get cF s in let! s := consume_output_newline c.2 in Ok ((i.1, c.1), s)) n.1 s).
(** r1cs.tcc:65-83 *)
Definition r1cs_constraint_codec : codec (r1cs_constraint F) :=
  Codec (fun c => put lc_codec (c_a c) ++ put lc_codec (c_b c) ++ put lc_codec (c_c c))
    (fun s => let! a := get lc_codec s in let! b := get lc_codec a.2 in let! c := get lc_codec b.2 in
       Ok (R1csConstraint a.1 b.1 c.1, c.2)).
(** r1cs.tcc:241-280; the numbers are separated by newlines that reading a number skips. *)
Definition r1cs_codec : codec (r1cs F) :=
  Codec (fun cs => put_size (primary_input_size cs) ++ newline :: put_size (auxiliary_input_size cs) ++ newline ::
           put_size (size (constraints cs)) ++ newline :: flatten [seq put r1cs_constraint_codec c | c <- constraints cs])
    (fun s => let! p := get_size s in let! a := get_size p.2 in let! n := get_size a.2 in let! b := read_char n.2 in
       let! cs := get_n (get r1cs_constraint_codec) n.1 b.2 in Ok (R1cs p.1 a.1 cs.1, cs.2)).
(** uscs.tcc:128-167 *)
Definition uscs_codec : codec (uscs F) :=
  Codec (fun cs => put_size (u_primary_input_size cs) ++ newline :: put_size (u_auxiliary_input_size cs) ++ newline ::
           put_size (size (u_constraints cs)) ++ newline :: flatten [seq put lc_codec c | c <- u_constraints cs])
    (fun s => let! p := get_size s in let! a := get_size p.2 in let! n := get_size a.2 in let! b := read_char n.2 in
       let! cs := get_n (get lc_codec) n.1 b.2 in Ok (Uscs p.1 a.1 cs.1, cs.2)).
(** bacs.tcc:59-85 *)
Definition bacs_gate_codec : codec (bacs_gate F) :=
  Codec (fun g => put_size (bg_is_circuit_output g) ++ newline :: put lc_codec (bg_lhs g) ++ output_newline ++
           put lc_codec (bg_rhs g) ++ output_newline ++ put_size (bg_output g) ++ [:: newline])
    (fun s => let! tmp := get_size s in let! s := consume_newline tmp.2 in
       let! l := get lc_codec s in let! s := consume_output_newline l.2 in
       let! r := get lc_codec s in let! s := consume_output_newline r.2 in
       let! o := get_size s in let! s := consume_newline o.2 in
       Ok (BacsGate l.1 r.1 o.1 (tmp.1 != 0), s)).
(** bacs.tcc:247-268 *)
Definition bacs_codec : codec (bacs_circuit F) :=
  Codec (fun c => put_size (b_primary_input_size c) ++ newline :: put_size (b_auxiliary_input_size c) ++ newline ::
           put (vector_codec bacs_gate_codec) (b_gates c) ++ output_newline)
    (fun s => let! p := get_size s in let! s := consume_newline p.2 in let! a := get_size s in let! s := consume_newline a.2 in
       let! g := get (vector_codec bacs_gate_codec) s in let! s := consume_output_newline g.2 in
       Ok (BacsCircuit p.1 a.1 g.1, s)).
End Relations.

(** tbcs.cpp:133-158 *)
Definition tbcs_gate_codec : codec tbcs_gate :=
  Codec (fun g => put_size (tg_left g) ++ newline :: put_size (tg_right g) ++ newline :: put_size (tg_type g) ++ newline ::
           put_size (tg_output g) ++ newline :: put_bool (tg_is_circuit_output g))
    (fun s => let! l := get_size s in let! s := consume_newline l.2 in let! r := get_size s in let! s := consume_newline r.2 in
       let! t := get_size s in let! s := consume_newline t.2 in let! o := get_size s in let! b := get_bool o.2 in
       Ok (TbcsGate l.1 r.1 t.1 o.1 b.1, b.2)).
(** tbcs.cpp:296-315 *)
Definition tbcs_codec : codec tbcs_circuit :=
  Codec (fun c => put_size (t_primary_input_size c) ++ newline :: put_size (t_auxiliary_input_size c) ++ newline ::
           put (vector_codec tbcs_gate_codec) (t_gates c) ++ output_newline)
    (fun s => let! p := get_size s in let! s := consume_newline p.2 in let! a := get_size s in let! s := consume_newline a.2 in
       let! g := get (vector_codec tbcs_gate_codec) s in let! s := consume_output_newline g.2 in
       Ok (TbcsCircuit p.1 a.1 g.1, s)).

(** ** Vectors and commitments *)
Section Vectors.
Variables (K : fieldType) (T : lmodType K).
Variable c : codec T.
(** common/data_structures/sparse_vector.tcc:271-320 *)
Definition sparse_codec : codec (sparse_vector T) :=
  Codec (fun v => put_size (sv_domain_size v) ++ newline :: put_size (size (sv_indices v)) ++ newline ::
           flatten [seq put_size i ++ [:: newline] | i <- sv_indices v] ++
           put_size (size (sv_values v)) ++ newline :: flatten [seq put c t ++ output_newline | t <- sv_values v])
    (fun s => let! d := get_size s in let! s := consume_newline d.2 in let! n := get_size s in let! s := consume_newline n.2 in
       let! is_ := get_n (fun s => let! i := get_size s in let! s := consume_newline i.2 in Ok (i.1, s)) n.1 s in
       let! n := get_size is_.2 in let! s := consume_newline n.2 in
       let! vs := get_n (fun s => let! t := get c s in let! s := consume_output_newline t.2 in Ok (t.1, s)) n.1 s in
       Ok (SparseVector is_.1 vs.1 d.1, vs.2)).
(** common/data_structures/accumulation_vector.tcc:62-80 *)
Definition accumulation_codec : codec (accumulation_vector T) :=
  Codec (fun v => put c (av_first v) ++ output_newline ++ put sparse_codec (av_rest v) ++ output_newline)
    (fun s => let! f := get c s in let! s := consume_output_newline f.2 in
       let! r := get sparse_codec s in let! s := consume_output_newline r.2 in Ok (AccumulationVector f.1 r.1, s)).
End Vectors.
(** knowledge_commitment/knowledge_commitment.tcc:120-134; a commitment is a pair. *)
Definition kc_codec (T1 T2 : Type) (c1 : codec T1) (c2 : codec T2) : codec (T1 * T2) :=
  Codec (fun k => put c1 k.1 ++ output_separator ++ put c2 k.2)
    (fun s => let! g := get c1 s in let! s := consume_output_separator g.2 in let! h := get c2 s in Ok ((g.1, h.1), h.2)).
(** common/data_structures/set_commitment.cpp:32-59; a proof is an address and a path. *)
Definition set_membership_codec : codec (nat * seq (seq bool)) :=
  Codec (fun p => put_size p.1 ++ newline :: put_size (size p.2) ++ newline :: flatten [seq put_bools v | v <- p.2])
    (fun s => let! a := get_size s in let! s := consume_newline a.2 in let! n := get_size s in let! s := consume_newline n.2 in
       let! p := get_n get_bools n.1 s in Ok ((a.1, p.1), p.2)).
(** relations/ram_computations/rams/tinyram/tinyram_aux.cpp:291-306; the parameters [w] and [k] *)
Definition tinyram_params_codec : codec (nat * nat) :=
  Codec (fun ap => put_size ap.1 ++ newline :: put_size ap.2 ++ [:: newline])
    (fun s => let! w := get_size s in let! s := consume_newline w.2 in let! k := get_size s in let! s := consume_newline k.2 in
       Ok ((w.1, k.1), s)).

(** ** Keys and proofs *)
Section Keys.
Variable F : fieldType.
Variable P : pairing F.
Local Notation G1 := (@G1 F P). Local Notation G2 := (@G2 F P). Local Notation GT := (@GT F P).
(** Elements, and precomputed elements ([libff::G1_precomp], ...). *)
Variables (cF : codec F) (c1 : codec G1) (c2 : codec G2) (cT : codec GT) (p1 : codec G1) (p2 : codec G2).
(** [out << x << OUTPUT_NEWLINE] and reading it back *)
Definition put_line (T : Type) (c : codec T) (t : T) : stream := put c t ++ output_newline.
Definition get_line (T : Type) (c : codec T) (s : stream) : outcome (T * stream) :=
  let! t := get c s in let! s := consume_output_newline t.2 in Ok (t.1, s).

(** r1cs_ppzksnark.tcc:47-71 *)
Definition r1cs_pk_codec : codec (r1cs_proving_key P) :=
  Codec (fun pk => put (sparse_codec (kc_codec c1 c1)) (pk_A pk) ++ put (sparse_codec (kc_codec c2 c1)) (pk_B pk) ++
           put (sparse_codec (kc_codec c1 c1)) (pk_C pk) ++ put (vector_codec c1) (pk_H pk) ++
           put (vector_codec c1) (pk_K pk) ++ put (r1cs_codec cF) (pk_cs pk))
    (fun s => let! a := get (sparse_codec (kc_codec c1 c1)) s in let! b := get (sparse_codec (kc_codec c2 c1)) a.2 in
       let! c := get (sparse_codec (kc_codec c1 c1)) b.2 in let! h := get (vector_codec c1) c.2 in
       let! k := get (vector_codec c1) h.2 in let! cs := get (r1cs_codec cF) k.2 in
       Ok (@R1csProvingKey F P a.1 b.1 c.1 h.1 k.1 cs.1, cs.2)).
(** r1cs_ppzksnark.tcc:86-122 *)
Definition r1cs_vk_codec : codec (r1cs_verification_key P) :=
  Codec (fun vk => put_line c2 (vk_alphaA_g2 vk) ++ put_line c1 (vk_alphaB_g1 vk) ++ put_line c2 (vk_alphaC_g2 vk) ++
           put_line c2 (vk_gamma_g2 vk) ++ put_line c1 (vk_gamma_beta_g1 vk) ++ put_line c2 (vk_gamma_beta_g2 vk) ++
           put_line c2 (vk_rC_Z_g2 vk) ++ put_line (accumulation_codec c1) (vk_IC vk))
    (fun s => let! a := get_line c2 s in let! b := get_line c1 a.2 in let! c := get_line c2 b.2 in let! d := get_line c2 c.2 in
       let! e := get_line c1 d.2 in let! f := get_line c2 e.2 in let! g := get_line c2 f.2 in
       let! h := get_line (accumulation_codec c1) g.2 in
       Ok (@R1csVerificationKey F P a.1 b.1 c.1 d.1 e.1 f.1 g.1 h.1, h.2)).
(** r1cs_ppzksnark.tcc:138-177 *)
Definition r1cs_pvk_codec : codec (r1cs_processed_key P) :=
  Codec (fun vk => put_line p2 (pvk_G2_one vk) ++ put_line p2 (pvk_alphaA_g2 vk) ++ put_line p1 (pvk_alphaB_g1 vk) ++
           put_line p2 (pvk_alphaC_g2 vk) ++ put_line p2 (pvk_rC_Z_g2 vk) ++ put_line p2 (pvk_gamma_g2 vk) ++
           put_line p1 (pvk_gamma_beta_g1 vk) ++ put_line p2 (pvk_gamma_beta_g2 vk) ++ put_line (accumulation_codec c1) (pvk_IC vk))
    (fun s => let! a := get_line p2 s in let! b := get_line p2 a.2 in let! c := get_line p1 b.2 in let! d := get_line p2 c.2 in
       let! e := get_line p2 d.2 in let! f := get_line p2 e.2 in let! g := get_line p1 f.2 in let! h := get_line p2 g.2 in
       let! i := get_line (accumulation_codec c1) h.2 in
       Ok (@R1csProcessedKey F P a.1 b.1 c.1 d.1 e.1 f.1 g.1 h.1 i.1, i.2)).
(** r1cs_ppzksnark.tcc:189-216 *)
Definition r1cs_proof_codec : codec (r1cs_proof P) :=
  Codec (fun p => put_line (kc_codec c1 c1) (pf_A p) ++ put_line (kc_codec c2 c1) (pf_B p) ++ put_line (kc_codec c1 c1) (pf_C p) ++
           put_line c1 (pf_H p) ++ put_line c1 (pf_K p))
    (fun s => let! a := get_line (kc_codec c1 c1) s in let! b := get_line (kc_codec c2 c1) a.2 in
       let! c := get_line (kc_codec c1 c1) b.2 in let! d := get_line c1 c.2 in let! e := get_line c1 d.2 in
       Ok (@R1csProof F P a.1 b.1 c.1 d.1 e.1, e.2)).

(** r1cs_gg_ppzksnark.tcc:51-88 *)
Definition gg_pk_codec : codec (gg_proving_key P) :=
  Codec (fun pk => put_line c1 (gk_alpha_g1 pk) ++ put_line c1 (gk_beta_g1 pk) ++ put_line c2 (gk_beta_g2 pk) ++
           put_line c1 (gk_delta_g1 pk) ++ put_line c2 (gk_delta_g2 pk) ++ put (vector_codec c1) (gk_A pk) ++
           put (sparse_codec (kc_codec c2 c1)) (gk_B pk) ++ put (vector_codec c1) (gk_H pk) ++ put (vector_codec c1) (gk_L pk) ++
           put (r1cs_codec cF) (gk_cs pk))
    (fun s => let! a := get_line c1 s in let! b := get_line c1 a.2 in let! c := get_line c2 b.2 in let! d := get_line c1 c.2 in
       let! e := get_line c2 d.2 in let! f := get (vector_codec c1) e.2 in let! g := get (sparse_codec (kc_codec c2 c1)) f.2 in
       let! h := get (vector_codec c1) g.2 in let! l := get (vector_codec c1) h.2 in let! cs := get (r1cs_codec cF) l.2 in
       Ok (@GgProvingKey F P a.1 b.1 c.1 d.1 e.1 f.1 g.1 h.1 l.1 cs.1, cs.2)).
(** r1cs_gg_ppzksnark.tcc:99-123 *)
Definition gg_vk_codec : codec (gg_verification_key P) :=
  Codec (fun vk => put_line cT (gv_alpha_beta vk) ++ put_line c2 (gv_gamma_g2 vk) ++ put_line c2 (gv_delta_g2 vk) ++
           put_line (accumulation_codec c1) (gv_ABC vk))
    (fun s => let! a := get_line cT s in let! b := get_line c2 a.2 in let! c := get_line c2 b.2 in
       let! d := get_line (accumulation_codec c1) c.2 in Ok (@GgVerificationKey F P a.1 b.1 c.1 d.1, d.2)).
(** r1cs_gg_ppzksnark.tcc:134-158 *)
Definition gg_pvk_codec : codec (gg_processed_key P) :=
  Codec (fun vk => put_line cT (gp_alpha_beta vk) ++ put_line p2 (gp_gamma_g2 vk) ++ put_line p2 (gp_delta_g2 vk) ++
           put_line (accumulation_codec c1) (gp_ABC vk))
    (fun s => let! a := get_line cT s in let! b := get_line p2 a.2 in let! c := get_line p2 b.2 in
       let! d := get_line (accumulation_codec c1) c.2 in Ok (@GgProcessedKey F P a.1 b.1 c.1 d.1, d.2)).
(** r1cs_gg_ppzksnark.tcc:168-189 *)
Definition gg_proof_codec : codec (gg_proof P) :=
  Codec (fun p => put_line c1 (gp_A p) ++ put_line c2 (gp_B p) ++ put_line c1 (gp_C p))
    (fun s => let! a := get_line c1 s in let! b := get_line c2 a.2 in let! c := get_line c1 b.2 in Ok (@GgProof F P a.1 b.1 c.1, c.2)).

(** r1cs_se_ppzksnark.tcc:51-83: there is nothing between the four group elements. *)
Definition se_pk_codec : codec (se_proving_key P) :=
  Codec (fun pk => put (vector_codec c1) (sk_A pk) ++ put (vector_codec c2) (sk_B pk) ++ put (vector_codec c1) (sk_C1 pk) ++
           put (vector_codec c1) (sk_C2 pk) ++ put c1 (sk_G_gamma_Z pk) ++ put c2 (sk_H_gamma_Z pk) ++ put c1 (sk_G_ab_gamma_Z pk) ++
           put c1 (sk_G_gamma2_Z2 pk) ++ put (vector_codec c1) (sk_G_gamma2_Z_t pk) ++ put (r1cs_codec cF) (sk_cs pk))
    (fun s => let! a := get (vector_codec c1) s in let! b := get (vector_codec c2) a.2 in let! c := get (vector_codec c1) b.2 in
       let! d := get (vector_codec c1) c.2 in let! e := get c1 d.2 in let! f := get c2 e.2 in let! g := get c1 f.2 in
       let! h := get c1 g.2 in let! i := get (vector_codec c1) h.2 in let! cs := get (r1cs_codec cF) i.2 in
       Ok (@SeProvingKey F P a.1 b.1 c.1 d.1 e.1 f.1 g.1 h.1 i.1 cs.1, cs.2)).
(** r1cs_se_ppzksnark.tcc:96-126 *)
Definition se_vk_codec : codec (se_verification_key P) :=
  Codec (fun vk => put_line c2 (sv_H vk) ++ put_line c1 (sv_G_alpha vk) ++ put_line c2 (sv_H_beta vk) ++
           put_line c1 (sv_G_gamma vk) ++ put_line c2 (sv_H_gamma vk) ++ put_line (vector_codec c1) (sv_query vk))
    (fun s => let! a := get_line c2 s in let! b := get_line c1 a.2 in let! c := get_line c2 b.2 in let! d := get_line c1 c.2 in
       let! e := get_line c2 d.2 in let! f := get_line (vector_codec c1) e.2 in
       Ok (@SeVerificationKey F P a.1 b.1 c.1 d.1 e.1 f.1, f.2)).
(** r1cs_se_ppzksnark.tcc:140-173 *)
Definition se_pvk_codec : codec (se_processed_key P) :=
  Codec (fun vk => put_line c1 (sp_G_alpha vk) ++ put_line c2 (sp_H_beta vk) ++ put_line cT (sp_G_alpha_H_beta vk) ++
           put_line p1 (sp_G_gamma vk) ++ put_line p2 (sp_H_gamma vk) ++ put_line p2 (sp_H vk) ++ put_line (vector_codec c1) (sp_query vk))
    (fun s => let! a := get_line c1 s in let! b := get_line c2 a.2 in let! c := get_line cT b.2 in let! d := get_line p1 c.2 in
       let! e := get_line p2 d.2 in let! f := get_line p2 e.2 in let! g := get_line (vector_codec c1) f.2 in
       Ok (@SeProcessedKey F P a.1 b.1 c.1 d.1 e.1 f.1 g.1, g.2)).
(** r1cs_se_ppzksnark.tcc:183-204 *)
Definition se_proof_codec : codec (se_proof P) :=
  Codec (fun p => put_line c1 (spi_A p) ++ put_line c2 (spi_B p) ++ put_line c1 (spi_C p))
    (fun s => let! a := get_line c1 s in let! b := get_line c2 a.2 in let! c := get_line c1 b.2 in Ok (@SeProof F P a.1 b.1 c.1, c.2)).

(** uscs_ppzksnark.tcc:44-66 *)
Definition uscs_pk_codec : codec (uscs_proving_key P) :=
  Codec (fun pk => put (vector_codec c1) (uk_V_g1 pk) ++ put (vector_codec c1) (uk_alpha_V_g1 pk) ++
           put (vector_codec c1) (uk_H_g1 pk) ++ put (vector_codec c2) (uk_V_g2 pk) ++ put (uscs_codec cF) (uk_cs pk))
    (fun s => let! a := get (vector_codec c1) s in let! b := get (vector_codec c1) a.2 in let! c := get (vector_codec c1) b.2 in
       let! d := get (vector_codec c2) c.2 in let! cs := get (uscs_codec cF) d.2 in
       Ok (@UscsProvingKey F P a.1 b.1 c.1 d.1 cs.1, cs.2)).
(** uscs_ppzksnark.tcc:77-101 *)
Definition uscs_vk_codec : codec (uscs_verification_key P) :=
  Codec (fun vk => put_line c2 (uv_tilde_g2 vk) ++ put_line c2 (uv_alpha_tilde_g2 vk) ++ put_line c2 (uv_Z_g2 vk) ++
           put_line (accumulation_codec c1) (uv_IC vk))
    (fun s => let! a := get_line c2 s in let! b := get_line c2 a.2 in let! c := get_line c2 b.2 in
       let! d := get_line (accumulation_codec c1) c.2 in Ok (@UscsVerificationKey F P a.1 b.1 c.1 d.1, d.2)).
(** uscs_ppzksnark.tcc:115-148 *)
Definition uscs_pvk_codec : codec (uscs_processed_key P) :=
  Codec (fun vk => put_line p1 (up_G1_one vk) ++ put_line p2 (up_G2_one vk) ++ put_line p2 (up_tilde_g2 vk) ++
           put_line p2 (up_alpha_tilde_g2 vk) ++ put_line p2 (up_Z_g2 vk) ++ put_line cT (up_pairing vk) ++
           put_line (accumulation_codec c1) (up_IC vk))
    (fun s => let! a := get_line p1 s in let! b := get_line p2 a.2 in let! c := get_line p2 b.2 in let! d := get_line p2 c.2 in
       let! e := get_line p2 d.2 in let! f := get_line cT e.2 in let! g := get_line (accumulation_codec c1) f.2 in
       Ok (@UscsProcessedKey F P a.1 b.1 c.1 d.1 e.1 f.1 g.1, g.2)).
(** uscs_ppzksnark.tcc:159-183 *)
Definition uscs_proof_codec : codec (uscs_proof P) :=
  Codec (fun p => put_line c1 (upi_V_g1 p) ++ put_line c1 (upi_alpha_V_g1 p) ++ put_line c1 (upi_H_g1 p) ++ put_line c2 (upi_V_g2 p))
    (fun s => let! a := get_line c1 s in let! b := get_line c1 a.2 in let! c := get_line c1 b.2 in let! d := get_line c2 c.2 in
       Ok (@UscsProof F P a.1 b.1 c.1 d.1, d.2)).

(** bacs_ppzksnark.tcc:29-47 and tbcs_ppzksnark.tcc:29-47 *)
Definition bacs_pk_codec : codec (bacs_proving_key P) :=
  Codec (fun pk => put_line (bacs_codec cF) (bpk_circuit pk) ++ put_line r1cs_pk_codec (bpk_r1cs_pk pk))
    (fun s => let! a := get_line (bacs_codec cF) s in let! b := get_line r1cs_pk_codec a.2 in Ok (BacsProvingKey a.1 b.1, b.2)).
Definition tbcs_pk_codec : codec (tbcs_proving_key P) :=
  Codec (fun pk => put_line tbcs_codec (tpk_circuit pk) ++ put_line uscs_pk_codec (tpk_uscs_pk pk))
    (fun s => let! a := get_line tbcs_codec s in let! b := get_line uscs_pk_codec a.2 in Ok (TbcsProvingKey a.1 b.1, b.2)).

(** ram_ppzksnark.tcc:32-54 and 94-116, on the machine parameters of TinyRAM: a key, the parameters, the
    bound on the primary input and the time bound *)
Definition ram_pk_codec : codec (r1cs_proving_key P * (nat * nat) * nat * nat) :=
  Codec (fun k => put r1cs_pk_codec k.1.1.1 ++ put tinyram_params_codec k.1.1.2 ++ put_size k.1.2 ++ newline :: put_size k.2 ++ [:: newline])
    (fun s => let! a := get r1cs_pk_codec s in let! b := get tinyram_params_codec a.2 in
       let! c := get_size b.2 in let! s := consume_newline c.2 in let! d := get_size s in let! s := consume_newline d.2 in
       Ok ((a.1, b.1, c.1, d.1), s)).
Definition ram_vk_codec : codec (r1cs_verification_key P * (nat * nat) * nat * nat) :=
  Codec (fun k => put r1cs_vk_codec k.1.1.1 ++ put tinyram_params_codec k.1.1.2 ++ put_size k.1.2 ++ newline :: put_size k.2 ++ [:: newline])
    (fun s => let! a := get r1cs_vk_codec s in let! b := get tinyram_params_codec a.2 in
       let! c := get_size b.2 in let! s := consume_newline c.2 in let! d := get_size s in let! s := consume_newline d.2 in
       Ok ((a.1, b.1, c.1, d.1), s)).
End Keys.
End Mode.
