(** Proofs about the stream operators. *)
From Coq Require Import DecimalNat.
From mathcomp Require Import all_ssreflect all_algebra zify.
From Verif Require Import Outcome Lincomb R1CS Circuits Vectors Pairing.
From Verif Require Import R1csPpzksnark R1csGgPpzksnark R1csSePpzksnark UscsPpzksnark CircuitPpzksnark.
From Verif Require Import Serialization SerializationSpec.
Set Implicit Arguments.
Unset Strict Implicit.
Unset Printing Implicit Defensive.

Lemma digits_chars u rest : ~~ starts_digit rest -> digits (uint_chars u ++ rest) = (uint_chars u, rest).
Proof.
move=> h; elim: u => [|u IH|u IH|u IH|u IH|u IH|u IH|u IH|u IH|u IH|u IH].
  by case: rest h => [|c r] //= /negbTE ->.
all: by rewrite /= IH.
Qed.
Lemma value_acc u n : foldl (fun n c => 10 * n + (c - 48)) n (uint_chars u) = Nat.of_uint_acc u n.
Proof.
have e k : Nat.tail_mul 10 k = 10 * k by rewrite PeanoNat.Nat.tail_mul_spec.
by elim: u n => //= u IH n; rewrite IH; congr (Nat.of_uint_acc u _); rewrite e; clear; lia.
Qed.
Lemma to_uint_neq n : Nat.to_uint n <> Decimal.Nil.
Proof.
move=> e; move: (Unsigned.of_to n); rewrite e /= => e0; move: e; rewrite -e0; discriminate.
Qed.
Lemma get_size_put n rest : ~~ starts_digit rest -> get_size (put_size n ++ rest) = Ok (n, rest).
Proof.
move=> h; rewrite /get_size /put_size; move: (to_uint_neq (n := n)) (Unsigned.of_to n).
move: (Nat.to_uint n) => u hu eu.
have -> : skip_space (uint_chars u ++ rest) = uint_chars u ++ rest by case: u hu {eu}.
rewrite digits_chars //; have ev : value (uint_chars u) = n by rewrite /value value_acc -[RHS]eu.
by move: ev; case: u hu {eu} => // u hu <-.
Qed.
Lemma get_size_nl n s : get_size (put_size n ++ newline :: s) = Ok (n, newline :: s).
Proof. exact: get_size_put. Qed.
Lemma get_size_skip s : get_size (newline :: s) = get_size s.
Proof. by []. Qed.
Lemma consume_nl s : consume_newline (newline :: s) = Ok s.
Proof. by []. Qed.
Lemma read_char_nl s : read_char (newline :: s) = Ok (newline, s).
Proof. by []. Qed.
Lemma consume_onl binary s : consume_output_newline binary (output_newline binary ++ s) = Ok s.
Proof. by case: binary. Qed.
Lemma consume_osep binary s : consume_output_separator binary (output_separator binary ++ s) = Ok s.
Proof. by case: binary. Qed.
Lemma get_bool_put b s : get_bool (put_bool b ++ s) = Ok (b, s).
Proof. by rewrite /get_bool /put_bool -catA cat1s get_size_nl; case: b. Qed.
Lemma get_n_put (T : Type) (g : stream -> outcome (T * stream)) (p : T -> stream) v rest :
  (forall t rest, g (p t ++ rest) = Ok (t, rest)) ->
  get_n g (size v) (flatten [seq p t | t <- v] ++ rest) = Ok (v, rest).
Proof. by move=> h; elim: v => //= t v IH; rewrite -catA h; cbn [obind fst snd]; rewrite IH. Qed.
Lemma get_bools_put v s : get_bools (put_bools v ++ s) = Ok (v, s).
Proof.
rewrite /get_bools /put_bools -catA cat_cons get_size_nl; cbn [obind fst snd].
rewrite consume_nl; cbn [obind fst snd]; exact: (get_n_put _ _ get_bool_put).
Qed.

(** Unfold one codec, and only that one. *)
Ltac openc c := rewrite /c; match goal with
  |- get (Codec ?p ?g) (put (Codec ?p ?g) ?t ++ ?r) = _ => change (g (p t ++ r) = Ok (t, r)) end; cbv beta.

Section Mode.
Variable binary : bool.
Local Notation line := (reads_back_line binary).
Local Notation onl := (output_newline binary).
Local Notation osep := (output_separator binary).

Lemma any_line (T : Type) (c : codec T) : reads_back c -> line c.
Proof. by move=> h t rest _; exact: h. Qed.
Lemma get_put_line (T : Type) (c : codec T) t rest : line c -> get c (put c t ++ onl ++ rest) = Ok (t, onl ++ rest).
Proof. by move=> h; apply: h; case: (binary). Qed.
Lemma get_line_put (T : Type) (c : codec T) t rest : line c ->
  get_line binary c (put_line binary c t ++ rest) = Ok (t, rest).
Proof. by move=> h; rewrite /get_line /put_line -catA get_put_line //=; rewrite consume_onl. Qed.

Lemma vector_rb (T : Type) (c : codec T) : line c -> reads_back (vector_codec binary c).
Proof.
move=> hc v rest; openc vector_codec.
rewrite -catA cat_cons get_size_nl; cbn [obind fst snd]; rewrite consume_nl; cbn [obind fst snd].
apply: (get_n_put (p := fun t => put c t ++ onl)) => t r; rewrite -catA get_put_line //; cbn [obind fst snd].
by rewrite consume_onl.
Qed.

(** Step through a reader. *)
Ltac go := repeat (cbn [obind fst snd oassert];
  first [rewrite get_size_nl | rewrite get_size_skip | rewrite consume_nl | rewrite read_char_nl | rewrite consume_onl
        | rewrite consume_osep | rewrite get_bool_put]); cbn [obind fst snd oassert].
Ltac flat := repeat match goal with
  | |- context [(?a ++ ?b) ++ ?c] => rewrite -(catA a b c)
  | |- context [(?x :: ?a) ++ ?b] => change ((x :: a) ++ b) with (x :: (a ++ b))
  | |- context [[::] ++ ?b] => change ([::] ++ b) with b end.

Section Relations.
Variables (F : fieldType) (cF : codec F).
Hypothesis hF : line cF.
Lemma lc_rb : reads_back (lc_codec binary cF).
Proof.
move=> lc rest; openc lc_codec; flat; go.
apply: (get_n_put (p := fun t => put_size t.1 ++ newline :: put cF t.2 ++ onl)) => -[i c] r; cbn [fst snd]; flat; go.
by rewrite get_put_line //; go.
Qed.
Lemma r1cs_constraint_rb : reads_back (r1cs_constraint_codec binary cF).
Proof. by move=> [a b c] rest; openc r1cs_constraint_codec; cbn [c_a c_b c_c]; flat; do 3 (rewrite lc_rb; go). Qed.
Lemma r1cs_rb : reads_back (r1cs_codec binary cF).
Proof.
move=> [p a cs] rest; openc r1cs_codec; cbn [primary_input_size auxiliary_input_size constraints]; flat; go.
by rewrite (get_n_put _ _ r1cs_constraint_rb).
Qed.
Lemma uscs_rb : reads_back (uscs_codec binary cF).
Proof.
move=> [p a cs] rest; openc uscs_codec; cbn [u_primary_input_size u_auxiliary_input_size u_constraints]; flat; go.
by rewrite (get_n_put _ _ lc_rb).
Qed.
Lemma bacs_gate_rb : reads_back (bacs_gate_codec binary cF).
Proof.
move=> [l r o b] rest; openc bacs_gate_codec; cbn [bg_lhs bg_rhs bg_output bg_is_circuit_output]; flat; go.
by do 2 (rewrite lc_rb; go); case: b.
Qed.
Lemma bacs_rb : reads_back (bacs_codec binary cF).
Proof.
move=> [p a g] rest; openc bacs_codec; cbn [b_primary_input_size b_auxiliary_input_size b_gates].
flat; go; rewrite (vector_rb (any_line bacs_gate_rb)); by go.
Qed.
End Relations.

Lemma tbcs_gate_rb : reads_back tbcs_gate_codec.
Proof.
move=> [l r t o b] rest; openc tbcs_gate_codec; cbn [tg_left tg_right tg_type tg_output tg_is_circuit_output]; flat; go.
by rewrite (_ : get_bool (newline :: _) = get_bool (put_bool b ++ rest)) //; go.
Qed.
Lemma tbcs_rb : reads_back (tbcs_codec binary).
Proof.
move=> [p a g] rest; openc tbcs_codec; cbn [t_primary_input_size t_auxiliary_input_size t_gates].
flat; go; rewrite (vector_rb (any_line tbcs_gate_rb)); by go.
Qed.

Section Vec.
Variables (K : fieldType) (T : lmodType K) (c : codec T).
Hypothesis hc : line c.
Lemma sparse_rb : reads_back (sparse_codec binary c).
Proof.
move=> [is_ vs d] rest; openc sparse_codec; cbn [sv_indices sv_values sv_domain_size]; flat; go.
rewrite (get_n_put (p := fun i => put_size i ++ [:: newline])) => [|i r]; last by flat; go.
go; rewrite (get_n_put (p := fun t => put c t ++ onl)) // => t r; flat; rewrite get_put_line //; by go.
Qed.
Lemma accumulation_rb : reads_back (accumulation_codec binary c).
Proof.
move=> [f r] rest; openc accumulation_codec; cbn [av_first av_rest]; flat; rewrite get_put_line //; go.
by rewrite sparse_rb; go.
Qed.
End Vec.
Lemma kc_line (T1 T2 : Type) (c1 : codec T1) (c2 : codec T2) : line c1 -> line c2 -> line (kc_codec binary c1 c2).
Proof.
move=> h1 h2 [g h] rest hr; openc kc_codec; cbn [fst snd]; flat.
rewrite h1; last by case: (binary).
by go; rewrite h2.
Qed.
Lemma set_membership_rb : reads_back set_membership_codec.
Proof.
by move=> [a p] rest; openc set_membership_codec; cbn [fst snd]; flat; go; rewrite (get_n_put _ _ get_bools_put).
Qed.
Lemma tinyram_params_rb : reads_back tinyram_params_codec.
Proof. by move=> [w k] rest; openc tinyram_params_codec; cbn [fst snd]; flat; go. Qed.

Section Keys.
Variables (F : fieldType) (P : pairing F).
Variables (cF : codec F) (c1 : codec (G1 P)) (c2 : codec (G2 P)) (cT : codec (GT P)) (p1 : codec (G1 P)) (p2 : codec (G2 P)).
Hypotheses (hF : line cF) (h1 : line c1) (h2 : line c2) (hT : line cT) (hp1 : line p1) (hp2 : line p2).
Let k11 := kc_line h1 h1.
Let k21 := kc_line h2 h1.
Ltac next := first [rewrite (get_line_put _ _ h1) | rewrite (get_line_put _ _ h2) | rewrite (get_line_put _ _ hT)
  | rewrite (get_line_put _ _ hp1) | rewrite (get_line_put _ _ hp2) | rewrite (get_line_put _ _ k11) | rewrite (get_line_put _ _ k21)
  | rewrite (vector_rb h1) | rewrite (vector_rb h2) | rewrite (r1cs_rb hF) | rewrite (uscs_rb hF)
  | rewrite (sparse_rb k11) | rewrite (sparse_rb k21)
  | rewrite (get_line_put _ _ (any_line (accumulation_rb h1))) | rewrite (get_line_put _ _ (any_line (vector_rb h1)))]; cbn [obind fst snd].

Lemma r1cs_pk_rb : reads_back (r1cs_pk_codec binary cF c1 c2).
Proof. move=> [a b c h k cs] rest; openc r1cs_pk_codec; cbn [pk_A pk_B pk_C pk_H pk_K pk_cs]; flat; by repeat next. Qed.
Lemma r1cs_vk_rb : reads_back (r1cs_vk_codec binary c1 c2).
Proof.
move=> [a b c d e f g h] rest; openc r1cs_vk_codec; cbn [vk_alphaA_g2 vk_alphaB_g1 vk_alphaC_g2 vk_gamma_g2 vk_gamma_beta_g1
  vk_gamma_beta_g2 vk_rC_Z_g2 vk_IC]; flat; by repeat next.
Qed.
Lemma r1cs_pvk_rb : reads_back (r1cs_pvk_codec binary c1 p1 p2).
Proof.
move=> [a b c d e f g h i] rest; openc r1cs_pvk_codec; cbn [pvk_G2_one pvk_alphaA_g2 pvk_alphaB_g1 pvk_alphaC_g2 pvk_rC_Z_g2
  pvk_gamma_g2 pvk_gamma_beta_g1 pvk_gamma_beta_g2 pvk_IC]; flat; by repeat next.
Qed.
Lemma r1cs_proof_rb : reads_back (r1cs_proof_codec binary c1 c2).
Proof. move=> [a b c d e] rest; openc r1cs_proof_codec; cbn [pf_A pf_B pf_C pf_H pf_K]; flat; by repeat next. Qed.
Lemma gg_pk_rb : reads_back (gg_pk_codec binary cF c1 c2).
Proof.
move=> [a b c d e f g h l cs] rest; openc gg_pk_codec; cbn [gk_alpha_g1 gk_beta_g1 gk_beta_g2 gk_delta_g1 gk_delta_g2 gk_A gk_B
  gk_H gk_L gk_cs]; flat; by repeat next.
Qed.
Lemma gg_vk_rb : reads_back (gg_vk_codec binary c1 c2 cT).
Proof. move=> [a b c d] rest; openc gg_vk_codec; cbn [gv_alpha_beta gv_gamma_g2 gv_delta_g2 gv_ABC]; flat; by repeat next. Qed.
Lemma gg_pvk_rb : reads_back (gg_pvk_codec binary c1 cT p2).
Proof. move=> [a b c d] rest; openc gg_pvk_codec; cbn [gp_alpha_beta gp_gamma_g2 gp_delta_g2 gp_ABC]; flat; by repeat next. Qed.
Lemma gg_proof_rb : reads_back (gg_proof_codec binary c1 c2).
Proof. move=> [a b c] rest; openc gg_proof_codec; cbn [gp_A gp_B gp_C]; flat; by repeat next. Qed.
Lemma se_pk_rb : reads_back c1 -> reads_back c2 -> reads_back (se_pk_codec binary cF c1 c2).
Proof.
move=> a1 a2 [a b c d e f g h i cs] rest; openc se_pk_codec; cbn [sk_A sk_B sk_C1 sk_C2 sk_G_gamma_Z sk_H_gamma_Z sk_G_ab_gamma_Z
  sk_G_gamma2_Z2 sk_G_gamma2_Z_t sk_cs]; flat; by repeat (first [rewrite a1; cbn [obind fst snd] | rewrite a2; cbn [obind fst snd] | next]).
Qed.
Lemma se_vk_rb : reads_back (se_vk_codec binary c1 c2).
Proof.
move=> [a b c d e f] rest; openc se_vk_codec; cbn [sv_H sv_G_alpha sv_H_beta sv_G_gamma sv_H_gamma sv_query]; flat; by repeat next.
Qed.
Lemma se_pvk_rb : reads_back (se_pvk_codec binary c1 c2 cT p1 p2).
Proof.
move=> [a b c d e f g] rest; openc se_pvk_codec; cbn [sp_G_alpha sp_H_beta sp_G_alpha_H_beta sp_G_gamma sp_H_gamma sp_H sp_query]; flat;
 by repeat next.
Qed.
Lemma se_proof_rb : reads_back (se_proof_codec binary c1 c2).
Proof. move=> [a b c] rest; openc se_proof_codec; cbn [spi_A spi_B spi_C]; flat; by repeat next. Qed.
Lemma uscs_pk_rb : reads_back (uscs_pk_codec binary cF c1 c2).
Proof. move=> [a b c d cs] rest; openc uscs_pk_codec; cbn [uk_V_g1 uk_alpha_V_g1 uk_H_g1 uk_V_g2 uk_cs]; flat; by repeat next. Qed.
Lemma uscs_vk_rb : reads_back (uscs_vk_codec binary c1 c2).
Proof. move=> [a b c d] rest; openc uscs_vk_codec; cbn [uv_tilde_g2 uv_alpha_tilde_g2 uv_Z_g2 uv_IC]; flat; by repeat next. Qed.
Lemma uscs_pvk_rb : reads_back (uscs_pvk_codec binary c1 cT p1 p2).
Proof.
move=> [a b c d e f g] rest; openc uscs_pvk_codec; cbn [up_G1_one up_G2_one up_tilde_g2 up_alpha_tilde_g2 up_Z_g2 up_pairing up_IC];
 flat; by repeat next.
Qed.
Lemma uscs_proof_rb : reads_back (uscs_proof_codec binary c1 c2).
Proof. move=> [a b c d] rest; openc uscs_proof_codec; cbn [upi_V_g1 upi_alpha_V_g1 upi_H_g1 upi_V_g2]; flat; by repeat next. Qed.
Lemma bacs_pk_rb : reads_back (bacs_pk_codec binary cF c1 c2).
Proof.
move=> [a b] rest; openc bacs_pk_codec; cbn [bpk_circuit bpk_r1cs_pk]; flat.
by rewrite (get_line_put _ _ (any_line (bacs_rb hF))); cbn [obind fst snd]; rewrite (get_line_put _ _ (any_line r1cs_pk_rb)).
Qed.
Lemma tbcs_pk_rb : reads_back (tbcs_pk_codec binary cF c1 c2).
Proof.
move=> [a b] rest; openc tbcs_pk_codec; cbn [tpk_circuit tpk_uscs_pk]; flat.
by rewrite (get_line_put _ _ (any_line tbcs_rb)); cbn [obind fst snd]; rewrite (get_line_put _ _ (any_line uscs_pk_rb)).
Qed.
Lemma ram_pk_rb : reads_back (ram_pk_codec binary cF c1 c2).
Proof.
move=> [[[a b] c] d] rest; openc ram_pk_codec; cbn [fst snd]; flat.
rewrite r1cs_pk_rb; cbn [obind fst snd]; rewrite tinyram_params_rb; by go.
Qed.
Lemma ram_vk_rb : reads_back (ram_vk_codec binary c1 c2).
Proof.
move=> [[[a b] c] d] rest; openc ram_vk_codec; cbn [fst snd]; flat.
rewrite r1cs_vk_rb; cbn [obind fst snd]; rewrite tinyram_params_rb; by go.
Qed.
End Keys.
End Mode.

Lemma get_all_put (T : Type) (c : codec T) ts rest :
  reads_back c -> get_all c (size ts) (flatten [seq put c t | t <- ts] ++ rest) = Ok (ts, rest).
Proof. by move=> h; elim: ts => //= t ts IH; rewrite -catA h IH. Qed.
