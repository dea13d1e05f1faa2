(** C46: proofs about authenticated inputs (ADSNARK).

    [P] is any bilinear group, [D] any evaluation domain that is large enough,
    [M] any signature scheme and pseudorandom function of which only the
    correctness of honest signatures is used; all random choices are
    universally quantified. *)
From mathcomp Require Import all_ssreflect all_algebra.
From Verif Require Import Outcome Lincomb LincombSpec R1CS R1CSSpec R1CSFacts Prop_Relations Prop_Circuits Domain DomainFacts ArithPrograms
  ArithFacts QapFacts Prop_ArithPrograms Vectors VectorsFacts Pairing SnarkFacts R1csPpzksnark R1csPpzksnarkFacts Adsnark AdsnarkFacts
  Prop_Snarks.
Set Implicit Arguments.
Unset Strict Implicit.
Unset Printing Implicit Defensive.
Import GRing.Theory.
Local Open Scope ring_scope.

(** A proof made from a satisfying assignment and honest tags of its primary
    input is accepted by the verifier with the secret key and by the one with
    the public key. *)
Theorem C46_complete (F : fieldType) (P : pairing F) (D : evaluation_domain F) (M : auth_methods P) (cs : r1cs F)
    (i : F) (sk : am_sk M) (vkp : am_vk M) (seed : am_prf_key M) (r : r1cs_gen_random F) (chunks : nat) pk vk
    (p a : seq F) (labels : seq (am_label M)) tags (d : ads_prover_random F) :
  (num_constraints cs + num_inputs cs + 1 <= d_size D)%N ->
  r1cs_is_satisfied cs p a = Ok true -> am_pair sk vkp ->
  let: (I1, pak, sak) := auth_generator i sk vkp seed in
  ads_generator D cs I1 r chunks = Ok (pk, vk) ->
  auth_sign p sak labels = Ok tags ->
  exists2 pi, ads_prover D false pk p a tags d = Ok pi &
    ads_verifier_sec vk pi sak labels = Ok true /\ ads_verifier_pub vk tags pi pak labels = Ok true.
Proof. exact (@ads_complete F P D M cs i sk vkp seed r chunks pk vk p a labels tags d). Qed.
Print Assumptions C46_complete.

(** Unlike the generators of the other proof systems, this one never aborts. *)
Theorem C46_generator_total (F : fieldType) (P : pairing F) (D : evaluation_domain F) (cs : r1cs F) (i : F)
    (r : r1cs_gen_random F) (chunks : nat) :
  r1cs_in_range cs -> (num_constraints cs + num_inputs cs + 1 <= d_size D)%N ->
  exists pk vk, ads_generator D cs (i *: G1_one P) r chunks = Ok (pk, vk).
Proof. exact (@ads_generator_total F P D cs i r chunks). Qed.
Print Assumptions C46_generator_total.

(** Tags: signing needs one label per value; the tags of [ins] verify, with
    either key, for exactly the values [ins]. *)
Theorem C46_auth (F : fieldType) (P : pairing F) (M : auth_methods P) (i : F) (sk : am_sk M) (vkp : am_vk M)
    (seed : am_prf_key M) (ins : seq F) (labels : seq (am_label M)) :
  i != 0 -> G2_one P != 0 -> am_pair sk vkp ->
  let: (I1, pak, sak) := auth_generator i sk vkp seed in
  if size labels == size ins then
    exists2 tags, auth_sign ins sak labels = Ok tags &
      size tags = size ins /\
      forall data, size data = size ins ->
        auth_verify_sec data tags sak labels = Ok (data == ins) /\
        auth_verify_pub data tags pak labels = Ok (data == ins)
  else auth_sign ins sak labels = AssertFail.
Proof.
move=> hi hg hp /=; set sak := SecAuthKey i sk seed; rewrite auth_signE; case: eqP => // hl.
eexists; first by []; split; first by rewrite size_map size_zip hl minnn.
move=> data hd; split; first exact: (auth_verify_sec_honest (sk := sak) hi hl hd).
exact: (auth_verify_pub_honest (sk := sak) hi hg hp hl hd).
Qed.
Print Assumptions C46_auth.

(** On honest tags the two verifiers agree about every proof whatsoever: what
    the one with the secret key accepts the other accepts, and conversely if
    the pairing with the generator of G2 is injective. *)
Theorem C46_verifiers_agree (F : fieldType) (P : pairing F) (M : auth_methods P) (i : F) (sk : am_sk M)
    (vkp : am_vk M) (seed : am_prf_key M) (vk : ads_verification_key P) (pi : ads_proof P) (ins : seq F)
    (labels : seq (am_label M)) tags :
  am_pair sk vkp -> (size labels <= size (avk_Ain vk))%N ->
  let: (I1, pak, sak) := auth_generator i sk vkp seed in
  auth_sign ins sak labels = Ok tags ->
  exists b1 b2, [/\ ads_verifier_sec vk pi sak labels = Ok b1, ads_verifier_pub vk tags pi pak labels = Ok b2,
    b1 -> b2 & (forall x : G1 P, e x (G2_one P) = 0 -> x = 0) -> b1 = b2].
Proof.
move=> hp hs /=; set sak := SecAuthKey i sk seed; rewrite auth_signE; case: eqP => // hl [<-].
by apply: (@pub_sec_agree _ _ _ vk pi sak vkp labels ins hp hl); rewrite -hl.
Qed.
Print Assumptions C46_verifiers_agree.

(** What the verifier with the secret key accepts under honest keys: for
    arbitrary proof elements, given by their discrete logarithms, exactly that
    the last one authenticates the commitment [u] to the input, that all
    commitments are well-formed, the QAP divisibility relation and the
    same-coefficients relation. *)
Theorem C46_verdict (F : fieldType) (P : pairing F) (D : evaluation_domain F) (M : auth_methods P) (cs : r1cs F)
    (i : F) (r : r1cs_gen_random F) (chunks : nat) pk vk (sak : sec_auth_key M) (labels : seq (am_label M)) :
  let g1 := G1_one P in let g2 := G2_one P in
  r1cs_in_range cs -> (num_constraints cs + num_inputs cs + 1 <= d_size D)%N ->
  ads_generator D cs (i *: g1) r chunks = Ok (pk, vk) ->
  e g1 g2 != 0 -> g1 != 0 -> (size labels <= num_inputs cs)%N ->
  exists2 q, r1cs_to_qap_instance_map_with_evaluation D (apk_cs pk) (rg_t r) = Ok q &
  forall a a' b b' c c' h k u u' m,
  ads_verifier_sec vk (AdsProof (P := P) (a *: g1, a' *: g1) (b *: g2, b' *: g1) (c *: g1, c' *: g1) (h *: g1) (k *: g1)
     (u *: g1, u' *: g1) (m *: g1)) sak labels =
  Ok [&& m == sak_i sak * u
              + rg_rA r * \sum_(j < size labels) [seq am_prf (sak_S sak) l | l <- labels]`_j * (qe_At q)`_j.+1,
      u' == rg_alphaA r * u, a' == rg_alphaA r * a, b' == rg_alphaB r * b &
      [&& c' == rg_alphaC r * c,
      (rg_rA r * (qe_At q)`_0 + u + a) * b == h * (rg_rA r * rg_rB r * qe_Zt q) + c &
      k * rg_gamma r == rg_gamma r * rg_beta r * (rg_rA r * (qe_At q)`_0 + u + a + c + b)]].
Proof. exact (@ads_scalars F P D M cs i r chunks pk vk sak labels). Qed.
Print Assumptions C46_verdict.

(** The public verifier rejects by an assertion if there is not one tag per
    label.  Neither verifier checks the number of labels against the key: the
    one with the secret key reads out of bounds if there are too many. *)
Theorem C46_label_count_refuted (F : fieldType) (P : pairing F) (M : auth_methods P) (vk : ads_verification_key P)
    (pi : ads_proof P) (sak : sec_auth_key M) (pak : pub_auth_key M) (labels : seq (am_label M)) tags :
  (size labels != size tags -> ads_verifier_pub vk tags pi pak labels = AssertFail) /\
  ((size (avk_Ain vk) < size labels)%N -> ads_verifier_sec vk pi sak labels = UB).
Proof. by split; [apply: pub_mismatch | apply: sec_too_many]. Qed.
Print Assumptions C46_label_count_refuted.

(** Built with DEBUG, the prover asserts that the first entries of its A-query
    are zero, which they are not: with distinct evaluation points, fewer than m
    honest keys let it get past that assertion on a satisfying assignment. *)
Theorem C46_debug_build_refuted (F : fieldType) (P : pairing F) (D : evaluation_domain F) (M : auth_methods P)
    (cs : r1cs F) (p a : seq F) (rs : seq (r1cs_gen_random F)) (chunks : nat) (i : F) :
  (num_constraints cs + num_inputs cs + 1 <= d_size D)%N ->
  r1cs_is_satisfied cs p a = Ok true -> G1_one P != 0 ->
  uniq [seq rg_t r | r <- rs] -> (forall r, List.In r rs -> rg_rA r != 0) ->
  (forall r, List.In r rs -> exists pk vk, ads_generator D cs (i *: G1_one P) r chunks = Ok (pk, vk) /\
     exists (tags : seq (auth_data M)) d, ads_prover D true pk p a tags d <> AssertFail) ->
  (size rs < d_size D)%N.
Proof. exact (@ads_debug_bound F P D M cs p a rs chunks i). Qed.
Print Assumptions C46_debug_build_refuted.

(** * Non-vacuity *)

(** A toy scheme over F_11: labels are numbers, and a signature of (l, L) under
    the key k is (k, l, L). *)
Section Toy.
Notation G := (F11 : Type).
Definition toy_verif (k l : nat) (L : G) (s : nat * nat * G) : bool := s == (k, l, L).
Fixpoint toy_batch (k : nat) (ls : seq nat) (Ls : seq G) (ss : seq (nat * nat * G)) : bool :=
  match ls, Ls, ss with
  | [::], [::], [::] => true
  | l :: ls, L :: Ls, s :: ss => toy_verif k l L s && toy_batch k ls Ls ss
  | _, _, _ => false
  end.
Lemma toy_sign_ok (sk vk : nat) : sk = vk -> forall l (L : G), toy_verif vk l L (sk, l, L).
Proof. by move=> -> l L; exact: eqxx. Qed.
Lemma toy_batch_ok (sk vk : nat) : sk = vk -> forall ls (Lam : nat -> G),
  toy_batch vk ls (map Lam ls) (map (fun l => (sk, l, Lam l)) ls).
Proof. by move=> -> ls Lam; elim: ls => [|l ls IH] //=; rewrite IH /toy_verif eqxx. Qed.
Definition toy_auth : auth_methods (toy_pairing F11) :=
  @AuthMethods F11 (toy_pairing F11) nat F11 (fun s l => s + l%:R) nat nat (nat * nat * G) eq
    (fun sk l L => (sk, l, L)) toy_verif toy_batch toy_sign_ok toy_batch_ok.
End Toy.

Definition ex_r46 : r1cs_gen_random F11 := R1csGenRandom 3%:R 2%:R 3%:R 4%:R 5%:R 6%:R 7%:R 8%:R.

(** x1 = 9 is authenticated under the label 4 and x2 = 3 is its square root. *)
Example C46_nonvacuous :
  let: (I1, pak, sak) := @auth_generator _ _ toy_auth 2%:R 7%N 7%N 5%:R in
  exists pk vk tags, [/\ ads_generator ex_domain11b (ex_square F11) I1 ex_r46 1 = Ok (pk, vk),
     r1cs_is_satisfied (ex_square F11) [:: 9%:R] [:: 3%:R] = Ok true,
     auth_sign [:: 9%:R] sak [:: 4%N] = Ok tags,
     (num_constraints (ex_square F11) + num_inputs (ex_square F11) + 1 <= d_size ex_domain11b)%N &
     [/\ (2%:R : F11) != 0, G1_one (toy_pairing F11) != 0, G2_one (toy_pairing F11) != 0,
        e (G1_one (toy_pairing F11)) (G2_one (toy_pairing F11)) != 0 &
        forall x : G1 (toy_pairing F11), e x (G2_one (toy_pairing F11)) = 0 -> x = 0]].
Proof.
rewrite /=; have hr : r1cs_in_range (ex_square F11) by [].
have hm : (num_constraints (ex_square F11) + num_inputs (ex_square F11) + 1 <= d_size ex_domain11b)%N by [].
have [pk [vk hg]] := @C46_generator_total F11 (toy_pairing F11) ex_domain11b _ 2%:R ex_r46 1 hr hm.
exists pk, vk, [seq tag_of (@SecAuthKey _ _ toy_auth 2%:R 7%N 5%:R) x.1 x.2 | x <- zip [:: 4%N] [:: 9%:R : F11]].
split=> //; split=> // x; rewrite /e /= /toy_e mulr1 //.
Qed.

(** Honest keys on which the assertion fails exist: more than m of them have
    distinct points and rA different from 0. *)
Example C46_debug_nonvacuous :
  [/\ uniq [seq rg_t r | r <- ex_rs], all (fun r => rg_rA r != 0) ex_rs & (d_size ex_domain11b <= size ex_rs)%N].
Proof. by vm_compute. Qed.
