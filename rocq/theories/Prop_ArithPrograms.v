(** Properties C08-C12: reductions to quadratic, square and square span
    arithmetic programs.  In every theorem [D] is any evaluation domain with at
    least as many points as the code asks [get_evaluation_domain] for. *)
From mathcomp Require Import all_ssreflect all_algebra.
From Verif Require Import Outcome Lincomb LincombSpec R1CS R1CSSpec R1CSFacts Prop_Relations Prop_Circuits
  Domain DomainFacts ArithPrograms ArithSpec ArithFacts QapFacts SapFacts SspFacts.
Import GRing.Theory.
Set Implicit Arguments.
Unset Strict Implicit.
Unset Printing Implicit Defensive.
Local Open Scope ring_scope.

(** * C08 *)

(** The witness map succeeds on every satisfying input, its witness carries the
    inputs, the blinding values and m+1 coefficients of H, and both checks
    accept it at every point t. *)
Theorem C08_qap_complete (F : fieldType) (D : evaluation_domain F) (cs : r1cs F)
    (p a : seq F) (d1 d2 d3 : F) :
  (num_constraints cs + num_inputs cs + 1 <= d_size D)%N ->
  r1cs_is_satisfied cs p a = Ok true ->
  exists2 w : qap_witness F,
    r1cs_to_qap_witness_map D cs p a d1 d2 d3 = Ok w &
    [/\ qw_ABCs w = p ++ a, size (qw_H w) = (d_size D).+1,
        [/\ qw_d1 w = d1, qw_d2 w = d2 & qw_d3 w = d3] &
        forall t, exists q qe,
          [/\ r1cs_to_qap_instance_map D cs = Ok q,
              r1cs_to_qap_instance_map_with_evaluation D cs t = Ok qe,
              qap_is_satisfied q t w = Ok true & qap_eval_is_satisfied qe w]].
Proof. exact (@qap_completeness F D cs p a d1 d2 d3). Qed.
Print Assumptions C08_qap_complete.

(** * C09 *)

(** Divisibility of A*B-C by Z holds exactly when the assignment satisfies the
    constraint system. *)
Theorem C09_qap_divisibility (F : fieldType) (D : evaluation_domain F) (cs : r1cs F) (x : seq F) :
  r1cs_in_range cs -> (num_constraints cs + num_inputs cs + 1 <= d_size D)%N ->
  size x = num_variables cs ->
  qap_divisible D cs x <-> r1cs_holds cs x.
Proof. exact (fun hr hm hx => @qap_divisible_iff F D cs hr hm x hx). Qed.
Print Assumptions C09_qap_divisibility.

(** Whatever witness a prover supplies for inputs that do not satisfy the
    system, at most 2m evaluation points accept it, for either check. *)
Theorem C09_qap_sound (F : fieldType) (D : evaluation_domain F) (cs : r1cs F) (p a : seq F)
    (w : qap_witness F) (ts : seq F) :
  (num_constraints cs + num_inputs cs + 1 <= d_size D)%N ->
  r1cs_in_range cs -> ~ r1cs_holds cs (p ++ a) ->
  qw_ABCs w = p ++ a -> uniq ts ->
  (forall t, t \in ts ->
     (exists2 qe, r1cs_to_qap_instance_map_with_evaluation D cs t = Ok qe & qap_eval_is_satisfied qe w) \/
     (exists2 q, r1cs_to_qap_instance_map D cs = Ok q & qap_is_satisfied q t w = Ok true)) ->
  (size ts <= 2 * d_size D)%N.
Proof. exact (@qap_soundness F D cs p a w ts). Qed.
Print Assumptions C09_qap_sound.

(** * C10 *)

(** For each of the three reductions: every column evaluated by the evaluated
    map is the value at t of the polynomial given by the sparse column of the
    plain map, and both instances give the same verdict on every witness. *)
Theorem C10_qap_columns (F : fieldType) (D : evaluation_domain F) (cs : r1cs F) (t : F) :
  r1cs_in_range cs -> (num_constraints cs + num_inputs cs + 1 <= d_size D)%N ->
  exists q qe,
  [/\ r1cs_to_qap_instance_map D cs = Ok q,
      r1cs_to_qap_instance_map_with_evaluation D cs t = Ok qe,
      (forall k P, (k <= num_variables cs)%N ->
        [/\ column_polynomial D (nth [::] (q_A q) k) P -> (qe_At qe)`_k = P.[t],
            column_polynomial D (nth [::] (q_B q) k) P -> (qe_Bt qe)`_k = P.[t] &
            column_polynomial D (nth [::] (q_C q) k) P -> (qe_Ct qe)`_k = P.[t]]),
      (forall i, (i <= d_size D)%N -> (qe_Ht qe)`_i = t ^+ i) /\ qe_Zt qe = (vanishing (d_points D)).[t] &
      forall w : qap_witness F, qap_is_satisfied q t w = Ok (qap_eval_is_satisfied qe w)].
Proof. exact (fun hr hm => @qap_columns F D cs hr hm t). Qed.
Print Assumptions C10_qap_columns.

Theorem C10_sap_columns (F : fieldType) (D : evaluation_domain F) (cs : r1cs F) (t : F) :
  r1cs_in_range cs -> (2 * num_constraints cs + 2 * num_inputs cs + 1 <= d_size D)%N ->
  exists q qe,
  [/\ r1cs_to_sap_instance_map D cs = Ok q,
      r1cs_to_sap_instance_map_with_evaluation D cs t = Ok qe,
      (forall k P, (k <= num_variables cs + num_constraints cs + num_inputs cs)%N ->
        (column_polynomial D (nth [::] (s_A q) k) P -> (se_At qe)`_k = P.[t]) /\
        (column_polynomial D (nth [::] (s_C q) k) P -> (se_Ct qe)`_k = P.[t])),
      (forall i, (i <= d_size D)%N -> (se_Ht qe)`_i = t ^+ i) /\ se_Zt qe = (vanishing (d_points D)).[t] &
      forall w : sap_witness F, sap_is_satisfied q t w = Ok (sap_eval_is_satisfied qe w)].
Proof. exact (fun hr hm => @sap_columns F D cs hr hm t). Qed.
Print Assumptions C10_sap_columns.

Theorem C10_ssp_columns (F : fieldType) (D : evaluation_domain F) (cs : uscs F) (t : F) :
  uscs_in_range cs -> (0 < d_size D)%N && (u_num_constraints cs <= d_size D)%N ->
  exists q qe,
  [/\ uscs_to_ssp_instance_map D cs = Ok q,
      uscs_to_ssp_instance_map_with_evaluation D cs t = Ok qe,
      (forall k P, (k <= u_num_variables cs)%N ->
        column_polynomial D (nth [::] (p_V q) k) P -> (pe_Vt qe)`_k = P.[t]),
      (forall i, (i <= d_size D)%N -> (pe_Ht qe)`_i = t ^+ i) /\ pe_Zt qe = (vanishing (d_points D)).[t] &
      forall w : ssp_witness F, ssp_is_satisfied q t w = Ok (ssp_eval_is_satisfied qe w)].
Proof. exact (fun hr hm => @ssp_columns F D cs hr hm t). Qed.
Print Assumptions C10_ssp_columns.

(** * C11 *)

Theorem C11_sap_complete (F : fieldType) (D : evaluation_domain F) (cs : r1cs F)
    (p a : seq F) (d1 d2 : F) :
  (2 * num_constraints cs + 2 * num_inputs cs + 1 <= d_size D)%N ->
  r1cs_is_satisfied cs p a = Ok true ->
  exists2 w : sap_witness F,
    r1cs_to_sap_witness_map D cs p a d1 d2 = Ok w &
    [/\ take (num_variables cs) (sw_ACs w) = p ++ a, size (sw_H w) = (d_size D).+1,
        sw_d1 w = d1 /\ sw_d2 w = d2 &
        forall t, exists q qe,
          [/\ r1cs_to_sap_instance_map D cs = Ok q,
              r1cs_to_sap_instance_map_with_evaluation D cs t = Ok qe,
              sap_is_satisfied q t w = Ok true & sap_eval_is_satisfied qe w]].
Proof. exact (@sap_completeness F D cs p a d1 d2). Qed.
Print Assumptions C11_sap_complete.

(** The assignment extends to the additional variables of the SAP exactly when
    it satisfies the R1CS. *)
Theorem C11_sap_extension (F : fieldType) (D : evaluation_domain F) (cs : r1cs F) (x : seq F) :
  2%:R != 0 :> F -> r1cs_in_range cs ->
  (2 * num_constraints cs + 2 * num_inputs cs + 1 <= d_size D)%N ->
  size x = num_variables cs ->
  (exists2 e, size e = (num_constraints cs + num_inputs cs)%N & sap_divisible D cs (x ++ e))
  <-> r1cs_holds cs x.
Proof. exact (fun h2 hr hm hx => @sap_divisible_extension F D cs hr hm h2 x hx). Qed.
Print Assumptions C11_sap_extension.

Theorem C11_sap_sound (F : fieldType) (D : evaluation_domain F) (cs : r1cs F) (p a : seq F)
    (w : sap_witness F) (ts : seq F) :
  2%:R != 0 :> F ->
  (2 * num_constraints cs + 2 * num_inputs cs + 1 <= d_size D)%N ->
  r1cs_in_range cs -> ~ r1cs_holds cs (p ++ a) ->
  take (num_variables cs) (sw_ACs w) = p ++ a -> uniq ts ->
  (forall t, t \in ts ->
     (exists2 qe, r1cs_to_sap_instance_map_with_evaluation D cs t = Ok qe & sap_eval_is_satisfied qe w) \/
     (exists2 q, r1cs_to_sap_instance_map D cs = Ok q & sap_is_satisfied q t w = Ok true)) ->
  (size ts <= 2 * d_size D)%N.
Proof. exact (@sap_soundness F D cs p a w ts). Qed.
Print Assumptions C11_sap_sound.

(** * C12 *)

Theorem C12_ssp_complete (F : fieldType) (D : evaluation_domain F) (cs : uscs F)
    (p a : seq F) (d : F) :
  (0 < d_size D)%N && (u_num_constraints cs <= d_size D)%N ->
  uscs_is_satisfied cs p a = Ok true ->
  exists2 w : ssp_witness F,
    uscs_to_ssp_witness_map D cs p a d = Ok w &
    [/\ pw_Vs w = p ++ a, size (pw_H w) = (d_size D).+1, pw_d w = d &
        forall t, exists q qe,
          [/\ uscs_to_ssp_instance_map D cs = Ok q,
              uscs_to_ssp_instance_map_with_evaluation D cs t = Ok qe,
              ssp_is_satisfied q t w = Ok true & ssp_eval_is_satisfied qe w]].
Proof. exact (@ssp_completeness F D cs p a d). Qed.
Print Assumptions C12_ssp_complete.

Theorem C12_ssp_divisibility (F : fieldType) (D : evaluation_domain F) (cs : uscs F) (x : seq F) :
  uscs_in_range cs -> (0 < d_size D)%N && (u_num_constraints cs <= d_size D)%N ->
  size x = u_num_variables cs ->
  ssp_divisible D cs x <-> uscs_holds cs x.
Proof. exact (fun hr hm hx => @ssp_divisible_iff F D cs hr hm x hx). Qed.
Print Assumptions C12_ssp_divisibility.

Theorem C12_ssp_sound (F : fieldType) (D : evaluation_domain F) (cs : uscs F) (p a : seq F)
    (w : ssp_witness F) (ts : seq F) :
  (0 < d_size D)%N && (u_num_constraints cs <= d_size D)%N ->
  uscs_in_range cs -> ~ uscs_holds cs (p ++ a) ->
  pw_Vs w = p ++ a -> uniq ts ->
  (forall t, t \in ts ->
     (exists2 qe, uscs_to_ssp_instance_map_with_evaluation D cs t = Ok qe & ssp_eval_is_satisfied qe w) \/
     (exists2 q, uscs_to_ssp_instance_map D cs = Ok q & ssp_is_satisfied q t w = Ok true)) ->
  (size ts <= 2 * d_size D)%N.
Proof. exact (@ssp_soundness F D cs p a w ts). Qed.
Print Assumptions C12_ssp_sound.

(** * The hypotheses are met *)

Lemma ex_coset7 : all (fun x => (vanishing ([:: 1; 2%:R; 4%:R] : seq F7)).[3%:R * x] != 0)
                      ([:: 1; 2%:R; 4%:R] : seq F7).
Proof. by rewrite /= /vanishing !horner_prod !big_cons !big_nil !hornerXsubC; vm_compute. Qed.
(** The cube roots of unity of F_7, coset by 3. *)
Definition ex_domain7 : evaluation_domain F7 :=
  @EvaluationDomain F7 [:: 1; 2%:R; 4%:R] 3%:R isT isT ex_coset7.
(** x2 * x2 = x1 *)
Definition ex_square (F : fieldType) : r1cs F :=
  R1cs 1 1 [:: R1csConstraint [:: (2%N, 1)] [:: (2%N, 1)] [:: (1%N, 1)]].

Example C08_C09_nonvacuous :
  (num_constraints (ex_square F7) + num_inputs (ex_square F7) + 1 <= d_size ex_domain7)%N /\
  r1cs_in_range (ex_square F7) /\
  r1cs_is_satisfied (ex_square F7) [:: 2%:R] [:: 3%:R] = Ok true /\
  r1cs_is_satisfied (ex_square F7) [:: 2%:R] [:: 5%:R] = Ok false.
Proof. by repeat split; vm_compute. Qed.

Lemma ex_coset11 : all (fun x => (vanishing ([:: 1; 3%:R; 4%:R; 5%:R; 9%:R] : seq F11)).[2%:R * x] != 0)
                       ([:: 1; 3%:R; 4%:R; 5%:R; 9%:R] : seq F11).
Proof. by rewrite /= /vanishing !horner_prod !big_cons !big_nil !hornerXsubC; vm_compute. Qed.
(** The fifth roots of unity of F_11, coset by 2. *)
Definition ex_domain11 : evaluation_domain F11 :=
  @EvaluationDomain F11 [:: 1; 3%:R; 4%:R; 5%:R; 9%:R] 2%:R isT isT ex_coset11.
Example C10_C11_nonvacuous :
  (2%:R : F11) != 0 /\
  (2 * num_constraints (ex_square F11) + 2 * num_inputs (ex_square F11) + 1 <= d_size ex_domain11)%N /\
  r1cs_in_range (ex_square F11) /\
  r1cs_is_satisfied (ex_square F11) [:: 9%:R] [:: 3%:R] = Ok true /\
  r1cs_is_satisfied (ex_square F11) [:: 9%:R] [:: 4%:R] = Ok false.
Proof. by repeat split; vm_compute. Qed.

(** (x1 + x2)^2 = 1 and x2^2 = 1 *)
Definition ex_uscs7 : uscs F7 := Uscs 1 1 [:: [:: (1%N, 1); (2%N, 1)]; [:: (2%N, 1)]].
Example C12_nonvacuous :
  (0 < d_size ex_domain7)%N && (u_num_constraints ex_uscs7 <= d_size ex_domain7)%N /\
  uscs_in_range ex_uscs7 /\
  uscs_is_satisfied ex_uscs7 [:: 2%:R] [:: 6%:R] = Ok true /\
  uscs_is_satisfied ex_uscs7 [:: 2%:R] [:: 1] = Ok false.
Proof. by repeat split; vm_compute. Qed.
