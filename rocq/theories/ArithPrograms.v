(** Model of QAP, SAP and SSP instances and witnesses and of the reductions to
    them: libsnark/relations/arithmetic_programs/{qap,sap,ssp}/*.tcc and
    libsnark/reductions/{r1cs_to_qap,r1cs_to_sap,uscs_to_ssp}/*.tcc.

    - [get_evaluation_domain(n)] (libfqfft) may return any domain with at least
      [n] points; the domain is a parameter [D] of every function here and the
      theorems assume the bound.
    - [FieldT::random_element()] in [is_satisfied] is a parameter [t].
    - [std::map<size_t,FieldT>] is an association list; it is only iterated
      over to form a sum.
    - Nested loops that update several vectors are given, per vector, as the
      list of updates in program order; [x -= y] is the update with [-y], and
      [times_four(u*c)] the update with coefficient [times_four(c)].
    - [OpenMP] pragmas and profiling calls are ignored. *)
From mathcomp Require Import all_ssreflect all_algebra.
From Verif Require Import Outcome Lincomb R1CS Domain.
Set Implicit Arguments.
Unset Strict Implicit.
Unset Printing Implicit Defensive.
Import GRing.Theory.
Local Open Scope ring_scope.

Section ArithPrograms.
Variable F : fieldType.
Implicit Types (D : evaluation_domain F) (u v w : seq F) (t d : F).

(** ** Sparse rows *)

(** [std::map<size_t, FieldT>]. *)
Definition smap := seq (nat * F).
(** [m[k] += c] (an absent key reads as zero and is inserted). *)
Fixpoint smap_add (m : smap) (k : nat) (c : F) : smap :=
  match m with
  | [::] => [:: (k, 0 + c)]
  | e :: m' => if e.1 == k then (k, e.2 + c) :: m' else e :: smap_add m' k c
  end.
(** [m[k] = c]. *)
Fixpoint smap_set (m : smap) (k : nat) (c : F) : smap :=
  match m with
  | [::] => [:: (k, c)]
  | e :: m' => if e.1 == k then (k, c) :: m' else e :: smap_set m' k c
  end.

(** (variable, row, coefficient) *)
Definition update : Type := nat * nat * F.

(** [P_in_Lagrange_basis[var][row] += c] and [... = c]. *)
Definition lagrange_add (P : seq smap) (e : update) : outcome (seq smap) :=
  let: (var, row, c) := e in
  let! m := oget P var in oput P var (smap_add m row c).
Definition lagrange_set (P : seq smap) (e : update) : outcome (seq smap) :=
  let: (var, row, c) := e in
  let! m := oget P var in oput P var (smap_set m row c).

(** [Pt[var] += u[row] * c] and [Pt[var] = u[row]]. *)
Definition eval_add u (Pt : seq F) (e : update) : outcome (seq F) :=
  let: (var, row, c) := e in
  let! x := oget u row in let! y := oget Pt var in oput Pt var (y + x * c).
Definition eval_set u (Pt : seq F) (e : nat * nat) : outcome (seq F) :=
  let! x := oget u e.2 in oput Pt e.1 x.

(** [v[k] += x] and [v[k] = x]. *)
Definition vec_add v (e : nat * F) : outcome (seq F) :=
  let! y := oget v e.1 in oput v e.1 (y + e.2).
Definition vec_set v (e : nat * F) : outcome (seq F) := oput v e.1 e.2.

(** [P(t)] from the Lagrange basis: qap.tcc:95-111, sap.tcc:87-98, ssp.tcc:81-87. *)
Definition lagrange_at u (m : smap) : outcome F :=
  ofold (fun acc e => omap (fun x => acc + x * e.2) (oget u e.1)) 0 m.

(** [Ht[i] = ti; ti *= t]: qap.tcc:113-118, r1cs_to_qap.tcc:157-162. *)
Fixpoint powers_from (n : nat) ti t : seq F :=
  if n is n'.+1 then ti :: powers_from n' (ti * t) t else [::].
Definition powers (n : nat) t : seq F := powers_from n 1 t.

(** libff::inner_product over two ranges of the same length. *)
Definition inner (a b : seq F) : F := foldl (fun acc p => acc + p.1 * p.2) 0 (zip a b).

(** r1cs_to_sap.tcc:25-30 [times_four]. *)
Definition times_four (x : F) : F := let y := x + x in y + y.

(** The enumerated constraints. *)
Definition enum_from0 (A : Type) (l : seq A) : seq (nat * A) := zip (iota 0 (size l)) l.

(** ** Zero-knowledge patch and quotient, shared by the three witness maps:
    the loops of r1cs_to_qap.tcc:255-338, r1cs_to_sap.tcc:347-432 and
    uscs_to_ssp.tcc:157-206. *)
Definition patch_init (m : nat) (f : nat -> F) : seq F :=
  mkseq (fun i => if (i < m)%N then f i else 0) m.+1.
Definition sub_first (H : seq F) d : seq F := if H is h :: H' then (h - d) :: H' else H.
Definition add_first_m (m : nat) (H v : seq F) : seq F :=
  mkseq (fun i => if (i < m)%N then H`_i + v`_i else H`_i) (size H).

(** ** QAP *)

(** qap.hpp:64-108 [qap_instance]. *)
Record qap_instance := QapInstance {
  q_num_variables : nat; q_degree : nat; q_num_inputs : nat;
  q_domain : evaluation_domain F;
  q_A : seq smap; q_B : seq smap; q_C : seq smap }.
(** qap.hpp:121-179 [qap_instance_evaluation]. *)
Record qap_evaluation := QapEvaluation {
  qe_num_variables : nat; qe_degree : nat; qe_num_inputs : nat;
  qe_domain : evaluation_domain F;
  qe_t : F; qe_At : seq F; qe_Bt : seq F; qe_Ct : seq F; qe_Ht : seq F; qe_Zt : F }.
(** qap.hpp:184-224 [qap_witness]. *)
Record qap_witness := QapWitness {
  qw_num_variables : nat; qw_degree : nat; qw_num_inputs : nat;
  qw_d1 : F; qw_d2 : F; qw_d3 : F; qw_ABCs : seq F; qw_H : seq F }.

(** qap.tcc:197-272 [qap_instance_evaluation::is_satisfied]. *)
Definition qap_eval_is_satisfied (q : qap_evaluation) (w : qap_witness) : bool :=
  if qe_num_variables q != qw_num_variables w then false else
  if qe_degree q != qw_degree w then false else
  if qe_num_inputs q != qw_num_inputs w then false else
  if qe_num_variables q != size (qw_ABCs w) then false else
  if (qe_degree q).+1 != size (qw_H w) then false else
  if [|| size (qe_At q) != (qe_num_variables q).+1, size (qe_Bt q) != (qe_num_variables q).+1 |
         size (qe_Ct q) != (qe_num_variables q).+1] then false else
  if size (qe_Ht q) != (qe_degree q).+1 then false else
  if qe_Zt q != compute_vanishing_polynomial (qe_domain q) (qe_t q) then false else
  let ans_A := (qe_At q)`_0 + qw_d1 w * qe_Zt q + inner (behead (qe_At q)) (qw_ABCs w) in
  let ans_B := (qe_Bt q)`_0 + qw_d2 w * qe_Zt q + inner (behead (qe_Bt q)) (qw_ABCs w) in
  let ans_C := (qe_Ct q)`_0 + qw_d3 w * qe_Zt q + inner (behead (qe_Ct q)) (qw_ABCs w) in
  let ans_H := 0 + inner (qe_Ht q) (qw_H w) in
  if ans_A * ans_B - ans_C != ans_H * qe_Zt q then false else true.

(** qap.tcc:80-131 [qap_instance::is_satisfied]; [t] is the random element.
    The loop runs over the [num_variables+1] entries. *)
Definition qap_is_satisfied (q : qap_instance) t (w : qap_witness) : outcome bool :=
  let Zt := compute_vanishing_polynomial (q_domain q) t in
  let u := evaluate_all_lagrange_polynomials (q_domain q) t in
  let at_t P := omapm (fun i => obind (oget P i) (lagrange_at u)) (iota 0 (q_num_variables q).+1) in
  let! At := at_t (q_A q) in
  let! Bt := at_t (q_B q) in
  let! Ct := at_t (q_C q) in
  Ok (qap_eval_is_satisfied
        (QapEvaluation (q_num_variables q) (q_degree q) (q_num_inputs q) (q_domain q) t
                       At Bt Ct (powers (q_degree q).+1 t) Zt) w).

(** r1cs_to_qap.tcc:57-76, one of the three inner loops. *)
Definition qap_updates (sel : r1cs_constraint F -> linear_combination F) (cs : r1cs F) : seq update :=
  flatten [seq [seq (lt_index tm, p.1, lt_coeff tm) | tm <- sel p.2] | p <- enum_from0 (constraints cs)].

(** r1cs_to_qap.tcc:35-88 [r1cs_to_qap_instance_map]. *)
Definition r1cs_to_qap_instance_map D (cs : r1cs F) : outcome qap_instance :=
  let zero := nseq (num_variables cs).+1 [::] in
  let! A0 := ofold lagrange_set zero
               [seq (i, (num_constraints cs + i)%N, 1) | i <- iota 0 (num_inputs cs).+1] in
  let! A := ofold lagrange_add A0 (qap_updates (@c_a F) cs) in
  let! B := ofold lagrange_add zero (qap_updates (@c_b F) cs) in
  let! C := ofold lagrange_add zero (qap_updates (@c_c F) cs) in
  Ok (QapInstance (num_variables cs) (d_size D) (num_inputs cs) D A B C).

(** r1cs_to_qap.tcc:105-178 [r1cs_to_qap_instance_map_with_evaluation]. *)
Definition qap_eval_updates (sel : r1cs_constraint F -> linear_combination F) (cs : r1cs F) :
    seq update :=
  flatten [seq [seq (lt_index tm, p.1, lt_coeff tm) | tm <- sel p.2] | p <- enum_from0 (constraints cs)].

Definition r1cs_to_qap_instance_map_with_evaluation D (cs : r1cs F) t : outcome qap_evaluation :=
  let zero := nseq (num_variables cs).+1 0 in
  let Zt := compute_vanishing_polynomial D t in
  let u := evaluate_all_lagrange_polynomials D t in
  let! At0 := ofold (eval_set u) zero
               [seq (i, (num_constraints cs + i)%N) | i <- iota 0 (num_inputs cs).+1] in
  let! At := ofold (eval_add u) At0 (qap_eval_updates (@c_a F) cs) in
  let! Bt := ofold (eval_add u) zero (qap_eval_updates (@c_b F) cs) in
  let! Ct := ofold (eval_add u) zero (qap_eval_updates (@c_c F) cs) in
  Ok (QapEvaluation (num_variables cs) (d_size D) (num_inputs cs) D t At Bt Ct
                    (powers (d_size D).+1 t) Zt).

(** [v[i] += cs.constraints[i].sel.evaluate(full)] for every constraint. *)
Definition add_evaluations (sel : r1cs_constraint F -> linear_combination F) (cs : r1cs F)
    (full v : seq F) : outcome (seq F) :=
  ofold (fun v p => let! x := evaluate (sel p.2) full in vec_add v (p.1, x)) v
        (enum_from0 (constraints cs)).

(** r1cs_to_qap.tcc:211-354 [r1cs_to_qap_witness_map]. *)
Definition r1cs_to_qap_witness_map D (cs : r1cs F) (primary auxiliary : seq F) d1 d2 d3 :
    outcome qap_witness :=
  let! sat := r1cs_is_satisfied cs primary auxiliary in
  assert! sat in
  let m := d_size D in
  let full := primary ++ auxiliary in
  let! aA := ofold (fun v i =>
                let! x := (if i is i'.+1 then oget full i' else Ok 1) in
                vec_set v ((i + num_constraints cs)%N, x))
              (nseq m 0) (iota 0 (num_inputs cs).+1) in
  let! aA := add_evaluations (@c_a F) cs full aA in
  let! aB := add_evaluations (@c_b F) cs full (nseq m 0) in
  let cA := iFFT D aA in
  let cB := iFFT D aB in
  let H := patch_init m (fun i => d2 * cA`_i + d1 * cB`_i) in
  let H := sub_first H d3 in
  let H := add_poly_Z D (d1 * d2) H in
  let tA := cosetFFT D cA in
  let tB := cosetFFT D cB in
  let H_tmp := mkseq (fun i => tA`_i * tB`_i) m in
  let! aC := add_evaluations (@c_c F) cs full (nseq m 0) in
  let tC := cosetFFT D (iFFT D aC) in
  let H_tmp := mkseq (fun i => H_tmp`_i - tC`_i) m in
  let H_tmp := icosetFFT D (divide_by_Z_on_coset D H_tmp) in
  let H := add_first_m m H H_tmp in
  Ok (QapWitness (num_variables cs) m (num_inputs cs) d1 d2 d3 full H).

(** ** SAP *)

(** sap.hpp [sap_instance], [sap_instance_evaluation], [sap_witness]. *)
Record sap_instance := SapInstance {
  s_num_variables : nat; s_degree : nat; s_num_inputs : nat;
  s_domain : evaluation_domain F; s_A : seq smap; s_C : seq smap }.
Record sap_evaluation := SapEvaluation {
  se_num_variables : nat; se_degree : nat; se_num_inputs : nat;
  se_domain : evaluation_domain F;
  se_t : F; se_At : seq F; se_Ct : seq F; se_Ht : seq F; se_Zt : F }.
Record sap_witness := SapWitness {
  sw_num_variables : nat; sw_degree : nat; sw_num_inputs : nat;
  sw_d1 : F; sw_d2 : F; sw_ACs : seq F; sw_H : seq F }.

(** sap.tcc:182-252 [sap_instance_evaluation::is_satisfied]. *)
Definition sap_eval_is_satisfied (q : sap_evaluation) (w : sap_witness) : bool :=
  if se_num_variables q != sw_num_variables w then false else
  if se_degree q != sw_degree w then false else
  if se_num_inputs q != sw_num_inputs w then false else
  if se_num_variables q != size (sw_ACs w) then false else
  if (se_degree q).+1 != size (sw_H w) then false else
  if (size (se_At q) != (se_num_variables q).+1) || (size (se_Ct q) != (se_num_variables q).+1)
  then false else
  if size (se_Ht q) != (se_degree q).+1 then false else
  if se_Zt q != compute_vanishing_polynomial (se_domain q) (se_t q) then false else
  let ans_A := (se_At q)`_0 + sw_d1 w * se_Zt q + inner (behead (se_At q)) (sw_ACs w) in
  let ans_C := (se_Ct q)`_0 + sw_d2 w * se_Zt q + inner (behead (se_Ct q)) (sw_ACs w) in
  let ans_H := 0 + inner (se_Ht q) (sw_H w) in
  if ans_A * ans_A - ans_C != ans_H * se_Zt q then false else true.

(** sap.tcc:74-117 [sap_instance::is_satisfied]. *)
Definition sap_is_satisfied (q : sap_instance) t (w : sap_witness) : outcome bool :=
  let Zt := compute_vanishing_polynomial (s_domain q) t in
  let u := evaluate_all_lagrange_polynomials (s_domain q) t in
  let at_t P := omapm (fun i => obind (oget P i) (lagrange_at u)) (iota 0 (s_num_variables q).+1) in
  let! At := at_t (s_A q) in
  let! Ct := at_t (s_C q) in
  Ok (sap_eval_is_satisfied
        (SapEvaluation (s_num_variables q) (s_degree q) (s_num_inputs q) (s_domain q) t
                       At Ct (powers (s_degree q).+1 t) Zt) w).

Definition sap_num_vars (cs : r1cs F) : nat :=
  (num_variables cs + num_constraints cs + num_inputs cs)%N.

(** r1cs_to_sap.tcc:84-104, the updates of A and of C for constraint [i]. *)
Definition sap_A_updates (cs : r1cs F) : seq update :=
  flatten [seq let i := p.1 in
     flatten [seq [:: (lt_index tm, (2 * i)%N, lt_coeff tm);
                      (lt_index tm, (2 * i + 1)%N, lt_coeff tm)] | tm <- c_a p.2] ++
     flatten [seq [:: (lt_index tm, (2 * i)%N, lt_coeff tm);
                      (lt_index tm, (2 * i + 1)%N, - lt_coeff tm)] | tm <- c_b p.2]
   | p <- enum_from0 (constraints cs)].
Definition sap_C_updates (cs : r1cs F) : seq update :=
  let extra_var_offset := (num_variables cs + 1)%N in
  flatten [seq let i := p.1 in
     [seq (lt_index tm, (2 * i)%N, times_four (lt_coeff tm)) | tm <- c_c p.2] ++
     [:: ((extra_var_offset + i)%N, (2 * i)%N, 1);
         ((extra_var_offset + i)%N, (2 * i + 1)%N, 1)]
   | p <- enum_from0 (constraints cs)].
(** r1cs_to_sap.tcc:140-154, the loop over the inputs [1..num_inputs]. *)
Definition sap_A_input_updates (cs : r1cs F) : seq update :=
  let off := (2 * num_constraints cs)%N in
  flatten [seq [:: (i, (off + 2 * i - 1)%N, 1); (0%N, (off + 2 * i - 1)%N, 1);
                   (i, (off + 2 * i)%N, 1); (0%N, (off + 2 * i)%N, - 1)]
   | i <- iota 1 (num_inputs cs)].
Definition sap_C_input_updates (cs : r1cs F) : seq update :=
  let off := (2 * num_constraints cs)%N in
  let extra_var_offset2 := (num_variables cs + num_constraints cs)%N in
  flatten [seq [:: (i, (off + 2 * i - 1)%N, times_four 1);
                   ((extra_var_offset2 + i)%N, (off + 2 * i - 1)%N, 1);
                   ((extra_var_offset2 + i)%N, (2 * num_constraints cs + 2 * i)%N, 1)]
   | i <- iota 1 (num_inputs cs)].

(** r1cs_to_sap.tcc:54-166 [r1cs_to_sap_instance_map]. *)
Definition r1cs_to_sap_instance_map D (cs : r1cs F) : outcome sap_instance :=
  let n := sap_num_vars cs in
  let off := (2 * num_constraints cs)%N in
  let! A := ofold lagrange_add (nseq n.+1 [::]) (sap_A_updates cs) in
  let! C := ofold lagrange_add (nseq n.+1 [::]) (sap_C_updates cs) in
  let! A := lagrange_set A (0%N, off, 1) in
  let! C := lagrange_set C (0%N, off, 1) in
  let! A := ofold lagrange_add A (sap_A_input_updates cs) in
  let! C := ofold lagrange_add C (sap_C_input_updates cs) in
  Ok (SapInstance n (d_size D) (num_inputs cs) D A C).

(** r1cs_to_sap.tcc:198-246, the updates of the evaluated variant. *)
Definition sap_eval_A_updates (cs : r1cs F) : seq update :=
  flatten [seq let i := p.1 in
     flatten [seq [:: (lt_index tm, (2 * i)%N, lt_coeff tm);
                      (lt_index tm, (2 * i + 1)%N, lt_coeff tm)] | tm <- c_a p.2] ++
     flatten [seq [:: (lt_index tm, (2 * i)%N, lt_coeff tm);
                      (lt_index tm, (2 * i + 1)%N, - lt_coeff tm)] | tm <- c_b p.2]
   | p <- enum_from0 (constraints cs)].
Definition sap_eval_C_updates (cs : r1cs F) : seq update :=
  let extra_var_offset := (num_variables cs + 1)%N in
  flatten [seq let i := p.1 in
     [seq (lt_index tm, (2 * i)%N, times_four (lt_coeff tm)) | tm <- c_c p.2] ++
     [:: ((extra_var_offset + i)%N, (2 * i)%N, 1);
         ((extra_var_offset + i)%N, (2 * i + 1)%N, 1)]
   | p <- enum_from0 (constraints cs)].
Definition sap_eval_A_input_updates (cs : r1cs F) : seq update :=
  let off := (2 * num_constraints cs)%N in
  flatten [seq [:: (i, (off + 2 * i - 1)%N, 1); (0%N, (off + 2 * i - 1)%N, 1);
                   (i, (off + 2 * i)%N, 1); (0%N, (off + 2 * i)%N, - 1)]
   | i <- iota 1 (num_inputs cs)].
Definition sap_eval_C_input_updates (cs : r1cs F) : seq update :=
  let off := (2 * num_constraints cs)%N in
  let extra_var_offset2 := (num_variables cs + num_constraints cs)%N in
  flatten [seq [:: (i, (off + 2 * i - 1)%N, times_four 1);
                   ((extra_var_offset2 + i)%N, (off + 2 * i - 1)%N, 1);
                   ((extra_var_offset2 + i)%N, (off + 2 * i)%N, 1)]
   | i <- iota 1 (num_inputs cs)].

(** r1cs_to_sap.tcc:172-267 [r1cs_to_sap_instance_map_with_evaluation]. *)
Definition r1cs_to_sap_instance_map_with_evaluation D (cs : r1cs F) t : outcome sap_evaluation :=
  let n := sap_num_vars cs in
  let off := (2 * num_constraints cs)%N in
  let Zt := compute_vanishing_polynomial D t in
  let u := evaluate_all_lagrange_polynomials D t in
  let! At := ofold (eval_add u) (nseq n.+1 0) (sap_eval_A_updates cs) in
  let! Ct := ofold (eval_add u) (nseq n.+1 0) (sap_eval_C_updates cs) in
  let! At := eval_add u At (0%N, off, 1) in
  let! Ct := eval_add u Ct (0%N, off, 1) in
  let! At := ofold (eval_add u) At (sap_eval_A_input_updates cs) in
  let! Ct := ofold (eval_add u) Ct (sap_eval_C_input_updates cs) in
  Ok (SapEvaluation n (d_size D) (num_inputs cs) D t At Ct (powers (d_size D).+1 t) Zt).

(** r1cs_to_sap.tcc:300-448 [r1cs_to_sap_witness_map]. *)
Definition r1cs_to_sap_witness_map D (cs : r1cs F) (primary auxiliary : seq F) d1 d2 :
    outcome sap_witness :=
  let! sat := r1cs_is_satisfied cs primary auxiliary in
  assert! sat in
  let m := d_size D in
  let nc := num_constraints cs in
  let off := (2 * nc)%N in
  let extra_var_offset := (num_variables cs + 1)%N in
  let extra_var_offset2 := (num_variables cs + nc)%N in
  let full := primary ++ auxiliary in
  (* lines 331-342: extra variables (a - b)^2 *)
  let! full := ofold (fun full c =>
                  let! a := evaluate (c_a c) full in
                  let! b := evaluate (c_b c) full in
                  Ok (rcons full ((a - b) * (a - b)))) full (constraints cs) in
  (* lines 343-353: extra variables (x_i - 1)^2 *)
  let! full := ofold (fun full i =>
                  let! x := oget full (i - 1) in
                  Ok (rcons full ((x - 1) * (x - 1)))) full (iota 1 (num_inputs cs)) in
  (* lines 355-382 *)
  let! aA := ofold (fun v p =>
                let: (i, c) := p in
                let! a := evaluate (c_a c) full in
                let! b := evaluate (c_b c) full in
                let! v := vec_add v ((2 * i)%N, a) in
                let! v := vec_add v ((2 * i)%N, b) in
                let! v := vec_add v ((2 * i + 1)%N, a) in
                vec_add v ((2 * i + 1)%N, - b))
              (nseq m 0) (enum_from0 (constraints cs)) in
  let! aA := vec_add aA (off, 1) in
  let! aA := ofold (fun v i =>
                let! x := oget full (i - 1) in
                let! v := vec_add v ((off + 2 * i - 1)%N, x) in
                let! v := vec_add v ((off + 2 * i - 1)%N, 1) in
                let! v := vec_add v ((off + 2 * i)%N, x) in
                vec_add v ((off + 2 * i)%N, - 1))
              aA (iota 1 (num_inputs cs)) in
  let cA := iFFT D aA in
  let H := patch_init m (fun i => d1 * cA`_i + d1 * cA`_i) in
  let H := sub_first H d2 in
  let H := add_poly_Z D (d1 * d1) H in
  let tA := cosetFFT D cA in
  let H_tmp := mkseq (fun i => tA`_i * tA`_i) m in
  (* lines 398-425 *)
  let! aC := ofold (fun v p =>
                let: (i, c) := p in
                let! x := evaluate (c_c c) full in
                let! e := oget full (extra_var_offset + i - 1) in
                let! v := vec_add v ((2 * i)%N, times_four x) in
                let! v := vec_add v ((2 * i)%N, e) in
                vec_add v ((2 * i + 1)%N, e))
              (nseq m 0) (enum_from0 (constraints cs)) in
  let! aC := vec_add aC (off, 1) in
  let! aC := ofold (fun v i =>
                let! x := oget full (i - 1) in
                let! e := oget full (extra_var_offset2 + i - 1) in
                let! v := vec_add v ((off + 2 * i - 1)%N, times_four x) in
                let! v := vec_add v ((off + 2 * i - 1)%N, e) in
                vec_add v ((off + 2 * i)%N, e))
              aC (iota 1 (num_inputs cs)) in
  let tC := cosetFFT D (iFFT D aC) in
  let H_tmp := mkseq (fun i => H_tmp`_i - tC`_i) m in
  let H_tmp := icosetFFT D (divide_by_Z_on_coset D H_tmp) in
  let H := add_first_m m H H_tmp in
  Ok (SapWitness (sap_num_vars cs) m (num_inputs cs) d1 d2 full H).

(** ** SSP *)

(** ssp.hpp [ssp_instance], [ssp_instance_evaluation], [ssp_witness]. *)
Record ssp_instance := SspInstance {
  p_num_variables : nat; p_degree : nat; p_num_inputs : nat;
  p_domain : evaluation_domain F; p_V : seq smap }.
Record ssp_evaluation := SspEvaluation {
  pe_num_variables : nat; pe_degree : nat; pe_num_inputs : nat;
  pe_domain : evaluation_domain F;
  pe_t : F; pe_Vt : seq F; pe_Ht : seq F; pe_Zt : F }.
Record ssp_witness := SspWitness {
  pw_num_variables : nat; pw_degree : nat; pw_num_inputs : nat;
  pw_d : F; pw_Vs : seq F; pw_H : seq F }.

(** ssp.tcc:165-228 [ssp_instance_evaluation::is_satisfied]. *)
Definition ssp_eval_is_satisfied (q : ssp_evaluation) (w : ssp_witness) : bool :=
  if pe_num_variables q != pw_num_variables w then false else
  if pe_degree q != pw_degree w then false else
  if pe_num_inputs q != pw_num_inputs w then false else
  if pe_num_variables q != size (pw_Vs w) then false else
  if (pe_degree q).+1 != size (pw_H w) then false else
  if size (pe_Vt q) != (pe_num_variables q).+1 then false else
  if size (pe_Ht q) != (pe_degree q).+1 then false else
  if pe_Zt q != compute_vanishing_polynomial (pe_domain q) (pe_t q) then false else
  let ans_V := (pe_Vt q)`_0 + pw_d w * pe_Zt q + inner (behead (pe_Vt q)) (pw_Vs w) in
  let ans_H := 0 + inner (pe_Ht q) (pw_H w) in
  if ans_V ^+ 2 - 1 != ans_H * pe_Zt q then false else true.

(** ssp.tcc:70-105 [ssp_instance::is_satisfied]. *)
Definition ssp_is_satisfied (q : ssp_instance) t (w : ssp_witness) : outcome bool :=
  let Zt := compute_vanishing_polynomial (p_domain q) t in
  let u := evaluate_all_lagrange_polynomials (p_domain q) t in
  let at_t P := omapm (fun i => obind (oget P i) (lagrange_at u)) (iota 0 (p_num_variables q).+1) in
  let! Vt := at_t (p_V q) in
  Ok (ssp_eval_is_satisfied
        (SspEvaluation (p_num_variables q) (p_degree q) (p_num_inputs q) (p_domain q) t
                       Vt (powers (p_degree q).+1 t) Zt) w).

(** uscs_to_ssp.tcc:32-64 [uscs_to_ssp_instance_map]. *)
Definition ssp_updates (cs : uscs F) : seq update :=
  flatten [seq [seq (lt_index tm, p.1, lt_coeff tm) | tm <- p.2] | p <- enum_from0 (u_constraints cs)].
Definition uscs_to_ssp_instance_map D (cs : uscs F) : outcome ssp_instance :=
  let nc := u_num_constraints cs in
  let! V := ofold lagrange_add (nseq (u_num_variables cs).+1 [::]) (ssp_updates cs) in
  let! V := ofold lagrange_add V [seq (0%N, i, 1) | i <- iota nc (d_size D - nc)] in
  Ok (SspInstance (u_num_variables cs) (d_size D) (u_num_inputs cs) D V).

(** uscs_to_ssp.tcc:79-121 [uscs_to_ssp_instance_map_with_evaluation]. *)
Definition ssp_eval_updates (cs : uscs F) : seq update :=
  flatten [seq [seq (lt_index tm, p.1, lt_coeff tm) | tm <- p.2] | p <- enum_from0 (u_constraints cs)].
Definition uscs_to_ssp_instance_map_with_evaluation D (cs : uscs F) t : outcome ssp_evaluation :=
  let nc := u_num_constraints cs in
  let Zt := compute_vanishing_polynomial D t in
  let u := evaluate_all_lagrange_polynomials D t in
  let! Vt := ofold (eval_add u) (nseq (u_num_variables cs).+1 0) (ssp_eval_updates cs) in
  let! Vt := ofold (eval_add u) Vt [seq (0%N, i, 1) | i <- iota nc (d_size D - nc)] in
  Ok (SspEvaluation (u_num_variables cs) (d_size D) (u_num_inputs cs) D t Vt
                    (powers (d_size D).+1 t) Zt).

(** uscs_to_ssp.tcc:149-244 [uscs_to_ssp_witness_map]. *)
Definition uscs_to_ssp_witness_map D (cs : uscs F) (primary auxiliary : seq F) d :
    outcome ssp_witness :=
  let! sat := uscs_is_satisfied cs primary auxiliary in
  assert! sat in
  let m := d_size D in
  let nc := u_num_constraints cs in
  let full := primary ++ auxiliary in
  assert! (nc <= m)%N in
  let! aA := ofold (fun v p => let! x := evaluate p.2 full in vec_add v (p.1, x))
               (nseq m 0) (enum_from0 (u_constraints cs)) in
  let! aA := ofold (fun v i => vec_add v (i, 1)) aA (iota nc (m - nc)) in
  let cA := iFFT D aA in
  let H := patch_init m (fun i => 2%:R * d * cA`_i) in
  let H := add_poly_Z D (d ^+ 2) H in
  let tA := cosetFFT D cA in
  let H_tmp := mkseq (fun i => tA`_i ^+ 2 - 1) m in
  let H_tmp := icosetFFT D (divide_by_Z_on_coset D H_tmp) in
  let H := add_first_m m H H_tmp in
  Ok (SspWitness (u_num_variables cs) m (u_num_inputs cs) d full H).

End ArithPrograms.

Global Arguments powers : simpl never.
Global Arguments patch_init : simpl never.
