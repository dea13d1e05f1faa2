(** Histories of protoboard operations, compared with a reference. *)
From mathcomp Require Import all_ssreflect all_algebra zify.
From Verif Require Import Outcome Lincomb LincombSpec LincombFacts R1CS R1CSSpec R1CSFacts.
From Verif Require Import Protoboard GadgetSpec GadgetLogic.
Set Implicit Arguments.
Unset Strict Implicit.
Unset Printing Implicit Defensive.
Local Open Scope ring_scope.
Import GRing.Theory.

Section History.
Variable F : fieldType.

(** The operations of the protoboard. *)
Inductive pb_op :=
| OpAllocate                                (* allocate a variable *)
| OpAssign of linear_combination F          (* allocate a linear combination *)
| OpSet of nat & F                          (* pb.val(v) = x *)
| OpClear                                   (* clear_values *)
| OpConstraint of r1cs_constraint F         (* add_r1cs_constraint *)
| OpInputs of nat.                          (* set_input_sizes *)

Definition pb_step (pb : protoboard F) (op : pb_op) : outcome (protoboard F) :=
  match op with
  | OpAllocate => Ok (allocate_var pb).2
  | OpAssign l => Ok (lc_assign pb l).2
  | OpSet v a => pb_set pb v a
  | OpClear => Ok (clear_values pb)
  | OpConstraint c => Ok (pb_add_constraints pb [:: c])
  | OpInputs n => set_input_sizes pb n
  end.

(** The reference: how many variables, their values, how many of them are
    inputs, and the constraints. *)
Record board := Board { b_vars : nat; b_val : nat -> F; b_inputs : nat; b_constraints : seq (r1cs_constraint F) }.
Definition board0 : board := Board 0 (fun v => if v == 0%N then 1 else 0) 0 [::].
(** [None]: the operation aborts. *)
Definition board_step (b : board) (op : pb_op) : option board :=
  match op with
  | OpAllocate => Some (Board (b_vars b).+1 (b_val b) (b_inputs b) (b_constraints b))
  | OpAssign _ => Some b
  | OpSet v a => if (v <= b_vars b)%N
      then Some (Board (b_vars b) (fun w => if w == v then a else b_val b w) (b_inputs b) (b_constraints b))
      else None
  | OpClear => Some (Board (b_vars b) (fun w => if w == 0%N then b_val b 0%N else 0) (b_inputs b) (b_constraints b))
  | OpConstraint c => Some (Board (b_vars b) (b_val b) (b_inputs b) (rcons (b_constraints b) c))
  | OpInputs n => if (n <= b_vars b)%N then Some (Board (b_vars b) (b_val b) n (b_constraints b)) else None
  end.
Fixpoint board_run (b : board) (ops : seq pb_op) : option board :=
  if ops is op :: ops' then (if board_step b op is Some b' then board_run b' ops' else None) else Some b.

(** The values of the variables [i+1 ... i+n]. *)
Definition board_values (b : board) (i n : nat) : seq F := [seq b_val b v | v <- iota i.+1 n].

(** What the protoboard shows. *)
Definition shows (pb : protoboard F) (b : board) : Prop :=
  [/\ (allocate_var pb).1 = (b_vars b).+1 /\ pb_num_variables pb = b_vars b,
      forall v, pb_val pb v = if (v <= b_vars b)%N then Ok (b_val b v) else AssertFail,
      pb_num_inputs pb = b_inputs b /\ constraints (pb_cs pb) = b_constraints b,
      pb_primary_input pb = Ok (board_values b 0 (b_inputs b)) /\
      pb_auxiliary_input pb = Ok (board_values b (b_inputs b) (b_vars b - b_inputs b)) &
      num_variables (pb_cs pb) = b_vars b /\
      (all (constraint_in_range (b_vars b)) (b_constraints b) ->
       exists2 s, pb_is_satisfied pb = Ok s &
         (s <-> forall c, List.In c (b_constraints b) -> constraint_holds c (board_values b 0 (b_vars b))))].

Record linked (pb : protoboard F) (b : board) : Prop := Linked {
  lk_vals : pb_values pb = board_values b 0 (b_vars b);
  lk_one : pb_constant_term pb = b_val b 0;
  lk_free : pb_next_free_var pb = (b_vars b).+1;
  lk_le : (b_inputs b <= b_vars b)%N;
  lk_cs : pb_cs pb = R1cs (b_inputs b) (b_vars b - b_inputs b) (b_constraints b);
  lk_zero : forall v, (b_vars b < v)%N -> b_val b v = 0 }.

Lemma board_values_cat b i m n : board_values b i (m + n) = board_values b i m ++ board_values b (i + m) n.
Proof. by rewrite /board_values iotaD map_cat addSn. Qed.
Lemma size_board_values b i n : size (board_values b i n) = n.
Proof. by rewrite size_map size_iota. Qed.

Lemma linked_shows pb b : linked pb b -> shows pb b.
Proof.
move=> [h1 h2 h3 h4 h5 h6]; have hs : size (pb_values pb) = b_vars b by rewrite h1 size_board_values.
have hcat : pb_values pb = board_values b 0 (b_inputs b) ++ board_values b (b_inputs b) (b_vars b - b_inputs b).
  by rewrite -{2}(add0n (b_inputs b)) -board_values_cat subnKC.
have hp : pb_primary_input pb = Ok (board_values b 0 (b_inputs b)).
  rewrite /pb_primary_input /pb_num_inputs h5 /num_inputs /= hs h4 hcat take_size_cat //.
  by rewrite size_board_values.
have ha : pb_auxiliary_input pb = Ok (board_values b (b_inputs b) (b_vars b - b_inputs b)).
  rewrite /pb_auxiliary_input /pb_num_inputs h5 /num_inputs /= hs h4 hcat drop_size_cat //.
  by rewrite size_board_values.
have hn : num_variables (pb_cs pb) = b_vars b by rewrite h5 /num_variables /= subnKC.
split=> //.
- by split=> //; rewrite /pb_num_variables h3 subn1.
- move=> v; rewrite /pb_val hs; case: leqP => hv //=.
  case: v hv => [|v] hv; first by rewrite h2.
  rewrite (@oget_nth _ 0) ?hs // h1 /board_values (nth_map 0%N) ?size_iota // nth_iota //.
- by rewrite /pb_num_inputs h5.
- split=> // hr; rewrite /pb_is_satisfied hp ha /=.
  have [|||s e hiff] := @r1cs_is_satisfied_iff F (pb_cs pb) (board_values b 0 (b_inputs b))
      (board_values b (b_inputs b) (b_vars b - b_inputs b)).
  + by rewrite /r1cs_in_range hn h5.
  + by rewrite h5 size_board_values.
  + by rewrite h5 size_board_values.
  exists s => //; rewrite hiff /r1cs_holds h5 /= -{2}(add0n (b_inputs b)) -board_values_cat subnKC //.
Qed.

Lemma eq_board_values b b' n : (forall v, (0 < v <= n)%N -> b_val b v = b_val b' v) ->
  board_values b 0 n = board_values b' 0 n.
Proof. by move=> h; apply/eq_in_map => v; rewrite mem_iota => hv; apply: h; lia. Qed.

Lemma linked_step pb b op : linked pb b ->
  match board_step b op with
  | Some b' => exists2 pb', pb_step pb op = Ok pb' & linked pb' b'
  | None => pb_step pb op = AssertFail
  end.
Proof.
move=> [h1 h2 h3 h4 h5 h6]; have hs : size (pb_values pb) = b_vars b by rewrite h1 size_board_values.
case: op => [|l|v a| |c|n] /=.
- eexists; first by []; split=> //=.
  + rewrite h1 -cats1 /board_values -[in RHS]addn1 iotaD map_cat /= add1n h6 //.
  + by rewrite h3.
  + exact: leqW.
  + by rewrite h5 /= subSn.
  + by move=> v hv; apply: h6; apply: ltnW.
- by eexists; first by []; split.
- rewrite /pb_set hs; case: leqP => hv //=.
  case: v hv => [|v] hv.
    eexists; first by []; split=> //=; last by move=> [|w] // hw; apply: h6.
    by rewrite h1; apply: eq_board_values => -[].
  have -> : oput (pb_values pb) v a = Ok (set_nth 0 (pb_values pb) v a) by apply: oput_set_nth; rewrite hs.
  eexists; first by []; split=> //=.
  + apply: (@eq_from_nth _ 0); rewrite ?size_board_values size_set_nth hs; first by apply/maxn_idPr.
    move=> i; rewrite (maxn_idPr hv) => hi.
    by rewrite nth_set_nth /= h1 !(nth_map 0%N) ?size_iota // !nth_iota // !add1n eqSS.
  + move=> w hw; case: eqP => [e|_]; last exact: h6.
    by move: hw; rewrite e; lia.
- eexists; first by []; split=> //=; last first.
    by move=> [|v].
  rewrite h1 /board_values -map_comp; apply/eq_in_map => v; rewrite mem_iota => hv /=.
  by rewrite ifF //; lia.
- by eexists; first by []; split=> //=; rewrite h5 /= cats1.
- rewrite /set_input_sizes /pb_num_variables h3 subn1 /=; case: leqP => hn //=.
  by eexists; first by []; split=> //=; rewrite h5.
Qed.

Lemma linked_run pb b ops : linked pb b ->
  match board_run b ops with
  | Some b' => exists2 pb', ofold pb_step pb ops = Ok pb' & linked pb' b'
  | None => ofold pb_step pb ops = AssertFail
  end.
Proof.
elim: ops pb b => [|op ops IH] pb b hl /=; first by exists pb.
have := linked_step op hl; case: (board_step b op) => [b'|] => [[pb' -> hl']|->] //=.
exact: IH.
Qed.

Lemma linked_new : linked (pb_new F) board0.
Proof. by split=> // -[]. Qed.

End History.
