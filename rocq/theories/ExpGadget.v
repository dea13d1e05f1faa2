(** Proofs about the exponentiation gadget of FieldGadgets.v. *)
From mathcomp Require Import all_ssreflect all_algebra zify.
From Verif Require Import Outcome Lincomb LincombSpec LincombFacts R1CS R1CSSpec.
From Verif Require Import Protoboard GadgetSpec GadgetLogic FieldGadgets ExtFieldSpec ExtFieldFacts.
Set Implicit Arguments.
Unset Strict Implicit.
Unset Printing Implicit Defensive.
Local Open Scope ring_scope.
Import GRing.Theory.

Section Exp.
Variable F : fieldType.
Variables (Var MulG SqrG Elt : Type).
Variable var_new : protoboard F -> Var * protoboard F.
Variable var_const : protoboard F -> Elt -> outcome (Var * protoboard F).
Variable mul_new : protoboard F -> Var -> Var -> Var -> MulG * protoboard F.
Variable mul_constraints : MulG -> seq (r1cs_constraint F).
Variable sqr_new : protoboard F -> Var -> Var -> SqrG * protoboard F.
Variable sqr_constraints : SqrG -> seq (r1cs_constraint F).
Variable one : Elt.
Variable val : seq F -> Var -> {poly F}.
Variable m : {poly F}.
Variable x : seq F.
Hypothesis val_small : forall v, val x v %% m = val x v.
Hypothesis const_one : forall pb v pb', var_const pb one = Ok (v, pb') -> val x v = 1.
Hypothesis mul_sound : forall pb A B R g pb', mul_new pb A B R = (g, pb') -> holds (mul_constraints g) x ->
  val x R = (val x A * val x B) %% m.
Variable elt : Var.
(** Squaring is needed only for powers of [elt]: the cyclotomic squaring gadgets
    are right on a subgroup only. *)
Hypothesis sqr_sound : forall pb A R g pb', sqr_new pb A R = (g, pb') -> holds (sqr_constraints g) x ->
  (exists n : nat, val x A = (val x elt ^+ n) %% m) -> val x R = (val x A * val x A) %% m.

Definition op_ok (op : exp_op) (cur next : {poly F}) : Prop :=
  match op with
  | Dbl => (exists n : nat, cur = (val x elt ^+ n) %% m) -> next = (cur * cur) %% m
  | Add => next = (cur * val x elt) %% m
  | Sub => cur = (next * val x elt) %% m
  end.
Fixpoint chain (cur : Var) (ops : seq exp_op) (rest : seq Var) : Prop :=
  match ops, rest with
  | op :: ops', next :: rest' => op_ok op (val x cur) (val x next) /\ chain next ops' rest'
  | _, _ => True
  end.

Lemma build_chain pb cur ops rest steps pb' :
  exp_build mul_new sqr_new pb elt cur ops rest = (steps, pb') ->
  (forall s, List.In s steps -> [/\ holds (add_constraints mul_constraints s) x,
     holds (sub_constraints mul_constraints s) x & holds (dbl_constraints sqr_constraints s) x]) ->
  chain cur ops rest.
Proof.
elim: ops pb cur rest steps pb' => [|op ops IH] pb cur [|next rest] steps pb' //=.
case: op => /=.
- case e1: (sqr_new _ _ _) => [g pb1]; case e2: (exp_build _ _ _ _ _ _) => [ss pb2] [<- _] h.
  split; last by apply: (IH _ _ _ _ _ e2) => s hs; apply: h; right.
  by have [_ _ h1] := h _ (or_introl erefl); apply: (sqr_sound e1 h1).
- case e1: (mul_new _ _ _ _) => [g pb1]; case e2: (exp_build _ _ _ _ _ _) => [ss pb2] [<- _] h.
  split; last by apply: (IH _ _ _ _ _ e2) => s hs; apply: h; right.
  by have [h1 _ _] := h _ (or_introl erefl); apply: mul_sound e1 h1.
- case e1: (mul_new _ _ _ _) => [g pb1]; case e2: (exp_build _ _ _ _ _ _) => [ss pb2] [<- _] h.
  split; last by apply: (IH _ _ _ _ _ e2) => s hs; apply: h; right.
  by have [_ h1 _] := h _ (or_introl erefl); apply: mul_sound e1 h1.
Qed.

(** [v] has the value [elt^n]. *)
Definition is_pow (v : Var) (n : nat) : Prop := val x v = (val x elt ^+ n) %% m.

Lemma pow_dbl cur next n : is_pow cur n -> op_ok Dbl (val x cur) (val x next) -> is_pow next n.*2.
Proof.
rewrite /is_pow /= => hc h; rewrite h; last by exists n.
by rewrite hc modp_mul mulrC modp_mul mulrC -exprD addnn.
Qed.
Lemma pow_add cur next n : is_pow cur n -> op_ok Add (val x cur) (val x next) -> is_pow next n.+1.
Proof. by rewrite /is_pow /= => -> ->; rewrite mulrC modp_mul -exprS. Qed.
Lemma pow_sub cur next n : coprimep (val x elt) m -> is_pow cur n.+1 -> op_ok Sub (val x cur) (val x next) ->
  is_pow next n.
Proof.
rewrite /is_pow /= => hc -> h; rewrite -[LHS]val_small.
have : m %| (val x next - val x elt ^+ n) * val x elt.
  by rewrite /dvdp mulrBl modpD modpN -h -exprSr subrr.
rewrite Gauss_dvdpl; last by rewrite coprimep_sym.
by rewrite /dvdp modpD modpN subr_eq0 => /eqP.
Qed.

Definition ok_digit (d : int) := signed_digit d && ((0 <= d) || coprimep (val x elt) m).

(** After the first non-zero digit: the value stays at least 1. *)
Lemma chain_found ds (n : nat) cur rest : (0 < n)%N -> all ok_digit ds -> is_pow cur n ->
  size rest = size (exp_ops true ds) -> chain cur (exp_ops true ds) rest ->
  exists2 n' : nat, n'%:Z = foldl (fun v d => 2 * v + d) n%:Z ds & is_pow (last cur rest) n'.
Proof.
elim: ds n cur rest => [|d ds IH] n cur rest n0 hd hc; first by case: rest => // _ _; exists n.
case: rest => [|v1 rest] //= [hs] [h1 h2].
move/andP: hd => [/andP[hsd hneg] hd].
have h1' := pow_dbl hc h1.
move: hsd; rewrite /signed_digit !inE => /or3P[] /eqP ed; subst d; move: hs h2 => /=.
- case: rest => [|v2 rest] //= [hs] [h2 h3].
  have hp : is_pow v2 n.*2.-1.
    by apply: pow_sub h2; [move: hneg => /= | rewrite prednK // double_gt0].
  have [|n' e1 e2] := IH n.*2.-1 v2 rest _ hd hp hs h3; first by lia.
  exists n' => //; rewrite e1; congr (foldl _ _ ds); lia.
- move=> hs h3; have [|n' e1 e2] := IH n.*2 v1 rest _ hd h1' hs h3; first by lia.
  exists n' => //; rewrite e1; congr (foldl _ _ ds); lia.
- case: rest => [|v2 rest] //= [hs] [h2 h3].
  have hp := pow_add h1' h2.
  have [|n' e1 e2] := IH n.*2.+1 v2 rest _ hd hp hs h3; first by lia.
  exists n' => //; rewrite e1; congr (foldl _ _ ds); lia.
Qed.

(** A number whose first digit is -1 is negative. *)
Lemma neg_digits ds (n : int) : all signed_digit ds -> n <= -1 -> foldl (fun v d => 2 * v + d) n ds <= -1.
Proof.
elim: ds n => [|d ds IH] n //= /andP[hd hds] hn; apply: IH => //.
by move: hd; rewrite /signed_digit !inE => /or3P[] /eqP ->; lia.
Qed.

Lemma chain_start ds cur rest : all ok_digit ds -> val x cur = 1 -> 0 < digits_value ds ->
  size rest = size (exp_ops false ds) -> chain cur (exp_ops false ds) rest ->
  exists2 n' : nat, n'%:Z = digits_value ds & is_pow (last cur rest) n'.
Proof.
rewrite /digits_value => hd hc; elim: ds cur rest hd hc => [|d ds IH] cur rest //= /andP[/andP[hsd hneg] hd] hc.
have c0 : is_pow cur 0 by rewrite /is_pow expr0 -hc val_small.
move: hsd; rewrite /signed_digit !inE => /or3P[] /eqP ed; subst d => hv; rewrite [_ ++ _]/=.
- have : foldl (fun v d : int => 2 * v + d) (-1) ds <= -1.
    by apply: neg_digits => //; apply: sub_all hd => e /andP[].
  by move: hv; rewrite mulr0 add0r; lia.
- by move=> hs hch; move: hv; rewrite mulr0 addr0 => hv; apply: IH.
- case: rest => [|v2 rest] //= [hs] [h2 h3].
  have hp := pow_add c0 h2.
  have [//|n' e1 e2] := chain_found (n := 1) _ hd hp hs h3.
  by exists n'.
Qed.

Lemma exp_vars_size pb n : size (exp_vars var_new pb n).1 = n.
Proof.
elim: n pb => [|n IH] pb //=; case: (var_new pb) => v pb1.
by move: (IH pb1); case: (exp_vars _ _ _) => vs pb2 /= ->.
Qed.

Theorem exponentiation_sound pb digits result g pb' :
  exponentiation_new var_new var_const mul_new sqr_new one pb elt digits result = Ok (g, pb') ->
  all signed_digit digits -> (all (fun d => 0 <= d) digits \/ coprimep (val x elt) m) ->
  0 < digits_value digits ->
  holds (exponentiation_constraints mul_constraints sqr_constraints g) x ->
  val x result = (val x elt ^+ `|digits_value digits|%N) %% m.
Proof.
move=> hnew hd hneg hv.
have hok : all ok_digit digits.
  case: hneg => hneg; last by apply: sub_all hd => d; rewrite /ok_digit => ->; rewrite hneg orbT.
  by apply/allP=> d hin; rewrite /ok_digit (allP hd) // (allP hneg).
move: hnew; rewrite /exponentiation_new.
case es: (size _) => [|n] //; case e0: (var_const pb one) => [[v0 pb0]| |] //=.
have := exp_vars_size pb0 n; case e1: (exp_vars _ _ _) => [vs pb1] /= hsz.
case e2: (exp_build _ _ _ _ _ _ _) => [steps pb2] [<- _].
rewrite /exponentiation_constraints /= holds_cat holds_cat !holds_flatten => -[ha [hs hb]].
have hch := build_chain e2 (fun s hs' => And3 (ha s hs') (hs s hs') (hb s hs')).
have [n' e3] := chain_start hok (const_one e0) hv (etrans (etrans (size_rcons _ _) (congr1 S hsz)) (esym es)) hch.
by rewrite last_rcons /is_pow -e3 => ->.
Qed.
End Exp.
