(** [ring]/[field] from the Coq standard library for mathcomp structures.

    Models nothing of /repo: tactic support only.  A section that wants to use
    it declares [Add Field Ff : (Fth F).] (for [F : fieldType]) or
    [Add Ring Rr : (Rth R).] (for [R : comRingType]). *)
From mathcomp Require Import all_ssreflect all_algebra.
From Coq Require Export Field Ring.
Import GRing.Theory.
Set Implicit Arguments.
Unset Strict Implicit.
Unset Printing Implicit Defensive.
Local Open Scope ring_scope.

Definition fadd (F : fieldType) (x y : F) : F := x + y.
Definition fmul (F : fieldType) (x y : F) : F := x * y.
Definition fopp (F : fieldType) (x : F) : F := - x.
Definition fsub (F : fieldType) (x y : F) : F := x - y.
Definition fdiv (F : fieldType) (x y : F) : F := x / y.
Definition finv (F : fieldType) (x : F) : F := x^-1.
Definition fone (F : fieldType) : F := 1.
Definition fzero (F : fieldType) : F := 0.

Lemma Fth (F : fieldType) :
  @field_theory F (fzero F) (fone F) (@fadd F) (@fmul F) (@fsub F) (@fopp F)
                (@fdiv F) (@finv F) eq.
Proof.
split; last by move=> x /eqP h; rewrite /fmul /finv mulVf.
- split; rewrite /fzero /fone /fadd /fmul /fsub /fopp => *;
    rewrite ?add0r ?mul1r ?addrA ?mulrA ?mulrDl ?subrr //;
    first [by rewrite addrC | by rewrite mulrC].
- by apply/eqP; rewrite oner_eq0.
- by [].
Qed.

Ltac fnorm F :=
  rewrite ?(exprS, expr0, mulrS, mulr0n, expr1);
  match goal with |- @eq _ ?x ?y => change (@eq (GRing.Field.sort F) x y) end;
  repeat match goal with
  | |- context [@GRing.add ?R ?x ?y] => change (@GRing.add R x y) with (@fadd F x y)
  | |- context [@GRing.mul ?R ?x ?y] => change (@GRing.mul R x y) with (@fmul F x y)
  | |- context [@GRing.opp ?R ?x] => change (@GRing.opp R x) with (@fopp F x)
  | |- context [@GRing.inv ?R ?x] => change (@GRing.inv R x) with (@finv F x)
  | |- context [GRing.one ?R] => change (GRing.one R) with (@fone F)
  | |- context [GRing.zero ?R] => change (GRing.zero R) with (@fzero F)
  end.

Ltac fring F := fnorm F; ring.
Ltac ffield F := fnorm F; field.

Definition cadd (R : comRingType) (x y : R) : R := x + y.
Definition cmul (R : comRingType) (x y : R) : R := x * y.
Definition copp (R : comRingType) (x : R) : R := - x.
Definition csub (R : comRingType) (x y : R) : R := x - y.
Definition cone (R : comRingType) : R := 1.
Definition czero (R : comRingType) : R := 0.

Lemma Rth (R : comRingType) :
  @ring_theory R (czero R) (cone R) (@cadd R) (@cmul R) (@csub R) (@copp R) eq.
Proof.
split; rewrite /czero /cone /cadd /cmul /csub /copp => *;
    rewrite ?add0r ?mul1r ?addrA ?mulrA ?mulrDl ?subrr //;
    first [by rewrite addrC | by rewrite mulrC].
Qed.

Ltac cnorm R :=
  rewrite ?(exprS, expr0, mulrS, mulr0n, expr1);
  match goal with |- @eq _ ?x ?y => change (@eq (GRing.ComRing.sort R) x y) end;
  repeat match goal with
  | |- context [@GRing.add ?S ?x ?y] => change (@GRing.add S x y) with (@cadd R x y)
  | |- context [@GRing.mul ?S ?x ?y] => change (@GRing.mul S x y) with (@cmul R x y)
  | |- context [@GRing.opp ?S ?x] => change (@GRing.opp S x) with (@copp R x)
  | |- context [GRing.one ?S] => change (GRing.one S) with (@cone R)
  | |- context [GRing.zero ?S] => change (GRing.zero S) with (@czero R)
  end.

Ltac cring R := cnorm R; ring.

(** Elements of sequences as atoms, whatever form their types have. *)
Ltac abs_nth :=
  repeat match goal with |- context [@nth ?T ?d ?s ?i] =>
    let y := fresh "y" in move: (@nth T d s i) => y end.
Ltac fringn F := abs_nth; fring F.
