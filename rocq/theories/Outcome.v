(** Results of C++ functions that may abort or run into undefined behaviour.

    This file models no particular function of /repo.  It fixes the vocabulary
    used by all model files: a call either returns a value, stops on a failed
    [assert] (libsnark keeps assertions on in every build type used by its
    tests), or has undefined behaviour (reading or writing outside a
    [std::vector], dereferencing an end iterator). *)
From mathcomp Require Import all_ssreflect.
Set Implicit Arguments.
Unset Strict Implicit.
Unset Printing Implicit Defensive.

Inductive outcome (A : Type) : Type :=
| Ok of A
| AssertFail
| UB.

Arguments Ok {A} _.
Arguments AssertFail {A}.
Arguments UB {A}.

Definition obind (A B : Type) (m : outcome A) (f : A -> outcome B) : outcome B :=
  match m with
  | Ok a => f a
  | AssertFail => AssertFail
  | UB => UB
  end.

Definition omap (A B : Type) (f : A -> B) (m : outcome A) : outcome B :=
  obind m (fun a => Ok (f a)).

(** [assert(b)] *)
Definition oassert (b : bool) : outcome unit := if b then Ok tt else AssertFail.

(** [v[i]] on a [std::vector]: undefined behaviour when [i >= v.size()]. *)
Fixpoint oget (A : Type) (v : seq A) (i : nat) : outcome A :=
  match v, i with
  | [::], _ => UB
  | a :: _, 0 => Ok a
  | _ :: v', i'.+1 => oget v' i'
  end.

(** [v[i] = a] on a [std::vector]: undefined behaviour when [i >= v.size()]. *)
Fixpoint oput (A : Type) (v : seq A) (i : nat) (a : A) : outcome (seq A) :=
  match v, i with
  | [::], _ => UB
  | _ :: v', 0 => Ok (a :: v')
  | b :: v', i'.+1 => omap (cons b) (oput v' i' a)
  end.

(** A [for] loop over a range, threading a state. *)
Fixpoint ofold (S A : Type) (f : S -> A -> outcome S) (s : S) (l : seq A) : outcome S :=
  match l with
  | [::] => Ok s
  | a :: l' => obind (f s a) (fun s' => ofold f s' l')
  end.

Fixpoint omapm (A B : Type) (f : A -> outcome B) (l : seq A) : outcome (seq B) :=
  match l with
  | [::] => Ok [::]
  | a :: l' => obind (f a) (fun b => omap (cons b) (omapm f l'))
  end.

Declare Scope outcome_scope.
Delimit Scope outcome_scope with out.
Notation "'let!' x ':=' e1 'in' e2" := (obind e1 (fun x => e2))
  (at level 200, x name, e1 at level 100, e2 at level 200, right associativity) : outcome_scope.
Notation "'assert!' b 'in' e" := (obind (oassert b) (fun _ => e))
  (at level 200, b at level 100, e at level 200, right associativity) : outcome_scope.
Open Scope outcome_scope.

(** * Facts *)

Lemma obindE (A B : Type) (a : A) (f : A -> outcome B) : obind (Ok a) f = f a.
Proof. by []. Qed.
Lemma oassertT (A : Type) (e : outcome A) : (assert! true in e) = e.
Proof. by []. Qed.

Lemma ofold_cons (A S : Type) (f : S -> A -> outcome S) s a l :
  ofold f s (a :: l) = obind (f s a) (fun s' => ofold f s' l).
Proof. by []. Qed.

Lemma obind_Ok (A B : Type) (m : outcome A) (f : A -> outcome B) (b : B) :
  obind m f = Ok b -> exists2 a, m = Ok a & f a = Ok b.
Proof. by case: m => //= a h; exists a. Qed.

Lemma oget_nth (A : Type) (d : A) (v : seq A) i :
  i < size v -> oget v i = Ok (nth d v i).
Proof. by elim: v i => [|a v IH] [|i] //= /IH. Qed.

Lemma oget_UB (A : Type) (v : seq A) i : size v <= i -> oget v i = UB.
Proof. by elim: v i => [|a v IH] [|i] //= /IH. Qed.

Lemma oget_Ok (A : Type) (d : A) (v : seq A) i a :
  oget v i = Ok a <-> i < size v /\ a = nth d v i.
Proof.
split.
- case: (ltnP i (size v)) => h; last by rewrite (oget_UB h).
  by rewrite (oget_nth d h) => -[->].
- by case=> h ->; apply: oget_nth.
Qed.

Lemma oput_set_nth (A : Type) (d : A) (v : seq A) i a :
  i < size v -> oput v i a = Ok (set_nth d v i a).
Proof. by elim: v i => [|b v IH] [|i] //= /IH->. Qed.

Lemma oput_UB (A : Type) (v : seq A) i a : size v <= i -> oput v i a = UB.
Proof. by elim: v i => [|b v IH] [|i] //= /IH->. Qed.

Lemma omapm_Ok (A B : Type) (f : A -> outcome B) (g : A -> B) (l : seq A) :
  (forall a, List.In a l -> f a = Ok (g a)) -> omapm f l = Ok (map g l).
Proof.
elim: l => [|a l IH] //= h.
rewrite h /=; last by left.
by rewrite IH //= => b hb; apply: h; right.
Qed.

Lemma ofold_Ok (S A : Type) (f : S -> A -> outcome S) (g : S -> A -> S) (s : S) (l : seq A) :
  (forall s a, List.In a l -> f s a = Ok (g s a)) -> ofold f s l = Ok (foldl g s l).
Proof.
elim: l s => [|a l IH] s //= h.
rewrite h /=; last by left.
by apply: IH => s' b hb; apply: h; right.
Qed.

Lemma ofold_cat (S A : Type) (f : S -> A -> outcome S) (s : S) (l l' : seq A) :
  ofold f s (l ++ l') = obind (ofold f s l) (fun s' => ofold f s' l').
Proof. by elim: l s => [|a l IH] s //=; case: (f s a) => //=. Qed.

Lemma all_flatten (A : Type) (p : A -> bool) (l : seq (seq A)) : all p (flatten l) = all (all p) l.
Proof. by elim: l => [|a l IH] //=; rewrite all_cat IH. Qed.

Lemma obind_assoc (A B C : Type) (m : outcome A) (f : A -> outcome B) (g : B -> outcome C) :
  obind (obind m f) g = obind m (fun a => obind (f a) g).
Proof. by case: m. Qed.

Lemma In_nth_seq (A : Type) (d : A) (l : seq A) x :
  List.In x l -> exists2 i, i < size l & nth d l i = x.
Proof.
elim: l => [|a l IH] //= [->|/IH [i hi <-]]; first by exists 0.
by exists i.+1.
Qed.

Lemma nth_In_seq (A : Type) (d : A) (l : seq A) i : i < size l -> List.In (nth d l i) l.
Proof. by elim: l i => [|a l IH] [|i] //= h; [left|right; apply: IH]. Qed.
