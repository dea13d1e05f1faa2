(** Powers in [F[X]/(X^k - nr)] over a finite field: the Frobenius map is the
    substitution of a multiple of the variable.  Models nothing of /repo. *)
From mathcomp Require Import all_ssreflect all_algebra zify.
From Verif Require Import Outcome Fieldtac ExtFieldSpec ExtFieldFacts.
Set Implicit Arguments.
Unset Strict Implicit.
Unset Printing Implicit Defensive.
Local Open Scope ring_scope.
Import GRing.Theory.

Section Frobenius.
Variable F : fieldType.
Variable nr : F.
Implicit Types (P Q : {poly F}).

Lemma mod_mulr k P P' Q : ext_eq k nr P P' -> ext_eq k nr (P * Q) (P' * Q).
Proof. by rewrite /ext_eq => h; rewrite [P * Q]mulrC -[LHS]modp_mul h modp_mul [Q * P']mulrC. Qed.
Lemma mod_mull k P Q Q' : ext_eq k nr Q Q' -> ext_eq k nr (P * Q) (P * Q').
Proof. by rewrite /ext_eq => h; rewrite -modp_mul h modp_mul. Qed.
Lemma mod_add k P P' Q Q' : ext_eq k nr P P' -> ext_eq k nr Q Q' -> ext_eq k nr (P + Q) (P' + Q').
Proof. by rewrite /ext_eq => h1 h2; rewrite !modpD h1 h2. Qed.
Lemma mod_exp k P P' n : ext_eq k nr P P' -> ext_eq k nr (P ^+ n) (P' ^+ n).
Proof.
move=> h; elim: n => [|n IH] //; rewrite !exprS.
by apply: etrans (mod_mulr _ h) _; apply: mod_mull.
Qed.
Lemma mod_trans k P Q P' : ext_eq k nr P Q -> ext_eq k nr Q P' -> ext_eq k nr P P'.
Proof. by rewrite /ext_eq => ->. Qed.
Lemma mod_sym k P Q : ext_eq k nr P Q -> ext_eq k nr Q P.
Proof. by rewrite /ext_eq => ->. Qed.

Lemma mod_Xk k : ext_eq k nr 'X^k nr%:P.
Proof.
rewrite /ext_eq.
have -> : 'X^k = nr%:P + ext_modulus k nr by rewrite /ext_modulus addrC subrK.
by rewrite modpD modpp addr0.
Qed.

Lemma frobenius k q P : [char F].-nat q -> (forall a : F, a ^+ q = a) -> (k %| q.-1)%N -> (0 < q)%N ->
  ext_eq k nr (P ^+ q) (P \Po (nr ^+ (q.-1 %/ k) *: 'X)).
Proof.
move=> hq hF hk q0; set c := nr ^+ _.
have hqP : [char {poly F}].-nat q.
  by apply: sub_in_pnat hq => p _; apply: (rmorph_char (polyC_rmorphism F)).
elim/poly_ind: P => [|P a IH]; first by rewrite comp_poly0 expr0n; case: q q0 {hq hF hk c hqP}.
rewrite comp_polyD comp_polyM comp_polyX comp_polyC (exprDn_char _ _ hqP) exprMn -polyC_exp hF.
apply: mod_add => //.
apply: mod_trans (mod_mulr _ IH) _; apply: mod_mull.
have -> : 'X^q = 'X * ('X^k) ^+ (q.-1 %/ k) :> {poly F}.
  by rewrite -exprM -exprS mulnC divnK // prednK.
have -> : c *: 'X = 'X * (nr%:P) ^+ (q.-1 %/ k) :> {poly F} by rewrite -polyC_exp mulrC mul_polyC.
by apply: mod_mull; apply: mod_exp; apply: mod_Xk.
Qed.

Lemma comp_scale (s : seq F) (c : F) : Poly s \Po (c *: 'X) = Poly [seq s`_i * c ^+ i | i <- iota 0 (size s)].
Proof.
elim: s => [|a s IH]; first by rewrite comp_poly0.
rewrite [Poly _]/= cons_poly_def comp_polyD comp_polyM comp_polyX comp_polyC IH.
rewrite [iota _ _]/= map_cons [Poly (_ :: _)]/= cons_poly_def expr0 mulr1.
congr (_ + _); rewrite mulrC -scalerAl [X in _ *: X]mulrC scalerAl; congr (_ * _).
apply/polyP=> i; rewrite coefZ !coef_Poly.
case: (ltnP i (size s)) => h; last by rewrite !nth_default ?mulr0 // size_map size_iota.
by rewrite !(nth_map 0%N) ?size_iota // !nth_iota //= exprS; rewrite mulrCA.
Qed.
End Frobenius.
