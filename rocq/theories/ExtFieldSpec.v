(** Specification of the extension fields: polynomials over [F] modulo
    [X^k - nr].  Models nothing of /repo.

    libff's fields: Fp2 and Fp3 are [F[X]/(X^2 - nr)] and [F[X]/(X^3 - nr)];
    Fp4 is [Fp2[Y]/(Y^2 - X)] and Fp6 is [Fp3[Y]/(Y^2 - X)].  With [Z = Y] these
    are [F[Z]/(Z^4 - nr)] and [F[Z]/(Z^6 - nr)], where [X = Z^2]: the element
    [(c0, c1)] of the tower has the coefficients of [c0] at the even and those of
    [c1] at the odd powers of [Z]. *)
From mathcomp Require Import all_ssreflect all_algebra.
From Verif Require Import Outcome Lincomb LincombSpec R1CS Protoboard GadgetSpec FieldGadgets.
Set Implicit Arguments.
Unset Strict Implicit.
Unset Printing Implicit Defensive.
Local Open Scope ring_scope.

Section Spec.
Variable F : fieldType.

Definition ext_modulus (k : nat) (nr : F) : {poly F} := 'X^k - nr%:P.

(** The polynomials [a] and [b] are the same element of the extension field. *)
Definition ext_eq (k : nat) (nr : F) (a b : {poly F}) : Prop := a %% ext_modulus k nr = b %% ext_modulus k nr.

(** The elements that the variables of the field gadgets stand for. *)
Definition fp2_val (x : seq F) (v : fp2_var F) : {poly F} := Poly [:: lval x (f2_c0 v); lval x (f2_c1 v)].
Definition fp3_val (x : seq F) (v : fp3_var F) : {poly F} :=
  Poly [:: lval x (f3_c0 v); lval x (f3_c1 v); lval x (f3_c2 v)].
Definition fp4_val (x : seq F) (v : fp4_var F) : {poly F} :=
  Poly [:: lval x (f2_c0 (f4_c0 v)); lval x (f2_c0 (f4_c1 v)); lval x (f2_c1 (f4_c0 v)); lval x (f2_c1 (f4_c1 v))].
Definition fp6_val (x : seq F) (v : fp6_var F) : {poly F} :=
  Poly [:: lval x (f3_c0 (f6_c0 v)); lval x (f3_c0 (f6_c1 v)); lval x (f3_c1 (f6_c0 v)); lval x (f3_c1 (f6_c1 v));
           lval x (f3_c2 (f6_c0 v)); lval x (f3_c2 (f6_c1 v))].

(** The integer with the signed binary digits [ds], most significant first. *)
Definition digits_value (ds : seq int) : int := foldl (fun v d => 2 * v + d) 0 ds.
Definition signed_digit (d : int) : bool := d \in [:: -1; 0; 1].
End Spec.
