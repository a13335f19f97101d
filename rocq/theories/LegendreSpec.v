(* Legendre polynomials by Rodrigues' formula, independent of the code. *)
From mathcomp Require Import all_ssreflect ssralg poly.

Set Implicit Arguments.
Unset Strict Implicit.
Unset Printing Implicit Defensive.

Local Open Scope ring_scope.

(* P_l = 1 / (2^l l!) * d^l/dx^l (x^2 - 1)^l *)
Definition legendreP (F : fieldType) (l : nat) : {poly F} :=
  ((2 ^ l * l`!)%N%:R)^-1 *: (('X^2 - 1) ^+ l)^`(l).

(* the integral of p over [-1, 1] is v: p has an antiderivative that grows by v *)
Definition has_integral (F : fieldType) (p : {poly F}) (v : F) : Prop :=
  exists2 q : {poly F}, q^`() = p & q.[1] - q.[-1] = v.
