(* Piecewise polynomial curves on the whole line and their smoothness, stated with polynomials
   and formal derivatives; independent of the spline code. *)
From mathcomp Require Import all_ssreflect ssralg ssrnum poly.

Set Implicit Arguments.
Unset Strict Implicit.
Unset Printing Implicit Defensive.

Local Open Scope ring_scope.

Section Spec.
Variable F : realFieldType.

Definition increasing (xs : seq F) : Prop := forall i j, (i < j < size xs)%N -> nth 0 xs i < nth 0 xs j.

(* f is the polynomial Q 0 left of the first point, Q i.+1 between points i and i.+1, and
   Q n right of the last of the n points. *)
Definition piecewise (xs : seq F) (Q : nat -> {poly F}) (f : F -> F) : Prop :=
  [/\ forall x, x <= nth 0 xs 0 -> f x = (Q 0%N).[x],
      forall i x, (i.+1 < size xs)%N -> nth 0 xs i <= x <= nth 0 xs i.+1 -> f x = (Q i.+1).[x] &
      forall x, nth 0 xs (size xs).-1 <= x -> f x = (Q (size xs)).[x]].

(* the pieces meeting at point i have the same derivatives up to order m there *)
Definition smooth_at (m : nat) (xs : seq F) (Q : nat -> {poly F}) (i : nat) : Prop :=
  forall k, (k <= m)%N -> (Q i)^`(k).[nth 0 xs i] = (Q i.+1)^`(k).[nth 0 xs i].

(* d is, away from the points, the k-th derivative of the curve with the pieces Q *)
Definition derivative_of (k : nat) (xs : seq F) (Q : nat -> {poly F}) (d : F -> F) : Prop :=
  [/\ forall x, x < nth 0 xs 0 -> d x = (Q 0%N)^`(k).[x],
      forall i x, (i.+1 < size xs)%N -> nth 0 xs i < x < nth 0 xs i.+1 -> d x = (Q i.+1)^`(k).[x] &
      forall x, nth 0 xs (size xs).-1 < x -> d x = (Q (size xs))^`(k).[x]].

End Spec.
