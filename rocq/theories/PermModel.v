(* Model of permutation(N, k) in /repo/src/util.h ("util.h").
   Simplifications: size_t has [W] values, 2^64 in the program, and wraps; the product of
   doubles is an exact number; the assertion k > 0 is compiled out in the release build. *)
From mathcomp Require Import all_ssreflect.
From Verif Require Import Outcome.

Set Implicit Arguments.
Unset Strict Implicit.
Unset Printing Implicit Defensive.

Section Perm.
Variable W : nat.

(* util.h:53-55 — the loop over i. *)
Fixpoint perm_loop (fuel i N r : nat) : outcome nat :=
  if (i <= N)%N then
    if fuel is f.+1 then perm_loop f (i.+1 %% W) N (r * i) else Diverge
  else Ok r.

(* util.h:50-57 — permutation. *)
Definition permutation (fuel N k : nat) : outcome nat :=
  perm_loop fuel ((N + (W - k) + 1) %% W) N 1.

End Perm.
