(* Specification of a decomposition of sites into decoupled groups. *)
From mathcomp Require Import all_ssreflect.

Set Implicit Arguments.
Unset Strict Implicit.
Unset Printing Implicit Defensive.

(* Sites in different groups have no direct connection. *)
Definition decoupled (N : nat) (connected : nat -> nat -> bool) (map : seq nat) : Prop :=
  forall i j, i < N -> j < N -> connected i j -> nth 0 map i = nth 0 map j.

(* [groups] and [map] describe the same partition of the N sites. *)
Definition partition_of (N : nat) (groups : seq (seq nat)) (map : seq nat) : Prop :=
  [/\ size map = N,
      forall i, i < N -> nth 0 map i < size groups &
      forall g, g < size groups ->
        nth [::] groups g = [seq i <- iota 0 N | nth 0 map i == g]].
