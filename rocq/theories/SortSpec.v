(* Specification vocabulary for sign routines, independent of the model. *)
From mathcomp Require Import all_ssreflect ssralg ssrint fingroup perm.

Set Implicit Arguments.
Unset Strict Implicit.
Unset Printing Implicit Defensive.

Local Open Scope ring_scope.

(* A strict total order. *)
Definition strict_total (T : eqType) (lt : rel T) : Prop :=
  [/\ irreflexive lt, transitive lt & forall x y, x != y -> lt x y || lt y x].

(* Number of pairs (earlier, later) with the later element smaller. *)
Fixpoint inversions (T : Type) (lt : rel T) (l : seq T) : nat :=
  if l is x :: l' then (count (fun y => lt y x) l' + inversions lt l')%N else 0%N.

(* (-1)^(number of inversions). *)
Definition sign_of (T : Type) (lt : rel T) (l : seq T) : int :=
  (-1) ^+ inversions lt l.
