(* Model of the random numbers of the program: what update_manager.hpp and util.h make of a
   number r of [0, 1).  Simplification: the numbers are rational and the products exact. *)
From mathcomp Require Import all_ssreflect ssralg ssrnum ssrint rat.
From Verif Require Import Outcome GreenModel.

Set Implicit Arguments.
Unset Strict Implicit.
Unset Printing Implicit Defensive.

Local Open Scope ring_scope.
Import GRing.Theory Num.Theory.

(* update_manager.hpp:556-558, 629-631, 711; util.h:67 — static_cast<int>(random()*N). *)
Definition pick_index (N : nat) (r : rat) : nat := absz (truncq (N%:R * r)).
(* update_manager.hpp:555 — the time of a new vertex, random()*beta. *)
Definition pick_time (beta r : rat) : rat := r * beta.
(* update_manager.hpp:358 — random()<0.5. *)
Definition pick_half (r : rat) : bool := r < 1 / 2%:R.
(* update_manager.hpp:164, 744 — the shifted time; c is update.vertex_shift_step_size. *)
Definition pick_shift (beta c t r : rat) : rat :=
  if mymod (t + (r - 1 / 2%:R) * (beta * c)) beta is Ok y then y else 0.
