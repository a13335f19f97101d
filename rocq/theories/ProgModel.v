(* Model of the run control: the step counter, thermalization, the completed fraction and the
   main loop over all MPI ranks (/repo/src/interaction_expansion.hpp and .ipp).
   Simplifications:
   - what the sampler does in a step is not repeated here; a call of update() or measure() is
     described by the list of the parts it executes, in order;
   - the counters step, mc_steps and therm_steps are natural numbers, step modulo 2^64;
   - the arithmetic of the fraction is a parameter: exact or binary64;
   - when schedule_checker.pending() is true and what stop_callback() answers are inputs;
   - timing code and output on the terminal are left out. *)
From Coq Require Import ZArith SpecFloat.
From mathcomp Require Import all_ssreflect ssralg ssrnum ssrint rat.
From Verif Require Import Outcome.

Set Implicit Arguments.
Unset Strict Implicit.
Unset Printing Implicit Defensive.

Local Open Scope nat_scope.

(* the operations on doubles used by fraction_completed and the reduction over ranks
   (interaction_expansion.ipp:202, interaction_expansion.hpp:60-61) *)
Record prog_arith := ProgArith {
  pa_num : Type;
  pa_N : N -> pa_num;
  pa_add : pa_num -> pa_num -> pa_num;
  pa_sub : pa_num -> pa_num -> pa_num;
  pa_div : pa_num -> pa_num -> pa_num;
  pa_ge : pa_num -> pa_num -> bool }.

(* exact arithmetic with the special values of a division by zero
   (interaction_expansion.ipp:202 divides by mc_steps, which may be 0). *)
Inductive xrat := Fin of rat | PInf | XNaN.
(* interaction_expansion.hpp:60 — std::plus. *)
Definition xadd (a b : xrat) : xrat :=
  match a, b with
  | Fin p, Fin q => Fin (p + q)%R
  | XNaN, _ | _, XNaN => XNaN
  | _, _ => PInf
  end.
(* only finite numbers are subtracted (interaction_expansion.ipp:202). *)
Definition xsub (a b : xrat) : xrat :=
  match a, b with Fin p, Fin q => Fin (p - q)%R | _, _ => XNaN end.
(* interaction_expansion.ipp:202; a negative number over zero does not occur. *)
Definition xdiv (a b : xrat) : xrat :=
  match a, b with
  | Fin p, Fin q => if q == 0%R then (if (0 < p)%R then PInf else XNaN) else Fin (p / q)%R
  | _, _ => XNaN
  end.
(* interaction_expansion.hpp:61 *)
Definition xge (a b : xrat) : bool :=
  match a, b with
  | Fin p, Fin q => (q <= p)%R
  | PInf, Fin _ | PInf, PInf => true
  | _, _ => false
  end.
(* exact arithmetic for interaction_expansion.ipp:202 *)
Definition px_exact : prog_arith := ProgArith (fun n => Fin ((N.to_nat n)%:R)%R) xadd xsub xdiv xge.

(* IEEE 754 binary64 for interaction_expansion.ipp:202 *)
Definition px_binary64 : prog_arith :=
  @ProgArith spec_float (fun n => binary_normalize 53 1024 (Z.of_N n) 0 false)
    (SFadd 53 1024) (SFsub 53 1024) (SFdiv 53 1024) (fun a b => SFleb b a).

Section Control.
(* interaction_expansion.ipp:16-17,25 — the settings total_steps, thermalization_steps and
   measurement_period. *)
Variables (mc_steps therm_steps measurement_period : nat).

(* interaction_expansion.ipp:50-52 — the check of the constructor (the parameter is an int). *)
Definition period_accepted : bool := (0 < measurement_period) && (measurement_period < 2 ^ 31).

(* the parts of update() and measure() (interaction_expansion.ipp:96-123 one Monte Carlo step;
   130 recompute_matrix; 138 global_updates; 144 prepare_for_measurement; 163-164 the
   measurement). *)
Inductive part := Sweep | Recompute | Global | Prepare | Measure.

(* interaction_expansion.hpp:335,345 — is_thermalized_in_previous_step_ and step. *)
Record pstate := PState { ps_step : nat; ps_prev : bool }.

(* interaction_expansion.ipp:28,36 *)
Definition pinit : pstate := PState 0 false.

(* interaction_expansion.hpp:277-279 — is_thermalized. *)
Definition is_thermalized (s : pstate) : bool := therm_steps < ps_step s.

(* interaction_expansion.ipp:86-154 — update: the counter is an unsigned long (line 100), the
   factor 20 * measurement_period an unsigned int, and a remainder by zero is undefined
   (line 129). *)
Definition update (s : pstate) : outcome (pstate * seq part) :=
  let step := iter measurement_period (fun k => k.+1 %% 2 ^ 64) (ps_step s) in
  let every := (20 * measurement_period) %% 2 ^ 32 in
  if every == 0 then UB else
  let heavy := if step %% every == 0 then [:: Recompute] else [::] in
  let therm := is_thermalized (PState step (ps_prev s)) in
  let prep := if therm && ~~ ps_prev s then [:: Prepare] else [::] in
  Ok (PState step therm, nseq measurement_period Sweep ++ heavy ++ [:: Global] ++ prep).

(* interaction_expansion.ipp:156-174 — measure. *)
Definition measure (s : pstate) : seq part := if ~~ is_thermalized s then [::] else [:: Measure].

(* interaction_expansion.ipp:195-205 — fraction_completed. *)
Definition fraction_completed (A : prog_arith) (s : pstate) : pa_num A :=
  if ~~ is_thermalized s then pa_N A 0%num
  else pa_div (pa_sub (pa_N A (N.of_nat (ps_step s))) (pa_N A (N.of_nat therm_steps))) (pa_N A (N.of_nat mc_steps)).

(* interaction_expansion.hpp:55-56 — one turn of the main loop up to the schedule check. *)
Definition cycle (s : pstate) : outcome (pstate * seq part) :=
  obind (update s) (fun st => Ok (st.1, st.2 ++ measure st.1)).

(* n turns, with everything they executed (interaction_expansion.hpp:54-56) *)
Fixpoint cycles (n : nat) (s : pstate) : outcome (pstate * seq part) :=
  match n with
  | 0 => Ok (s, [::])
  | m.+1 => obind (cycles m s) (fun st => obind (cycle st.1) (fun st' => Ok (st'.1, st.2 ++ st'.2)))
  end.

(* interaction_expansion.hpp:53 — the local variables of run() on one rank, with its parts so far. *)
Record rank := Rank { rk_state : pstate; rk_stopped : bool; rk_log : seq part }.
(* interaction_expansion.hpp:53 — before the loop. *)
Definition rank_init : rank := Rank pinit false [::].

(* interaction_expansion.hpp:54-58 — one rank from one reduction to the next: c.1 further
   turns go by before the schedule check is pending (none if already stopped), then
   stop_callback() answers c.2. *)
Definition rank_turns (r : rank) (c : nat * bool) : outcome rank :=
  obind (cycles (if rk_stopped r then 1 else c.1.+1) (rk_state r))
    (fun st => Ok (Rank st.1 c.2 (rk_log r ++ st.2))).

(* interaction_expansion.hpp:54-58 for all ranks *)
Fixpoint all_turns (rs : seq rank) (cs : seq (nat * bool)) : outcome (seq rank) :=
  match rs, cs with
  | r :: rs', c :: cs' => obind (rank_turns r c) (fun r' => obind (all_turns rs' cs') (fun l => Ok (r' :: l)))
  | _, _ => Ok [::]
  end.

(* interaction_expansion.hpp:59 — local_fraction. *)
Definition local_fraction (A : prog_arith) (r : rank) : pa_num A :=
  if rk_stopped r then pa_N A 1%num else fraction_completed A (rk_state r).

(* interaction_expansion.hpp:60 — all_reduce with std::plus; the order of the additions is the
   order of the ranks. *)
Definition all_reduce (A : prog_arith) (rs : seq rank) : pa_num A :=
  match [seq local_fraction A r | r <- rs] with
  | [::] => pa_N A 0%num
  | f :: l => foldl (@pa_add A) f l
  end.

(* how far run() has come after the given schedule: still in the loop, or returned after so
   many reductions, with the values !stopped of line 72. *)
Inductive progress := Running of seq rank | Returned of nat & seq rank & seq bool.

(* interaction_expansion.hpp:52-73 — run on all ranks; one entry of the schedule per reduction. *)
Fixpoint run_from (A : prog_arith) (j : nat) (rs : seq rank) (sched : seq (seq (nat * bool))) : outcome progress :=
  match sched with
  | [::] => Ok (Running rs)
  | cs :: rest => obind (all_turns rs cs) (fun rs' =>
      if pa_ge (all_reduce A rs') (pa_N A 1%num)
      then Ok (Returned j.+1 rs' [seq ~~ rk_stopped r | r <- rs'])
      else run_from A j.+1 rs' rest)
  end.
(* interaction_expansion.hpp:52-73 — run(). *)
Definition run (A : prog_arith) (n_ranks : nat) (sched : seq (seq (nat * bool))) : outcome progress :=
  run_from A 0 (nseq n_ranks rank_init) sched.

End Control.
