(* Model of mymod (/repo/src/util.h) and of the bare Green function
   (/repo/src/green_function.h, "green_function.h").
   Simplifications:
   - a finite double is a rational number, arithmetic is exact;
   - values live in a vector space V over the rationals (double or complex<double>),
     mycast<T> (util.h:20-30) is left out: it projects every coefficient linearly;
   - the while loops take a bound on the number of iterations (Diverge beyond);
   - reading spline_coeff_ outside its extents is UB. *)
From mathcomp Require Import all_ssreflect ssralg ssrnum ssrint rat intdiv.
From Verif Require Import Outcome.

Set Implicit Arguments.
Unset Strict Implicit.
Unset Printing Implicit Defensive.

Local Open Scope ring_scope.

(* static_cast from double to an integer type: rounding towards zero
   (util.h:257, 259, green_function.h:188). *)
Definition truncq (x : rat) : int :=
  if 0 <= x then (numq x %/ denq x)%Z else - ((- numq x) %/ denq x)%Z.

(* representable as int: the conversion is undefined otherwise (util.h:257, green_function.h:188). *)
Definition two31 : int := 2%:Z ^+ 31.
(* util.h:257, green_function.h:188 — in the range of int. *)
Definition is_int32 (k : int) : bool := (- two31 <= k) && (k < two31).

(* util.h:254-261 — mymod. *)
Definition mymod (x beta : rat) : outcome rat :=
  if 0 <= x then
    let k := truncq (x / beta) in
    if is_int32 k then Ok (x - beta * k%:~R) else UB
  else
    let k := truncq (- x / beta) in
    if is_int32 k && is_int32 (k + 1) then Ok (x + beta * (k + 1)%:~R) else UB.

(* green_function.h:145-148, 222-225 — while (dt >= beta_). *)
Fixpoint fold_down (fuel : nat) (beta dt sign : rat) : outcome (rat * rat) :=
  if beta <= dt then
    if fuel is n.+1 then fold_down n beta (dt - beta) (sign * -1) else Diverge
  else Ok (dt, sign).
(* green_function.h:149-152, 226-229 — while (dt < 0.0). *)
Fixpoint fold_up (fuel : nat) (beta dt sign : rat) : outcome (rat * rat) :=
  if dt < 0 then
    if fuel is n.+1 then fold_up n beta (dt + beta) (sign * -1) else Diverge
  else Ok (dt, sign).
(* green_function.h:143-152, 221-229 — both loops. *)
Definition fold_time (fuel : nat) (beta dt : rat) : outcome (rat * rat) :=
  obind (fold_down fuel beta dt 1) (fun r => fold_up fuel beta r.1 r.2).


Section Green.
Variable V : lmodType [ringType of rat].

(* green_function.h:242-249 — the members used in evaluation; num_flavors() and
   num_sites() are extents of data_, spline_coeff_ has the extents
   [n_flavor][n_site][n_site][n_tau-1][4]. *)
Record green := Green {
  gr_beta : rat; gr_dtau : rat; gr_inv_dtau : rat; gr_ntau : nat;
  gr_flavors : nat; gr_sites : nat;
  gr_coeff : nat -> nat -> nat -> nat -> nat -> V }.

(* green_function.h:28-29, 45-52 — the part of read_itime_data that sets the grid. *)
Definition green_grid (beta : rat) (n_tau n_flavor n_site : nat)
    (coeff : nat -> nat -> nat -> nat -> nat -> V) : green :=
  let dtau := beta / (n_tau%:R - 1) in
  Green beta dtau (1 / dtau) n_tau n_flavor n_site coeff.

(* green_function.h:55-57 — tau_. *)
Definition grid_point (beta : rat) (n_tau t : nat) : rat := beta * t%:R / (n_tau%:R - 1).

(* green_function.h:185-214 — interpolate. *)
Definition interpolate (g : green) (flavor site site2 : nat) (tau : rat) : outcome V :=
  let idx0 := truncq (tau * gr_inv_dtau g) in
  let idx := if idx0 == (gr_ntau g)%:Z - 1 then (gr_ntau g)%:Z - 2%N%:Z else idx0 in
  if [&& (flavor < gr_flavors g)%N, (site < gr_sites g)%N, (site2 < gr_sites g)%N,
         0 <= idx & idx < (gr_ntau g)%:Z - 1] then
    let h := tau - idx%:~R * gr_dtau g in
    let k := `|idx|%N in
    let y := gr_coeff g flavor site site2 k 0 in
    let c := gr_coeff g flavor site site2 k 1 in
    let b := gr_coeff g flavor site site2 k 2 in
    let a := gr_coeff g flavor site site2 k 3 in
    Ok (h *: (h *: (h *: a + b) + c) + y)
  else UB.

(* operator.hpp:44-84 — flavor, site, time and small index of an operator. *)
Record gop := Gop { g_flavor : nat; g_site : nat; g_time : rat; g_small : int }.

(* green_function.h:128-158 — operator()(annihilator, creator). *)
Definition green_ops (fuel : nat) (g : green) (c cdagger : gop) : outcome V :=
  let flavor := g_flavor c in
  let site1 := g_site c in
  let site2 := g_site cdagger in
  let dt := g_time c - g_time cdagger in
  if dt == 0 then
    if g_small cdagger < g_small c then interpolate g flavor site1 site2 0
    else obind (interpolate g flavor site1 site2 (gr_beta g)) (fun v => Ok (- v))
  else
    obind (fold_time fuel (gr_beta g) dt) (fun r =>
    obind (interpolate g flavor site1 site2 r.1) (fun v => Ok (r.2 *: v))).

(* green_function.h:216-234 — operator()(delta_t, flavor, site1, site2); 1E-8 is the
   rational 10^-8. *)
Definition green_dt (fuel : nat) (g : green) (delta_t : rat) (flavor site1 site2 : nat) : outcome V :=
  obind (fold_time fuel (gr_beta g) delta_t) (fun r =>
  let dt := if r.1 == 0 then r.1 + 1 / 10%:R ^+ 8 else r.1 in
  obind (interpolate g flavor site1 site2 dt) (fun v => Ok (r.2 *: v))).

End Green.
