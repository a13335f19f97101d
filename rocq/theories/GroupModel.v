(* Model of make_groups in /repo/src/green_function.h:252-290 and of the
   connectivity matrix that make_quantum_numbers (lines 310-374) hands to it. *)
From mathcomp Require Import all_ssreflect.
From Verif Require Import Outcome.

Set Implicit Arguments.
Unset Strict Implicit.
Unset Printing Implicit Defensive.

(* green_function.h:261-267 — the inner loop over site2 < site1: the group of the
   first earlier site connected to site1, or None for connected_to_where == -1.
   map[site2] is never -1 for site2 < site1 because every earlier iteration sets
   it (lines 272 and 275). *)
Definition connected_to_where (connected : nat -> nat -> bool) (map : seq nat)
    (site1 : nat) : option nat :=
  if [seq site2 <- iota 0 site1 | connected site1 site2] is s :: _
  then Some (nth 0 map s) else None.

(* green_function.h:260-277 — body of the outer loop for site1; the state is
   (groups, map). *)
Definition group_step (connected : nat -> nat -> bool)
    (st : seq (seq nat) * seq nat) (site1 : nat) : seq (seq nat) * seq nat :=
  let: (groups, map) := st in
  if connected_to_where connected map site1 is Some g then
    (set_nth [::] groups g (rcons (nth [::] groups g) site1), rcons map g)
  else (rcons groups [:: site1], rcons map (size groups)).

(* green_function.h:255-290 — make_groups(N, connected, groups, map).
   Simplification: map is grown element by element instead of being filled with
   -1 first. *)
Definition make_groups (N : nat) (connected : nat -> nat -> bool)
  : seq (seq nat) * seq nat :=
  foldl (group_step connected) ([::], [::]) (iota 0 N).

(* green_function.h:236-239 — is_zero(flavor, site1, site2, eps) as the caller
   sees it: [nz f s1 s2] says whether the entry is non-zero.  Reading outside the
   table (boost::multi_array with checks disabled) is UB. *)
Definition is_zero (n_flavor n_site : nat) (nz : nat -> nat -> nat -> bool)
    (flavor site1 site2 : nat) : outcome bool :=
  if [&& flavor < n_flavor, site1 < n_site & site2 < n_site]
  then Ok (~~ nz flavor site1 site2) else UB.

(* green_function.h:326-331 — the entry connected[site1][site2] computed for
   [flavor]; the call on line 329 passes (site1, site2, flavor) to
   is_zero(flavor, site1, site2). *)
Definition connected_entry (n_flavor n_site : nat) (nz : nat -> nat -> nat -> bool)
    (flavor site1 site2 : nat) : outcome bool :=
  obind (is_zero n_flavor n_site nz site1 site2 flavor) (fun z => Ok (~~ z)).
