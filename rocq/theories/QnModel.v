(* Model of make_quantum_numbers in /repo/src/green_function.h:310-374.
   Simplifications: the elements of the valarray<int> are integers (no overflow: a vertex
   has few parts); the table of alphas has an entry for every state and part. *)
From mathcomp Require Import all_ssreflect ssralg ssrnum ssrint.
From Verif Require Import Outcome GroupModel SubModel.

Set Implicit Arguments.
Unset Strict Implicit.
Unset Printing Implicit Defensive.

Local Open Scope ring_scope.

Section Qn.
Variable F : numFieldType.
(* green_function.h:317-318 — nflavor() and nsite() of the Green function, and which of its
   entries is_zero (lines 236-239) does not call zero. *)
Variables (n_flavor n_site : nat) (nz : nat -> nat -> nat -> bool).

(* green_function.h:328-330 — one row of the array connected. *)
Definition connected_row (flavor site1 : nat) : outcome (seq bool) :=
  oseq [seq connected_entry n_flavor n_site nz flavor site1 site2 | site2 <- iota 0 n_site].
(* green_function.h:327-331 — the array connected for one flavor. *)
Definition connected_table (flavor : nat) : outcome (seq (seq bool)) :=
  oseq [seq connected_row flavor site1 | site1 <- iota 0 n_site].
(* green_function.h:332 — make_groups for one flavor: (groups[flavor], group_map[flavor]). *)
Definition flavor_groups (flavor : nat) : outcome (seq (seq nat) * seq nat) :=
  obind (connected_table flavor) (fun c =>
    Ok (make_groups n_site (fun i j => nth false (nth [::] c i) j))).
(* green_function.h:326-334 — the loop over the flavors. *)
Definition all_groups : outcome (seq (seq (seq nat) * seq nat)) :=
  oseq [seq flavor_groups flavor | flavor <- iota 0 n_flavor].

(* green_function.h:337 — *max_element of num_groups; dereferencing the end of an empty
   vector is UB. *)
Definition n_dim_of (gs : seq (seq (seq nat) * seq nat)) : outcome nat :=
  if gs is [::] then UB else Ok (foldl maxn 0%N [seq size g.1 | g <- gs]).

(* green_function.h:364, 367 — qn_diff[k] += x. *)
Definition qn_add (q : seq int) (k : nat) (x : int) : outcome (seq int) :=
  if (k < size q)%N then Ok (set_nth 0 q k (nth 0 q k + x)) else UB.
(* green_function.h:364, 367 — group_map[flavor][site]. *)
Definition group_at (maps : seq (seq nat)) (flavor site : nat) : outcome nat :=
  if (flavor < size maps)%N && (site < size (nth [::] maps flavor))%N
  then Ok (nth 0%N (nth [::] maps flavor) site) else UB.

(* green_function.h:348-368 — the body of the loop over the parts of a vertex. *)
Definition qn_part (n_dim : nat) (maps : seq (seq nat)) (vd : vdef F) (i_af : nat)
    (o : outcome (seq int)) (r : nat) : outcome (seq int) :=
  obind o (fun q =>
    if ~~ ((r < size (vd_flavors vd))%N && ((2 * r).+1 < size (vd_sites vd))%N) then UB else
    let flavor := nth 0%N (vd_flavors vd) r in
    let site1 := nth 0%N (vd_sites vd) (2 * r) in
    let site2 := nth 0%N (vd_sites vd) (2 * r).+1 in
    let PH : int :=
      if site1 == site2 then
        (if `|vd_alpha vd i_af r| < `|vd_alpha vd i_af r - 1| then 1 else -1)
      else 1 in
    obind (group_at maps flavor site1) (fun g1 =>
    obind (qn_add q (n_dim * flavor + g1)%N PH) (fun q1 =>
    obind (group_at maps flavor site2) (fun g2 =>
    qn_add q1 (n_dim * flavor + g2)%N (- PH))))).

(* green_function.h:345-369 — the quantum number of one state of a vertex. *)
Definition qn_diff (n_dim : nat) (maps : seq (seq nat)) (vd : vdef F) (i_af : nat) : outcome (seq int) :=
  foldl (qn_part n_dim maps vd i_af) (Ok (nseq (n_dim * n_flavor) 0)) (iota 0 (vd_rank vd)).
(* green_function.h:342-371 — those of all states of a vertex. *)
Definition vertex_qns (n_dim : nat) (maps : seq (seq nat)) (vd : vdef F) : outcome (seq (seq int)) :=
  oseq [seq qn_diff n_dim maps vd i_af | i_af <- iota 0 (vd_naf vd)].

(* green_function.h:310-374 — make_quantum_numbers: the return value, groups and
   group_map. *)
Definition make_quantum_numbers (vertices : seq (vdef F))
  : outcome (seq (seq (seq int)) * seq (seq (seq nat)) * seq (seq nat)) :=
  obind all_groups (fun gs =>
  obind (n_dim_of gs) (fun n_dim =>
  obind (oseq [seq vertex_qns n_dim [seq g.2 | g <- gs] vd | vd <- vertices]) (fun qns =>
  Ok (qns, [seq g.1 | g <- gs], [seq g.2 | g <- gs])))).

End Qn.
