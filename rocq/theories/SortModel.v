(* Model of the two sorting-based sign routines of
   /repo/include/alps/fastupdate/detail/util.hpp.
   Values are elements of an arbitrary type with a boolean comparison. *)
From mathcomp Require Import all_ssreflect ssralg ssrint.
From Verif Require Import Outcome.

Set Implicit Arguments.
Unset Strict Implicit.
Unset Printing Implicit Defensive.

Local Open Scope ring_scope.
Import GRing.Theory.

Section Sort.

Variables (T : Type) (lt : rel T).

(* detail/util.hpp:25-31 — one sweep "for (i=0; i<N-1; ++i)" of the bubble sort,
   positioned at element [x] with the remaining elements [l].  Returns the new
   contents and the number of exchanges ("perm *= -1; exchanged = true;"). *)
Fixpoint bubble_from (x : T) (l : seq T) : seq T * nat :=
  if l is y :: l' then
    if ~~ lt x y then
      let: (r, k) := bubble_from x l' in (y :: r, k.+1)
    else
      let: (r, k) := bubble_from y l' in (x :: r, k)
  else ([:: x], 0%N).

(* detail/util.hpp:24-31 — one iteration of the outer loop up to the test at
   line 32.  An empty sequence has no pair to look at. *)
Definition bubble_pass (l : seq T) : seq T * nat :=
  if l is x :: l' then bubble_from x l' else ([::], 0%N).

(* detail/util.hpp:22-34 — "int perm = 1; while (true) {...}".  [fuel] bounds the
   number of sweeps; running out of fuel is [Diverge]. *)
Fixpoint bubble_loop (fuel : nat) (perm : int) (l : seq T) : outcome int :=
  if fuel is fuel'.+1 then
    let: (l', k) := bubble_pass l in
    let perm' := perm * (-1) ^+ k in
    if k == 0%N then Ok perm' else bubble_loop fuel' perm' l'
  else Diverge.

(* detail/util.hpp:13-35 — permutation(begin, end). *)
Definition permutation_sign (fuel : nat) (l : seq T) : outcome int :=
  bubble_loop fuel 1 l.

(* detail/util.hpp:169 — swap( *it1, *it2 ) for it1 = first+i, it2 = first+j.
   [x0] is a default that is never read when i, j are in range. *)
Definition swap_at (x0 : T) (i j : nat) (l : seq T) : seq T :=
  set_nth x0 (set_nth x0 l i (nth x0 l j)) j (nth x0 l i).

(* detail/util.hpp:167-175 — body of the inner loop at position [i]; the state is
   the sequence, the exchange counter and the flag "swapped". *)
Definition comb_step (x0 : T) (gap : nat) (st : seq T * nat * bool) (i : nat)
  : seq T * nat * bool :=
  let: (l, c, sw) := st in
  if lt (nth x0 l (i + gap)%N) (nth x0 l i)
  then (swap_at x0 i (i + gap)%N l, c.+1, true)
  else (l, c, sw).

(* detail/util.hpp:162-175 — one sweep with the given gap. *)
Definition comb_pass (x0 : T) (gap : nat) (l : seq T) (c : nat)
  : seq T * nat * bool :=
  foldl (comb_step x0 gap) (l, c, false) (iota 0 (size l - gap)).

(* detail/util.hpp:160 and 181 — static_cast<int>(n/1.3).  The model uses the
   exact quotient floor(10 n / 13); the proofs only use that the value is
   smaller than n for n > 0 and 0 for n = 0. *)
Definition shrink (n : nat) : nat := ((10 * n) %/ 13)%N.

(* detail/util.hpp:161-182 — the outer loop.  "std::advance(it2, gap)" (line 166)
   beyond the end of the sequence is undefined behaviour. *)
Fixpoint comb_loop (fuel : nat) (x0 : T) (gap : nat) (l : seq T) (c : nat)
  : outcome (seq T * nat) :=
  if fuel is fuel'.+1 then
    if (size l < gap)%N then UB else
    let: (l', c', swapped) := comb_pass x0 gap l c in
    if ~~ swapped && (gap == 1)%N then Ok (l', c')
    else comb_loop fuel' x0 (maxn (shrink gap) 1) l' c'
  else Diverge.

(* detail/util.hpp:151-185 — comb_sort: final contents and returned sign. *)
Definition comb_sort (fuel : nat) (x0 : T) (l : seq T) : outcome (seq T * int) :=
  obind (comb_loop fuel x0 (shrink (size l)) l 0) (fun r =>
    Ok (r.1, if ~~ odd r.2 then 1 else -1)).

End Sort.
