(* Specification vocabulary for matrices: determinant, inverse, selection of
   rows and columns, stated directly with finite sums and mathcomp's \det. *)
From mathcomp Require Import all_ssreflect ssralg matrix.

Set Implicit Arguments.
Unset Strict Implicit.
Unset Printing Implicit Defensive.

Local Open Scope ring_scope.

Section Spec.
Variable F : fieldType.

(* determinant of the n x n block of an entry function *)
Definition det_of (n : nat) (a : nat -> nat -> F) : F := \det (\matrix_(i < n, j < n) a i j).

(* b is the inverse of a on the n x n block *)
Definition inverse_of (n : nat) (a b : nat -> nat -> F) : Prop :=
  forall i j, (i < n)%N -> (j < n)%N ->
    \sum_(k < n) a i k * b k j = (i == j)%:R.

(* the matrix [[a, b], [c, d]] whose upper left block is n x n *)
Definition bordered (n : nat) (a b c d : nat -> nat -> F) (i j : nat) : F :=
  if (i < n)%N then (if (j < n)%N then a i j else b i (j - n)%N)
  else (if (j < n)%N then c (i - n)%N j else d (i - n)%N (j - n)%N).

(* rows and columns picked in the given order *)
Definition select (a : nat -> nat -> F) (rs cs : seq nat) (i j : nat) : F :=
  a (nth 0%N rs i) (nth 0%N cs j).

(* the positions below n that are not in l, in increasing order *)
Definition others (n : nat) (l : seq nat) : seq nat := [seq i <- iota 0 n | i \notin l].

(* a with its last row (column) of an n x n matrix replaced *)
Definition with_last_row (n : nat) (a : nat -> nat -> F) (r : nat -> F) (i j : nat) : F :=
  if i == (n - 1)%N then r j else a i j.
Definition with_last_col (n : nat) (a : nat -> nat -> F) (c : nat -> F) (i j : nat) : F :=
  if j == (n - 1)%N then c i else a i j.

(* a with row m (column m) replaced; both replaced *)
Definition with_row (m : nat) (a : nat -> nat -> F) (r : nat -> F) (i j : nat) : F :=
  if i == m then r j else a i j.
Definition with_row_col (m : nat) (a : nat -> nat -> F) (r c : nat -> F) (i j : nat) : F :=
  if i == m then r j else if j == m then c i else a i j.

(* a with diff[p] added to the diagonal element pos[p] for every p *)
Definition with_diag (pos : seq nat) (diff : seq F) (a : nat -> nat -> F) (i j : nat) : F :=
  a i j + (if (i == j) && (i \in pos) then nth 0 diff (index i pos) else 0).

End Spec.

(* applying a list of position exchanges to a list *)
Definition exchange (l : seq nat) (p q : nat) : seq nat :=
  [seq nth 0%N l (if i == p then q else if i == q then p else i) | i <- iota 0 (size l)].
Definition exchange_all (l : seq nat) (ps : seq (nat * nat)) : seq nat :=
  foldl (fun l pq => exchange l pq.1 pq.2) l ps.
(* the exchanges (l[M-1], n-1), (l[M-2], n-2), ... that move the M listed positions
   to the end of 0..n-1 *)
Definition exchanges_to_end (n : nat) (l : seq nat) : seq (nat * nat) :=
  [seq (nth 0%N l (size l - 1 - k)%N, (n - 1 - k)%N) | k <- iota 0 (size l)].
