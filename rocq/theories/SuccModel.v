(* Model of the replacement of several rows and columns one after the other,
   compute_inverse_matrix_replace_rows_cols_succesive and
   compute_inverse_matrix_replace_single_row_col in /repo/src/fastupdate_formula.h
   ("fastupdate_formula.h").  Simplifications as in SrcFormulaModel.v; the factor of one step is
   kept in a double at fastupdate_formula.h:547, which restricts the first function to real
   matrices. *)
From mathcomp Require Import all_ssreflect ssralg matrix.
From Verif Require Import Outcome MatLib SrcFormulaModel.

Set Implicit Arguments.
Unset Strict Implicit.
Unset Printing Implicit Defensive.

Local Open Scope ring_scope.

Section Succ.
Variable F : fieldType.
Implicit Types (invG Q R S Dr Dc : fmat F).

(* fastupdate_formula.h:535-540 — assignment to one element. *)
Definition set_at (a : fmat F) (i j : nat) (v : F) : fmat F := fun p q => if (p == i) && (q == j) then v else a p q.

(* fastupdate_formula.h:533-543 and 579-589 — one turn of the loop over i: Dr, Dc, idx, idx2. *)
Definition scatter_step (rc : seq nat) Q R S (im : nat) (st : fmat F * fmat F * nat * nat) (i : nat) : fmat F * fmat F * nat * nat :=
  let: (Dr, Dc, idx, idx2) := st in
  if i \notin rc then (set_at Dr 0 i (R im idx), set_at Dc i 0 (Q idx im), idx.+1, idx2)
  else (set_at Dr 0 i (S im idx2), set_at Dc i 0 (S idx2 im), idx, idx2.+1).
(* fastupdate_formula.h:532-543 and 578-589 — the new row and column of step im. *)
Definition scatter (N : nat) (rc : seq nat) Q R S (im : nat) Dr Dc : fmat F * fmat F :=
  (foldl (scatter_step rc Q R S im) (Dr, Dc, 0%N, 0%N) (iota 0 N)).1.1.

(* fastupdate_formula.h:530-551 — the loop over the rows and columns. *)
Definition succ_step (tiny : F -> F -> bool) (N : nat) (rc : seq nat) Q R S (singular : bool)
    (st : fmat F * fmat F * fmat F * F) (im : nat) : fmat F * fmat F * fmat F * F :=
  let: (invG, Dr, Dc, lambda) := st in
  let: (Dr', Dc') := scatter N rc Q R S im Dr Dc in
  let: (invG', rtmp) := src_replace_row_col tiny N invG Dr' Dc' (nth 0%N rc im) singular in
  (invG', Dr', Dc', lambda * rtmp).

(* fastupdate_formula.h:496-552 — compute_inverse_matrix_replace_rows_cols_succesive: the inverse
   and the returned factor.  is_included[rows_cols[im]] is undefined beyond the matrix. *)
Definition src_succesive (tiny : F -> F -> bool) (N : nat) invG Q R S (rc : seq nat) (singular : bool) (junk : fmat F) : outcome (fmat F * F) :=
  if all (fun p => p < N)%N rc then
    let: (invG', _, _, lambda) := foldl (succ_step tiny N rc Q R S singular) (invG, junk, junk, 1) (iota 0 (size rc)) in
    Ok (invG', lambda)
  else UB.

(* fastupdate_formula.h:554-597 — compute_inverse_matrix_replace_single_row_col. *)
Definition src_single (N : nat) invG Q R S (rc : seq nat) (only_det : bool) (junk : fmat F) : outcome (fmat F * F) :=
  if size rc != 1%N then Throw
  else if all (fun p => p < N)%N rc then
    let: (Dr, Dc) := scatter N rc Q R S 0 junk junk in
    let: (invG', rtmp) := src_replace_row_col2 N invG Dr Dc (nth 0%N rc 0) only_det in
    Ok (invG', 1 * rtmp)
  else UB.

End Succ.
