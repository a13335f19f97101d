(* Model of /repo/include/alps/fastupdate/detail/fastupdate_formula.ipp.
   An in/out argument ResizableMatrix becomes (size, entries) in the result.
   safe_determinant / safe_inverse are the plain determinant and inverse here; that
   they agree is property C07.  Element type: an arbitrary field. *)
From mathcomp Require Import all_ssreflect ssralg matrix.
From Verif Require Import Outcome MatLib.

Set Implicit Arguments.
Unset Strict Implicit.
Unset Printing Implicit Defensive.

Local Open Scope ring_scope.

Section Formula.
Variable F : fieldType.
Implicit Types (invA B C D invG Q R S : fmat F).

(* ---- appending rows and columns ---- *)

(* fastupdate_formula.ipp:32-55 — compute_det_ratio_up(B, C, D, invA). *)
Definition det_ratio_up (N M : nat) B C D invA : F :=
  if N == 0%N then fdet M D
  else fdet M (fsub D (fmul N (fmul N C invA) B)).

(* fastupdate_formula.ipp:57-104 — compute_inverse_matrix_up(B, C, D, invA):
   new size, new entries and the returned ratio.  For M = 0 the code inverts an
   empty matrix (maxCoeff of an empty matrix): UB. *)
Definition inverse_matrix_up (N M : nat) B C D invA : outcome (nat * fmat F * F) :=
  if M == 0%N then UB
  else if N == 0%N then Ok (M, finv M D, fdet M D)
  else
    let C_invA := fmul N C invA in                        (* line 82 *)
    let H := finv M (fsub D (fmul N C_invA B)) in         (* line 83 *)
    let invA_B := fmul N invA B in                        (* line 86 *)
    let Fb := fmul M (fopp invA_B) H in                   (* line 87 *)
    let Gb := fmul M (fopp H) C_invA in                   (* line 92 *)
    let E := fsub invA (fmul M invA_B Gb) in              (* line 95 *)
    Ok ((N + M)%N, fblocks N N E Fb Gb H, 1 / fdet M H). (* lines 97-100 *)

(* ---- removing rows and columns ---- *)

(* fastupdate_formula.ipp:133 — std::abs(rows_removed[j] - cols_removed[j]). *)
Definition absdiff (r c : nat) : nat := ((r - c) + (c - r))%N.

(* fastupdate_formula.ipp:113-142 — compute_det_ratio_down with position lists. *)
Definition det_ratio_down (M : nat) (rows cols : seq nat) invG : F :=
  let H : fmat F := fun i j => invG (nth 0%N cols i) (nth 0%N rows j) in
  let perm := (\sum_(j < M) absdiff (nth 0%N rows j) (nth 0%N cols j))%N in
  if ~~ odd perm then fdet M H else - fdet M H.

(* fastupdate_formula.ipp:144-165 — compute_det_ratio_down for the last M rows
   and columns of an NpM x NpM matrix. *)
Definition det_ratio_down_last (NpM M : nat) invG : F :=
  fdet M (fblock (NpM - M) (NpM - M) invG).

(* fastupdate_formula.ipp:209-218 and 244-253 — E -= F H^{-1} G, then shrink. *)
Definition downdate (N M : nat) invG : fmat F :=
  if (0 < N)%N then
    fsub invG (fmul M (fmul M (fblock 0 N invG) (finv M (fblock N N invG)))
                      (fblock N 0 invG))
  else invG.

(* fastupdate_formula.ipp:202-207 — step 1: exchange the positions to be removed
   with the end, from the largest position on. *)
Definition move_to_end (NpM M : nat) (rows cols : seq nat) invG : fmat F :=
  foldl (fun a idel =>
    fswap_row (nth 0%N cols (M - 1 - idel)) (NpM - 1 - idel)
      (fswap_col (nth 0%N rows (M - 1 - idel)) (NpM - 1 - idel) a))
    invG (iota 0 M).

(* fastupdate_formula.ipp:167-219 — compute_inverse_matrix_down with position
   lists.  Positions outside the matrix and too short lists are UB in the release
   build (the assertions are compiled out). *)
Definition inverse_matrix_down (NpM M : nat) (rows cols : seq nat) invG
  : outcome (nat * fmat F) :=
  if (NpM < M)%N then Throw
  else if M == 0%N then Throw
  else if [|| (size rows < M)%N, (size cols < M)%N,
              ~~ all (fun p => p < NpM)%N (take M rows)
            | ~~ all (fun p => p < NpM)%N (take M cols)] then UB
  else Ok ((NpM - M)%N, downdate (NpM - M) M (move_to_end NpM M rows cols invG)).

(* fastupdate_formula.ipp:221-254 — compute_inverse_matrix_down, last M. *)
Definition inverse_matrix_down_last (NpM M : nat) invG : outcome (nat * fmat F) :=
  if (NpM < M)%N then Throw
  else if M == 0%N then Throw
  else Ok ((NpM - M)%N, downdate (NpM - M) M invG).

(* ---- ReplaceHelper ---- *)

(* fastupdate_formula.ipp:283-314 — ReplaceHelper::compute_det_ratio: the returned
   ratio and the members Mmat_, inv_tSp_ (None where the code leaves them
   unassigned).  N_ = N, M_ = M, M_old_ = Mo (constructor, lines 264-281). *)
Definition replace_det_ratio (N M Mo : nat) Q R S invG
  : F * option (fmat F * fmat F) :=
  if N == 0%N then (fdet M S * fdet Mo invG, None)
  else
    let tS := fblock N N invG in
    if fdet Mo tS == 0 then (0, None)
    else
      let Mmat := if (0 < Mo)%N
        then fsub invG (fmul Mo (fmul Mo (fblock 0 N invG) (finv Mo tS)) (fblock N 0 invG))
        else invG in
      let inv_tSp := fsub S (fmul N R (fmul N Mmat Q)) in
      (fdet Mo tS * fdet M inv_tSp, Some (Mmat, inv_tSp)).

(* fastupdate_formula.ipp:316-353 — ReplaceHelper::compute_inverse_matrix; using
   the members before they are assigned is UB. *)
Definition replace_inverse_matrix (N M : nat) Q R S
    (work : option (fmat F * fmat F)) : outcome (nat * fmat F) :=
  if N == 0%N then Ok (M, finv M S)
  else if work is Some (Mmat, inv_tSp) then
    if (0 < M)%N then
      let tSp := finv M inv_tSp in
      let tQp := fmul N (fopp Mmat) (fmul M Q tSp) in
      let tRp := fmul N (fopp (fmul M tSp R)) Mmat in
      let tPp := fsub Mmat (fmul M (fmul N Mmat Q) tRp) in
      Ok ((N + M)%N, fblocks N N tPp tQp tRp tSp)
    else Ok (N, Mmat)
  else UB.

(* ---- last row / last column ---- *)

(* fastupdate_formula.ipp:358-365 — compute_det_ratio_relace_last_row;
   new_row_elements is a 1 x N matrix. *)
Definition det_ratio_last_row (N : nat) invG (row : fmat F) : F :=
  fmul N row invG 0%N (N - 1)%N.

(* fastupdate_formula.ipp:370-389 — compute_inverse_matrix_replace_last_row. *)
Definition inverse_last_row (N : nat) invG (row : fmat F) (det_rat : F) : fmat F :=
  let last_col n := invG n (N - 1)%N in
  let Rv m := if m == (N - 1)%N then 0 else fmul N row invG 0%N m in
  let inv_det_rat := 1 / det_rat in
  fun n m => if m == (N - 1)%N then last_col n * inv_det_rat
             else invG n m - last_col n * Rv m * inv_det_rat.

(* fastupdate_formula.ipp:394-401 — compute_det_ratio_relace_last_col;
   new_col_elements is an N x 1 matrix. *)
Definition det_ratio_last_col (N : nat) invG (col : fmat F) : F :=
  fmul N invG col (N - 1)%N 0%N.

(* fastupdate_formula.ipp:406-427 — compute_inverse_matrix_replace_last_col. *)
Definition inverse_last_col (N : nat) invG (col : fmat F) (det_rat : F) : fmat F :=
  let last_row n := invG (N - 1)%N n in
  let Rv m := if m == (N - 1)%N then 0 else fmul N invG col m 0%N in
  let inv_det_rat := 1 / det_rat in
  fun m n => if m == (N - 1)%N then last_row n * inv_det_rat
             else invG m n - last_row n * Rv m * inv_det_rat.

End Formula.
