(* Model of /repo/src/fastupdate_formula.h.  alps::numeric::matrix is
   alps::fastupdate::ResizableMatrix (src/matrix.hpp:5-8); an in/out matrix becomes
   (size, entries) in the result.  determinant, safe_determinant and inverse are the
   plain determinant and inverse (C07).  Element type: an arbitrary field.
   Assertions are compiled out in the release build and are not modelled. *)
From mathcomp Require Import all_ssreflect ssralg matrix.
From Verif Require Import Outcome MatLib.

Set Implicit Arguments.
Unset Strict Implicit.
Unset Printing Implicit Defensive.

Local Open Scope ring_scope.

Section SrcFormula.
Variable F : fieldType.
Implicit Types (invA B C D invG Q R S Dr Dc Mmat inv_tSp A : fmat F).

(* ---- enlarging ---- *)

(* src/fastupdate_formula.h:14-41 — compute_det_ratio_up. *)
Definition src_det_ratio_up (N M : nat) B C D invA : F :=
  if N == 0%N then fdet M D
  else fdet M (fsub D (fmul N (fmul N C invA) B)).

(* src/fastupdate_formula.h:43-103 — compute_inverse_matrix_up: the four blocks
   E, F, G, H of the enlarged inverse and the returned ratio (E, F, G are resized to
   empty blocks for N = 0, so their entries do not matter). *)
Definition src_inverse_up (N M : nat) B C D invA
  : fmat F * fmat F * fmat F * fmat F * F :=
  if N == 0%N then
    let H := finv M D in (invA, B, C, H, 1 / fdet M H)
  else
    let C_invA := fmul N C invA in
    let H := finv M (fsub D (fmul N C_invA B)) in
    let G := fopp (fmul M H C_invA) in
    let invA_B := fmul N invA B in
    let Fb := fopp (fmul M invA_B H) in
    let E := fadd (fopp (fmul M invA_B G)) invA in
    (E, Fb, G, H, 1 / fdet M H).

(* src/fastupdate_formula.h:105-164 — compute_inverse_matrix_up2: new size, entries
   and returned ratio.  invA may be the same object as invBigMat: the code copies it
   before resizing.  M = 0 fails an assertion and is not used: UB. *)
Definition src_inverse_up2 (N M : nat) B C D invA : outcome (nat * fmat F * F) :=
  if M == 0%N then UB
  else if N == 0%N then Ok (M, finv M D, fdet M D)
  else
    let C_invA := fmul N C invA in
    let H := finv M (fsub D (fmul N C_invA B)) in
    let invA_B := fmul N invA B in
    let Fb := fmul M (fopp invA_B) H in
    let Gb := fmul M (fopp H) C_invA in
    let E := fsub invA (fmul M invA_B Gb) in
    Ok ((N + M)%N, fblocks N N E Fb Gb H, 1 / fdet M H).

(* ---- removing ---- *)

(* src/fastupdate_formula.h:166-193 — compute_det_ratio_down. *)
Definition src_det_ratio_down (M : nat) (rc : seq nat) invG : F :=
  fdet M (fun i j => invG (nth 0%N rc i) (nth 0%N rc j)).

(* ResizableMatrix::swap_col followed by swap_row, as done at
   src/fastupdate_formula.h:235-236, 613-614, 623-624, 879-880, 902-903. *)
Definition swap_both (a : fmat F) (pq : nat * nat) : fmat F :=
  fswap_row pq.1 pq.2 (fswap_col pq.1 pq.2 a).

(* src/fastupdate_formula.h:233-238 — the swap list. *)
Definition swap_list (NpM M : nat) (rc : seq nat) : seq (nat * nat) :=
  [seq (nth 0%N rc (M - 1 - i), (NpM - 1 - i)%N) | i <- iota 0 M].

(* src/fastupdate_formula.h:195-261 — compute_inverse_matrix_down: new size, entries,
   swap list and returned determinant ratio. *)
Definition src_inverse_down (NpM M : nat) (rc : seq nat) invG
  : outcome (nat * fmat F * seq (nat * nat) * F) :=
  if (NpM < M)%N then Throw
  else if M == 0%N then Throw
  else if (size rc < M)%N || ~~ all (fun p => p < NpM)%N (take M rc) then UB
  else
    let N := (NpM - M)%N in
    let sl := swap_list NpM M rc in
    let a := foldl swap_both invG sl in
    if N == 0%N then Ok (0%N, a, sl, fdet NpM a)
    else
      let H := fblock N N a in
      Ok (N, fadd a (fmul M (fmul M (fopp (fblock 0 N a)) (finv M H)) (fblock N 0 a)),
          sl, fdet M H).

(* ---- one row ---- *)

(* src/fastupdate_formula.h:263-275 — compute_det_ratio_replace_row. *)
Definition src_ratio_replace_row (N : nat) invG Dr (m : nat) : F :=
  \sum_(i < N) Dr 0%N i * invG i m.

(* src/fastupdate_formula.h:277-305 — the matrix compute_imverse_matrix_replace_row
   leaves in M (lines 283-304). *)
Definition src_replace_row_entries (N : nat) invG Dr (m : nat) : fmat F :=
  let lambda := \sum_(i < N) Dr 0%N i * invG i m in
  let inv_lambda := 1 / lambda in
  let Rv j := if j == m then -1 else fmul N Dr invG 0%N j * - inv_lambda in
  fun i j =>
    let v := invG i m * Rv j - invG i j * Rv m in
    if j == m then v + invG i m * inv_lambda else v.

(* src/fastupdate_formula.h:277-305 — the function as a whole: it is declared to
   return T but has no return statement, so every call is undefined behaviour. *)
Definition src_inverse_replace_row (N : nat) invG Dr (m : nat) : outcome (fmat F * F) := UB.

(* ---- one row and one column ---- *)

(* src/fastupdate_formula.h:355-368 — the state both replace_row_col variants start
   from: inverse with position m moved to the end, new column Q and new row R
   without element m. *)
Definition rc_invG (N : nat) invG (m : nat) : fmat F := swap_both invG (m, (N - 1)%N).
(* src/fastupdate_formula.h:365-367 — Q. *)
Definition rc_Q (N : nat) Dc (m : nat) : fmat F := fswap_row m (N - 1)%N Dc.
(* src/fastupdate_formula.h:365-368 — R. *)
Definition rc_R (N : nat) Dr (m : nat) : fmat F := fswap_col m (N - 1)%N Dr.

(* src/fastupdate_formula.h:339-412 — compute_inverse_matrix_replace_row_col.  The
   test abs(tS) < eps && abs(tSp) < eps (line 375) is a parameter [tiny]. *)
Definition src_replace_row_col (tiny : F -> F -> bool) (N : nat) invG Dr Dc (m : nat)
    (assume_singular : bool) : fmat F * F :=
  let n := (N - 1)%N in
  let a := rc_invG N invG m in
  let tP := a in let tQ := fblock 0 n a in let tR := fblock n 0 a in
  let tS := a n n in
  let Q := rc_Q N Dc m in let R := rc_R N Dr m in
  let S := Dc m 0%N in
  let R_tQ := fmul n R tQ 0%N 0%N in
  let tR_Q := fmul n tR Q 0%N 0%N in
  let lambda := tS * (S - fmul n R (fmul n tP Q) 0%N 0%N)
                + fmul 1 (fmul n R tQ) (fmul n tR Q) 0%N 0%N in
  let tSp := tS / lambda in
  if assume_singular || tiny tS tSp then
    let tQp : fmat F := fun i j => tQ i j / R_tQ in
    let tRp : fmat F := fun i j => tR i j / tR_Q in
    let tPp := fadd tP (fadd (fsub (fopp (fmul 1 tQp (fmul n R tP)))
                              (fmul 1 (fmul n tP Q) tRp))
                     (fmul 1 (fmul 1 tQp (fmul n R (fmul n tP Q))) tRp)) in
    (swap_both (fblocks n n tPp tQp tRp (fun _ _ => tSp)) (m, n), lambda)
  else
    let Mmat : fmat F := fun i j => fmul 1 tQ tR i j * (- (1 / tS)) + tP i j in
    let MQ := fmul n Mmat Q in
    let RM := fmul n R Mmat in
    let c := - tS / lambda in
    let tQp : fmat F := fun i j => c * MQ i j in
    let tRp : fmat F := fun i j => c * RM i j in
    let tPp : fmat F := fun i j => Mmat i j + tS / lambda * fmul 1 MQ RM i j in
    (swap_both (fblocks n n tPp tQp tRp (fun _ _ => tSp)) (m, n), lambda).

(* src/fastupdate_formula.h:435-493 — compute_inverse_matrix_replace_row_col2 (the
   intermediate state is assumed singular). *)
Definition src_replace_row_col2 (N : nat) invG Dr Dc (m : nat) (only_det : bool)
  : fmat F * F :=
  let n := (N - 1)%N in
  let a := rc_invG N invG m in
  let tQ := fblock 0 n a in let tR := fblock n 0 a in
  let tS := a n n in
  let Q := rc_Q N Dc m in let R := rc_R N Dr m in
  let R_tQ := fmul n R tQ 0%N 0%N in
  let tR_Q := fmul n tR Q 0%N 0%N in
  let lambda := R_tQ * tR_Q in
  if only_det then (swap_both a (m, n), lambda)
  else
    let tP := a in
    let tQp : fmat F := fun i j => tQ i j / R_tQ in
    let tRp : fmat F := fun i j => tR i j / tR_Q in
    let tPp := fadd tP (fadd (fsub (fopp (fmul 1 tQp (fmul n R tP)))
                              (fmul 1 (fmul n tP Q) tRp))
                     (fmul 1 (fmul 1 tQp (fmul n R (fmul n tP Q))) tRp)) in
    let tSp := tS / lambda in
    (swap_both (fblocks n n tPp tQp tRp (fun _ _ => tSp)) (m, n), lambda).

(* ---- several rows and columns ---- *)

(* src/fastupdate_formula.h:600-626 — replace_rows_cols. *)
Definition src_replace_rows_cols (NpM : nat) A Q R S (rc : seq nat) : fmat F :=
  let M := size rc in
  let N := (NpM - M)%N in
  let sl := swap_list NpM M rc in
  let a := foldl swap_both A sl in
  let a' := fblocks N N a Q R S in
  foldl swap_both a' (rev sl).

(* src/fastupdate_formula.h:628-647 — generate_indices: the table is_included and
   the loop filling rows_cols_rest; a list with repetitions writes past the end. *)
Definition is_included (NpM : nat) (rc : seq nat) : seq bool :=
  foldl (fun t p => set_nth false t p true) (nseq NpM false) rc.
(* src/fastupdate_formula.h:628-647 — generate_indices. *)
Definition src_generate_indices (rc : seq nat) (N M : nat) : outcome (seq nat) :=
  if (size rc < M)%N || ~~ all (fun p => p < N + M)%N (take M rc) then UB
  else
    let t := is_included (N + M) (take M rc) in
    let rest := [seq i <- iota 0 (N + M) | ~~ nth false t i] in
    if (N < size rest)%N then UB
    else Ok (rest ++ nseq (N - size rest) 0%N).

(* src/fastupdate_formula.h:649-687 — replace_rows_cols_respect_ordering: pos_N and
   pos_M are the positions outside and inside rows_cols, in increasing order. *)
Definition src_replace_respect (NpM : nat) A Q R S (rc : seq nat) : fmat F :=
  let t := is_included NpM rc in
  let pos_M := [seq i <- iota 0 NpM | nth false t i] in
  let pos_N := [seq i <- iota 0 NpM | ~~ nth false t i] in
  fun i j =>
    match i \in pos_M, j \in pos_M with
    | true, true => S (index i pos_M) (index j pos_M)
    | false, true => if i \in pos_N then Q (index i pos_N) (index j pos_M) else A i j
    | true, false => if j \in pos_N then R (index i pos_M) (index j pos_N) else A i j
    | false, false => A i j
    end.

(* src/fastupdate_formula.h:689-747 — compute_det_ratio_replace_rows_cols: ratio and
   the work matrices Mmat, inv_tSp (None: not assigned).  N, M, M_old as at lines
   701-703. *)
Definition src_ratio_replace_rows_cols (N M Mo : nat) invG Q R S
  : F * option (fmat F * fmat F) :=
  if N == 0%N then (fdet M S * fdet Mo invG, None)
  else
    let tS := fblock N N invG in
    let Mmat := fsub invG (fmul Mo (fblock 0 N invG) (fmul Mo (finv Mo tS) (fblock N 0 invG))) in
    let inv_tSp := fsub S (fmul N R (fmul N Mmat Q)) in
    (fdet Mo tS * fdet M inv_tSp, Some (Mmat, inv_tSp)).

(* src/fastupdate_formula.h:749-809 — compute_inverse_matrix_replace_rows_cols.
   [junk] is what the memory behind invBigMat holds after destructive_resize
   (line 776): the upper left block is never written, because line 808 assigns the
   last product to tRp_view.  Source and target shapes (N x N into M x N) differ for
   N <> M: UB. *)
Definition src_inverse_replace_rows_cols (junk : fmat F) (N M : nat) Q R S
    (work : option (fmat F * fmat F)) : outcome (nat * fmat F) :=
  if N == 0%N then Ok (M, finv M S)
  else if work is Some (Mmat, inv_tSp) then
    if N != M then UB
    else
      let tSp := finv M inv_tSp in
      let tQp := fmul N (fopp Mmat) (fmul M Q tSp) in
      let tRp := fmul N (fopp (fmul M tSp R)) Mmat in
      let tRp' := fsub Mmat (fmul M (fmul N Mmat Q) tRp) in
      Ok ((N + M)%N, fblocks N N junk tQp tRp' tSp)
  else UB.

(* src/fastupdate_formula.h:811-848 — compute_det_ratio_replace_rows_cols_safe (one
   row and column). *)
Definition src_ratio_replace_safe (N : nat) invG Q R S : F :=
  let tP := invG in let tQ := fblock 0 N invG in
  let tR := fblock N 0 invG in let tS := fblock N N invG in
  fadd (fmul 1 tS (fsub S (fmul N R (fmul N tP Q))))
       (fmul 1 (fmul N R tQ) (fmul N tR Q)) 0%N 0%N.

(* ---- diagonal elements ---- *)

(* src/fastupdate_formula.h:861-871 — the small matrix whose determinant is the
   ratio. *)
Definition src_diag_x (k : nat) (pos : seq nat) (diff : seq F) invG : fmat F :=
  fun i j => invG (nth 0%N pos i) (nth 0%N pos j) * nth 0 diff j
             + (if i == j then 1 else 0).

(* src/fastupdate_formula.h:850-907 — compute_det_ratio_replace_diaognal_elements:
   entries of invBigMat on return and the returned ratio. *)
Definition src_diag (N k : nat) (pos : seq nat) (diff : seq F) invG (only_det : bool)
  : fmat F * F :=
  let det_rat := fdet k (src_diag_x k pos diff invG) in
  if only_det then (invG, det_rat)
  else
    let sl := swap_list N k pos in
    let a := foldl swap_both invG sl in
    let b := (N - k)%N in
    let yx := fblock 0 b a in
    let zx := fblock b 0 a in
    let c : fmat F := fun i j => fblock b b a i j + (if i == j then 1 / nth 0 diff i else 0) in
    let a' := fsub a (fmul k yx (fmul k (finv k c) zx)) in
    (foldl swap_both a' (rev sl), det_rat).

End SrcFormula.
