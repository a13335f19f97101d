(* Property theorems: C21-C25, C52, C53 (fast-update formulas of src/). *)
From mathcomp Require Import all_ssreflect ssralg ssrnum ssrint rat matrix ring zify.
From Verif Require Import Outcome MatLib MatSpec FormulaModel FormulaProofs.
From Verif Require Import SrcFormulaModel SrcFormulaProofs Prop_Formula.

Set Implicit Arguments.
Unset Strict Implicit.
Unset Printing Implicit Defensive.

Local Open Scope ring_scope.

(* ------------------------------------------------------------------ C21 *)

Theorem C21_append_det_ratio :
  forall (F : fieldType) (N M : nat) (A invA B C D : nat -> nat -> F),
    inverse_of N A invA ->
    det_of (N + M) (bordered N A B C D) = src_det_ratio_up N M B C D invA * det_of N A.
Proof. by move=> F N M A invA B C D; apply: src_det_ratio_up_ok. Qed.
Print Assumptions C21_append_det_ratio.

Theorem C21_append_inverse :
  forall (F : fieldType) (N M : nat) (A invA B C D : nat -> nat -> F),
    (0 < M)%N -> inverse_of N A invA ->
    det_of (N + M) (bordered N A B C D) != 0 ->
    exists res r, [/\ src_inverse_up2 N M B C D invA = Ok ((N + M)%N, res, r),
      inverse_of (N + M) (bordered N A B C D) res &
      det_of (N + M) (bordered N A B C D) = r * det_of N A].
Proof. by move=> F N M A invA B C D; apply: src_inverse_up2_ok. Qed.
Print Assumptions C21_append_inverse.

Theorem C21_append_inverse_blocks :
  forall (F : fieldType) (N M : nat) (A invA B C D : nat -> nat -> F),
    inverse_of N A invA ->
    det_of (N + M) (bordered N A B C D) != 0 ->
    let: (E, Fb, Gb, H, r) := src_inverse_up N M B C D invA in
    inverse_of (N + M) (bordered N A B C D) (bordered N E Fb Gb H) /\
    det_of (N + M) (bordered N A B C D) = r * det_of N A.
Proof. by move=> F N M A invA B C D; apply: src_inverse_up_ok. Qed.
Print Assumptions C21_append_inverse_blocks.

(* The hypotheses are those of C08; C08_case meets them.  The ratio there is 1/2. *)
Example C21_case :
  src_det_ratio_up 1 1 (lit [:: [:: 1]]) (lit [:: [:: 7%:R]]) (lit [:: [:: 4%:R]])
                   (lit [:: [:: 2%:R^-1]]) = 1 / 2%:R.
Proof.
by rewrite /src_det_ratio_up /= /fdet det_mx11 mxE /fsub /fmul !big_ord_recl !big_ord0 /lit /=.
Qed.

(* ------------------------------------------------------------------ C22 *)

Theorem C22_removal_det_ratio :
  forall (F : fieldType) (n M : nat) (rc : seq nat) (G invG : nat -> nat -> F),
    uniq rc -> all (fun p => p < n)%N rc -> size rc = M -> inverse_of n G invG ->
    det_of (n - M) (select G (others n rc) (others n rc))
      = src_det_ratio_down M rc invG * det_of n G.
Proof. by move=> F n M rc G invG; apply: src_det_ratio_down_ok. Qed.
Print Assumptions C22_removal_det_ratio.

(* o: what the reported exchanges leave at the front of 0..n-1. *)
Theorem C22_removal_inverse :
  forall (F : fieldType) (n M : nat) (rc : seq nat) (G invG : nat -> nat -> F),
    (0 < M)%N -> all (fun p => p < n)%N rc -> uniq rc -> size rc = M ->
    inverse_of n G invG ->
    let o := take (n - M) (exchange_all (iota 0 n) (exchanges_to_end n rc)) in
    det_of (n - M) (select G o o) != 0 ->
    exists res r,
      [/\ src_inverse_down n M rc invG = Ok ((n - M)%N, res, exchanges_to_end n rc, r),
          inverse_of (n - M) (select G o o) res &
          det_of (n - M) (select G o o) = r * det_of n G].
Proof. by move=> F n M rc G invG; apply: src_inverse_down_ok. Qed.
Print Assumptions C22_removal_inverse.

(* removing position 0 of the 3x3 matrix G3: position 2 takes its place *)
Example C22_case :
  let o := take 2 (exchange_all (iota 0 3) (exchanges_to_end 3 [:: 0%N])) in
  [/\ o = [:: 2; 1]%N, inverse_of 3 G3 invG3,
      src_det_ratio_down 1 [:: 0%N] invG3 = 1 &
      inverse_of 2 (select G3 o o) (lit [:: [:: 1; 0]; [:: -1; 1]]) /\
      det_of 2 (select G3 o o) != 0].
Proof.
move=> o; have oE : o = [:: 2; 1]%N by [].
have h : inverse_of 2 (select G3 o o) (lit [:: [:: 1; 0]; [:: -1; 1]]).
  by rewrite oE; move=> [|[|?]] [|[|?]] // _ _; rewrite !big_ord_recl !big_ord0 /select /G3 /lit /=; ring.
split=> //; first exact: G3_inverse.
- by rewrite /src_det_ratio_down /fdet det_mx11 mxE.
- by split=> //; apply: (inverse_of_unit h).
Qed.

(* ------------------------------------------------------------------ C23 *)

Theorem C23_replace_row_ratio :
  forall (F : fieldType) (N m : nat) (G invG Dr : nat -> nat -> F),
    (m < N)%N -> inverse_of N G invG ->
    det_of N (with_row m G (Dr 0%N)) = src_ratio_replace_row N invG Dr m * det_of N G.
Proof. by move=> F N m G invG Dr; apply: src_replace_row_ratio_ok. Qed.
Print Assumptions C23_replace_row_ratio.

Theorem C23_replace_rows_cols_ratio :
  forall (F : fieldType) (N M Mo : nat) (G invG Q R S : nat -> nat -> F),
    inverse_of (N + Mo) G invG -> det_of N G != 0 ->
    det_of (N + M) (bordered N G Q R S)
      = (src_ratio_replace_rows_cols N M Mo invG Q R S).1 * det_of (N + Mo) G.
Proof. by move=> F N M Mo G invG Q R S; apply: src_ratio_replace_rows_cols_ok. Qed.
Print Assumptions C23_replace_rows_cols_ratio.

Theorem C23_replace_row_col_safe_ratio :
  forall (F : fieldType) (N : nat) (G invG Q R S : nat -> nat -> F),
    inverse_of (N + 1) G invG ->
    det_of (N + 1) (bordered N G Q R S) = src_ratio_replace_safe N invG Q R S * det_of (N + 1) G.
Proof. by move=> F N G invG Q R S; apply: src_ratio_replace_safe_ok. Qed.
Print Assumptions C23_replace_row_col_safe_ratio.

(* What the inverse update for one row writes is the inverse of the new matrix ... *)
Theorem C23_replace_row_entries :
  forall (F : fieldType) (N m : nat) (G invG Dr : nat -> nat -> F),
    (m < N)%N -> inverse_of N G invG -> src_ratio_replace_row N invG Dr m != 0 ->
    inverse_of N (with_row m G (Dr 0%N)) (src_replace_row_entries N invG Dr m).
Proof. by move=> F N m G invG Dr; apply: src_replace_row_entries_ok. Qed.
Print Assumptions C23_replace_row_entries.

(* ... but the function then leaves through the closing brace without the return
   statement its type requires: no call has a defined outcome. *)
Theorem C23_replace_row_inverse_refuted :
  exists (N m : nat) (G invG Dr : nat -> nat -> rat),
    [/\ (m < N)%N, inverse_of N G invG, src_ratio_replace_row N invG Dr m != 0 &
        src_inverse_replace_row N invG Dr m = UB].
Proof.
exists 3%N, 1%N, G3, invG3, (lit [:: [:: 0; 2%:R; 1]]); split=> //; first exact: G3_inverse.
by rewrite /src_ratio_replace_row !big_ord_recl big_ord0 /lit /invG3 /lit /=.
Qed.
Print Assumptions C23_replace_row_inverse_refuted.

(* Two rows and columns of G3 replaced by one: N = 1, M = 1, Mo = 2. *)
Example C23_case :
  [/\ inverse_of (1 + 2) G3 invG3, det_of 1 G3 != 0 &
      det_of (1 + 1) (bordered 1 G3 (lit [:: [:: 2%:R]]) (lit [:: [:: 3%:R]]) (lit [:: [:: 5%:R]]))
        = -1].
Proof.
split; first exact: G3_inverse.
- by rewrite det1of.
- by rewrite /det_of (expand_det_row _ ord0) !big_ord_recl big_ord0 /cofactor !det_mx11 !mxE /=.
Qed.

(* ------------------------------------------------------------------ C24 *)

(* With nothing kept the whole matrix is inverted: correct.  Missing: every case
   with a kept part, refuted below. *)
Theorem C24_nothing_kept_partial :
  forall (F : fieldType) (junk : nat -> nat -> F) (M : nat) (A Q R S : nat -> nat -> F) work,
    det_of M S != 0 ->
    exists res, src_inverse_replace_rows_cols junk 0 M Q R S work = Ok (M, res) /\
      inverse_of M (bordered 0 A Q R S) res.
Proof. by move=> F junk M A Q R S work; apply: src_inverse_replace_none_kept. Qed.
Print Assumptions C24_nothing_kept_partial.

(* Whatever the memory of the in/out argument holds, the result is not the inverse:
   replacing the second row and column of the 2x2 identity by themselves. *)
Theorem C24_inverse_replace_rows_cols_refuted :
  exists (N M Mo : nat) (G invG Q R S : nat -> nat -> rat),
    [/\ inverse_of (N + Mo) G invG, det_of N G != 0,
        det_of (N + M) (bordered N G Q R S) != 0 &
        forall junk, exists res,
          src_inverse_replace_rows_cols junk N M Q R S
            (src_ratio_replace_rows_cols N M Mo invG Q R S).2 = Ok ((N + M)%N, res) /\
          ~ inverse_of (N + M) (bordered N G Q R S) res].
Proof.
pose I : nat -> nat -> rat := fun i j => (i == j)%:R.
have hI : inverse_of 2 I I by move=> [|[|?]] [|[|?]] // _ _; rewrite !big_ord_recl !big_ord0 /I /=.
exists 1%N, 1%N, 1%N, I, I, (fun _ _ => 0), (fun _ _ => 0), (fun _ _ => 1).
have e : forall i j, (i < 2)%N -> (j < 2)%N -> bordered 1 I (fun _ _ => 0) (fun _ _ => 0) (fun _ _ => 1) i j = I i j.
  by move=> [|[|?]] [|[|?]].
split=> //.
- by rewrite det1of.
- rewrite (_ : det_of _ _ = det_of 2 I); first exact: (inverse_of_unit hI).
  by rewrite /det_of; congr (determinant _); apply/matrixP => i j; rewrite !mxE e.
- move=> junk; eexists; split; first by reflexivity.
  move/(_ 1%N 0%N isT isT); rewrite !big_ord_recl !big_ord0 /= !e //=.
  rewrite /fblocks /= /fsub /fmul !big_ord_recl !big_ord0 /fblock /I /=.
  by rewrite !(GRing.mul0r, GRing.mulr0, GRing.addr0, GRing.add0r, GRing.subr0, GRing.mul1r).
Qed.
Print Assumptions C24_inverse_replace_rows_cols_refuted.

(* With a different number of kept and replaced rows the last assignment mixes
   blocks of different shape. *)
Theorem C24_shapes_undefined :
  forall (F : fieldType) (junk : nat -> nat -> F) (N M Mo : nat) (invG Q R S : nat -> nat -> F),
    (0 < N)%N -> N != M ->
    src_inverse_replace_rows_cols junk N M Q R S
      (src_ratio_replace_rows_cols N M Mo invG Q R S).2 = UB.
Proof. by move=> F junk N M Mo invG Q R S; apply: src_inverse_replace_shapes. Qed.
Print Assumptions C24_shapes_undefined.

(* ------------------------------------------------------------------ C25 *)

Theorem C25_diagonal_ratio :
  forall (F : fieldType) (N k : nat) (pos : seq nat) (diff : seq F) (G invG : nat -> nat -> F),
    uniq pos -> all (fun p => p < N)%N pos -> size pos = k -> size diff = k ->
    inverse_of N G invG ->
    forall only, det_of N (with_diag pos diff G)
                 = (src_diag N k pos diff invG only).2 * det_of N G.
Proof. by move=> F N k pos diff G invG u l zp zd h only; apply: (diag_ratio_ok u l zp zd h). Qed.
Print Assumptions C25_diagonal_ratio.

Theorem C25_diagonal_inverse :
  forall (F : fieldType) (N k : nat) (pos : seq nat) (diff : seq F) (G invG : nat -> nat -> F),
    sorted ltn pos -> all (fun p => p < N)%N pos -> size pos = k -> size diff = k ->
    inverse_of N G invG -> all (fun x => x != 0) diff ->
    det_of N (with_diag pos diff G) != 0 ->
    inverse_of N (with_diag pos diff G) (src_diag N k pos diff invG false).1.
Proof. by move=> F N k pos diff G invG; apply: src_diag_inverse_ok. Qed.
Print Assumptions C25_diagonal_inverse.

Theorem C25_ratio_only_keeps_the_inverse :
  forall (F : fieldType) (N k : nat) (pos : seq nat) (diff : seq F) (invG : nat -> nat -> F),
    (src_diag N k pos diff invG true).1 = invG.
Proof. by []. Qed.
Print Assumptions C25_ratio_only_keeps_the_inverse.

(* diagonal elements 0 and 1 of G3 shifted by 1 and -3 *)
Example C25_case :
  [/\ sorted ltn [:: 0; 1]%N, inverse_of 3 G3 invG3,
      inverse_of 3 (with_diag [:: 0; 1]%N [:: 1; -3%:R] G3)
        (lit [:: [:: 1 / 2%:R; 1 / 4%:R; - (1 / 4%:R)]; [:: 0; - (1 / 2%:R); 1 / 2%:R]; [:: 0; 0; 1]]) &
      det_of 3 (with_diag [:: 0; 1]%N [:: 1; -3%:R] G3) != 0].
Proof.
have h : inverse_of 3 (with_diag [:: 0; 1]%N [:: 1; -3%:R] G3)
        (lit [:: [:: 1 / 2%:R; 1 / 4%:R; - (1 / 4%:R)]; [:: 0; - (1 / 2%:R); 1 / 2%:R]; [:: 0; 0; 1]]).
  by move=> [|[|[|?]]] [|[|[|?]]] // _ _; rewrite !big_ord_recl !big_ord0 /with_diag /G3 /lit /=.
by split=> //; [exact: G3_inverse | apply: (inverse_of_unit h)].
Qed.

(* ------------------------------------------------------------------ C52 *)

(* The returned ratio is right on either branch. *)
Theorem C52_row_col_ratio :
  forall (F : fieldType) (tiny : F -> F -> bool) (n m : nat) (G invG Dr Dc : nat -> nat -> F),
    (m < n.+1)%N -> inverse_of n.+1 G invG -> Dr 0%N m = Dc m 0%N ->
    forall singular,
    det_of n.+1 (with_row_col m G (Dr 0%N) (fun i => Dc i 0%N))
      = (src_replace_row_col tiny n.+1 invG Dr Dc m singular).2 * det_of n.+1 G.
Proof. by move=> F tiny n m G invG Dr Dc; apply: src_row_col_ratio_ok. Qed.
Print Assumptions C52_row_col_ratio.

(* Regular branch: the reduced matrix is invertible (invG m m <> 0). *)
Theorem C52_row_col_inverse_regular :
  forall (F : fieldType) (tiny : F -> F -> bool) (n m : nat) (G invG Dr Dc : nat -> nat -> F),
    (m < n.+1)%N -> inverse_of n.+1 G invG -> Dr 0%N m = Dc m 0%N ->
    let new := with_row_col m G (Dr 0%N) (fun i => Dc i 0%N) in
    invG m m != 0 -> det_of n.+1 new != 0 -> (forall x y, tiny x y -> x = 0) ->
    inverse_of n.+1 new (src_replace_row_col tiny n.+1 invG Dr Dc m false).1.
Proof. by move=> F tiny n m G invG Dr Dc; apply: src_row_col_regular_ok. Qed.
Print Assumptions C52_row_col_inverse_regular.

(* Singular branch: right if the new diagonal element is zero.  Missing: a non-zero
   diagonal element, refuted below. *)
Theorem C52_row_col_inverse_singular_partial :
  forall (F : fieldType) (tiny : F -> F -> bool) (n m : nat) (G invG Dr Dc : nat -> nat -> F),
    (m < n.+1)%N -> inverse_of n.+1 G invG -> Dr 0%N m = Dc m 0%N ->
    let new := with_row_col m G (Dr 0%N) (fun i => Dc i 0%N) in
    invG m m = 0 -> Dc m 0%N = 0 -> det_of n.+1 new != 0 ->
    inverse_of n.+1 new (src_replace_row_col tiny n.+1 invG Dr Dc m true).1 /\
    inverse_of n.+1 new (src_replace_row_col2 n.+1 invG Dr Dc m false).1.
Proof. by move=> F tiny n m G invG Dr Dc; apply: src_row_col_singular_ok. Qed.
Print Assumptions C52_row_col_inverse_singular_partial.

Theorem C52_row_col2_ratio :
  forall (F : fieldType) (n m : nat) (G invG Dr Dc : nat -> nat -> F),
    (m < n.+1)%N -> inverse_of n.+1 G invG -> Dr 0%N m = Dc m 0%N -> invG m m = 0 ->
    forall only,
    det_of n.+1 (with_row_col m G (Dr 0%N) (fun i => Dc i 0%N))
      = (src_replace_row_col2 n.+1 invG Dr Dc m only).2 * det_of n.+1 G.
Proof. by move=> F n m G invG Dr Dc; apply: src_row_col2_ratio_ok. Qed.
Print Assumptions C52_row_col2_ratio.

Definition X2 := lit [:: [:: 0; 1]; [:: 1; 0]].
Definition new_row := lit [:: [:: 1; 5%:R]].
Definition new_col := lit [:: [:: 1]; [:: 5%:R]].

Lemma X2_inverse : inverse_of 2 X2 X2.
Proof. by move=> [|[|?]] [|[|?]] // _ _; rewrite !big_ord_recl !big_ord0 /X2 /lit /=. Qed.

Theorem C52_row_col_inverse_singular_refuted :
  exists (n m : nat) (G invG Dr Dc : nat -> nat -> rat),
    [/\ (m < n.+1)%N, inverse_of n.+1 G invG, Dr 0%N m = Dc m 0%N, invG m m = 0 &
        let new := with_row_col m G (Dr 0%N) (fun i => Dc i 0%N) in
        [/\ det_of n.+1 new != 0,
            forall tiny, ~ inverse_of n.+1 new (src_replace_row_col tiny n.+1 invG Dr Dc m true).1 &
            ~ inverse_of n.+1 new (src_replace_row_col2 n.+1 invG Dr Dc m false).1]].
Proof.
exists 1%N, 1%N, X2, X2, new_row, new_col; split=> //; first exact: X2_inverse.
have h : inverse_of 2 (with_row_col 1 X2 (new_row 0%N) (new_col^~ 0%N))
           (lit [:: [:: -5%:R; 1]; [:: 1; 0]]).
  by move=> [|[|?]] [|[|?]] // _ _; rewrite !big_ord_recl !big_ord0 /with_row_col /X2 /new_row /new_col /lit /=.
split=> [|tiny|]; first exact: (inverse_of_unit h).
- move/(_ 1%N 0%N isT isT); rewrite !big_ord_recl !big_ord0 /= /src_replace_row_col /=.
  rewrite /swap_both /fswap_row /fswap_col /= /fblocks /= /fadd /fsub /fopp /fmul.
  by rewrite !big_ord_recl !big_ord0 /= /with_row_col /rc_invG /rc_Q /rc_R /swap_both /fswap_row /fswap_col /fblock /X2 /new_row /new_col /lit /=.
- move/(_ 1%N 0%N isT isT); rewrite !big_ord_recl !big_ord0 /= /src_replace_row_col2 /=.
  rewrite /swap_both /fswap_row /fswap_col /= /fblocks /= /fadd /fsub /fopp /fmul.
  by rewrite !big_ord_recl !big_ord0 /= /with_row_col /rc_invG /rc_Q /rc_R /swap_both /fswap_row /fswap_col /fblock /X2 /new_row /new_col /lit /=.
Qed.
Print Assumptions C52_row_col_inverse_singular_refuted.

(* regular branch: row and column 1 of G3; singular branch with zero diagonal: X2 *)
Example C52_case :
  let Dr := lit [:: [:: 2%:R; 3%:R; 0]] in let Dc := lit [:: [:: 1]; [:: 3%:R]; [:: 1]] in
  [/\ inverse_of 3 G3 invG3, Dr 0%N 1%N = Dc 1%N 0%N, invG3 1%N 1%N != 0,
      det_of 3 (with_row_col 1 G3 (Dr 0%N) (Dc^~ 0%N)) != 0 &
      [/\ inverse_of 2 X2 X2, X2 1%N 1%N = 0 & det_of 2 X2 != 0]].
Proof.
move=> Dr Dc.
have h : inverse_of 3 (with_row_col 1 G3 (Dr 0%N) (Dc^~ 0%N))
          (lit [:: [:: 3%:R; -1; 0]; [:: -2%:R; 1; 0]; [:: 2%:R; -1; 1]]).
  by move=> [|[|[|?]]] [|[|[|?]]] // _ _; rewrite !big_ord_recl !big_ord0 /with_row_col /Dr /Dc /G3 /lit /=.
split=> //; [exact: G3_inverse | exact: (inverse_of_unit h) | split=> //].
  exact: X2_inverse.
exact: (inverse_of_unit X2_inverse).
Qed.

(* ------------------------------------------------------------------ C53 *)

Theorem C53_generate_indices :
  forall (rc : seq nat) (N M : nat),
    uniq rc -> all (fun p => p < N + M)%N rc -> size rc = M ->
    src_generate_indices rc N M = Ok (others (N + M) rc).
Proof. by move=> rc N M; apply: src_generate_indices_ok. Qed.
Print Assumptions C53_generate_indices.

(* A repeated position makes it write past the end of its result vector. *)
Theorem C53_generate_indices_repeated :
  forall (rc : seq nat) (N M : nat),
    ~~ uniq rc -> all (fun p => p < N + M)%N rc -> size rc = M ->
    src_generate_indices rc N M = UB.
Proof. by move=> rc N M; apply: src_generate_indices_dup. Qed.
Print Assumptions C53_generate_indices_repeated.

Theorem C53_replace_rows_cols_entries :
  forall (F : fieldType) (NpM : nat) (A Q R S : nat -> nat -> F) (rc : seq nat),
    all (fun p => p < NpM)%N rc -> uniq rc ->
    let o := exchange_all (iota 0 NpM) (exchanges_to_end NpM rc) in
    forall i j, (i < NpM)%N -> (j < NpM)%N ->
      src_replace_rows_cols NpM A Q R S rc (nth 0%N o i) (nth 0%N o j)
      = bordered (NpM - size rc) (select A o o) Q R S i j.
Proof. by move=> F NpM A Q R S rc; apply: src_replace_rows_cols_ok. Qed.
Print Assumptions C53_replace_rows_cols_entries.

Theorem C53_replace_respecting_order :
  forall (F : fieldType) (NpM : nat) (A Q R S : nat -> nat -> F) (rc : seq nat),
    uniq rc -> all (fun p => p < NpM)%N rc -> sorted ltn rc ->
    let N := (NpM - size rc)%N in let o := others NpM rc in
    let res := src_replace_respect NpM A Q R S rc in
    [/\ forall i j, (i < size rc)%N -> (j < size rc)%N -> res (nth 0%N rc i) (nth 0%N rc j) = S i j,
        forall i j, (i < N)%N -> (j < size rc)%N -> res (nth 0%N o i) (nth 0%N rc j) = Q i j,
        forall i j, (i < size rc)%N -> (j < N)%N -> res (nth 0%N rc i) (nth 0%N o j) = R i j &
        forall i j, (i < N)%N -> (j < N)%N ->
          res (nth 0%N o i) (nth 0%N o j) = A (nth 0%N o i) (nth 0%N o j)].
Proof. by move=> F NpM A Q R S rc; apply: src_replace_respect_ok. Qed.
Print Assumptions C53_replace_respecting_order.

Example C53_case :
  src_generate_indices [:: 3; 0]%N 3 2 = Ok [:: 1; 2; 4]%N
  /\ src_generate_indices [:: 3; 3]%N 3 2 = UB
  /\ src_replace_rows_cols 3 G3 (lit [:: [:: 7%:R]; [:: 8%:R]]) (lit [:: [:: 4%:R; 5%:R]])
       (lit [:: [:: 6%:R]]) [:: 0%N] 2%N 0%N = 7%:R
  /\ src_replace_respect 3 G3 (lit [:: [:: 7%:R]; [:: 8%:R]]) (lit [:: [:: 4%:R; 5%:R]])
       (lit [:: [:: 6%:R]]) [:: 0%N] 2%N 0%N = 8%:R.
Proof. by do !split. Qed.
