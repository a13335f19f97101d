(* Property theorems: C08-C12, C51 (fast-update formulas of alps/fastupdate). *)
From mathcomp Require Import all_ssreflect ssralg ssrnum ssrint rat matrix ring zify.
From Verif Require Import Outcome MatLib MatSpec FormulaModel FormulaProofs.

Set Implicit Arguments.
Unset Strict Implicit.
Unset Printing Implicit Defensive.

Local Open Scope ring_scope.

(* A literal matrix, for the concrete cases. *)
Definition lit (rows : seq (seq rat)) : nat -> nat -> rat :=
  fun i j => nth 0 (nth [::] rows i) j.

Ltac each_entry :=
  move=> [|[|[|?]]] [|[|[|?]]] // _ _; rewrite !big_ord_recl !big_ord0 /lit /=; ring.

(* ------------------------------------------------------------------ C08 *)

Theorem C08_append_det_ratio :
  forall (F : fieldType) (N M : nat) (A invA B C D : nat -> nat -> F),
    inverse_of N A invA ->
    det_of (N + M) (bordered N A B C D) = det_ratio_up N M B C D invA * det_of N A.
Proof. by move=> F N M A invA B C D; apply: det_ratio_up_ok. Qed.
Print Assumptions C08_append_det_ratio.

Theorem C08_append_inverse :
  forall (F : fieldType) (N M : nat) (A invA B C D : nat -> nat -> F),
    (0 < M)%N -> inverse_of N A invA ->
    det_of (N + M) (bordered N A B C D) != 0 ->
    exists res r, [/\ inverse_matrix_up N M B C D invA = Ok ((N + M)%N, res, r),
      inverse_of (N + M) (bordered N A B C D) res &
      det_of (N + M) (bordered N A B C D) = r * det_of N A].
Proof. by move=> F N M A invA B C D; apply: inverse_up_ok. Qed.
Print Assumptions C08_append_inverse.

(* 1x1 block [2] extended to [[2,1],[7,4]], whose inverse is [[4,-1],[-7,2]]. *)
Example C08_case :
  let A := lit [:: [:: 2%:R]] in let invA := lit [:: [:: 2%:R^-1]] in
  let B := lit [:: [:: 1]] in let C := lit [:: [:: 7%:R]] in let D := lit [:: [:: 4%:R]] in
  inverse_of 1 A invA /\ inverse_of 2 (bordered 1 A B C D) (lit [:: [:: 4%:R; -1]; [:: -7%:R; 2%:R]])
  /\ det_of 2 (bordered 1 A B C D) != 0.
Proof.
move=> A invA B C D.
have h2 : inverse_of 2 (bordered 1 A B C D) (lit [:: [:: 4%:R; -1]; [:: -7%:R; 2%:R]]).
  move=> [|[|?]] [|[|?]] // _ _; rewrite !big_ord_recl !big_ord0 /bordered /A /B /C /D /lit /=; ring.
split; last by split=> //; apply: (inverse_of_unit h2).
by move=> [|i] [|j] // _ _; rewrite !big_ord_recl !big_ord0 /A /invA /lit /=.
Qed.

(* ------------------------------------------------------------------ C09 *)

Theorem C09_removal_det_ratio :
  forall (F : fieldType) (n M : nat) (rows cols : seq nat) (G invG : nat -> nat -> F),
    sorted ltn rows -> all (fun p => p < n)%N rows -> size rows = M ->
    sorted ltn cols -> all (fun p => p < n)%N cols -> size cols = M ->
    inverse_of n G invG ->
    det_of (n - M) (select G (others n rows) (others n cols))
      = det_ratio_down M rows cols invG * det_of n G.
Proof. by move=> F n M rows cols G invG; apply: det_ratio_down_ok. Qed.
Print Assumptions C09_removal_det_ratio.

Theorem C09_removal_last_det_ratio :
  forall (F : fieldType) (n M : nat) (G invG : nat -> nat -> F),
    (M <= n)%N -> inverse_of n G invG ->
    det_of (n - M) G = det_ratio_down_last n M invG * det_of n G.
Proof. by move=> F n M G invG; apply: det_ratio_down_last_ok. Qed.
Print Assumptions C09_removal_last_det_ratio.

Definition G3 := lit [:: [:: 1; 1; 0]; [:: 0; 1; 1]; [:: 0; 0; 1]].
Definition invG3 := lit [:: [:: 1; -1; 1]; [:: 0; 1; -1]; [:: 0; 0; 1]].

Lemma G3_inverse : inverse_of 3 G3 invG3.
Proof. rewrite /G3 /invG3; each_entry. Qed.

Lemma det1of (F : fieldType) (a : nat -> nat -> F) : det_of 1 a = a 0%N 0%N.
Proof. by rewrite /det_of det_mx11 mxE. Qed.

(* removing row 1 and column 0: odd position sum, cofactor -1, ratio 1 *)
Example C09_case :
  [/\ sorted ltn [:: 1%N], inverse_of 3 G3 invG3,
      det_ratio_down 1 [:: 1%N] [:: 0%N] invG3 = 1 &
      [/\ others 3 [:: 1%N] = [:: 0; 2]%N, others 3 [:: 0%N] = [:: 1; 2]%N &
      inverse_of 2 (select G3 [:: 0; 2]%N [:: 1; 2]%N) (lit [:: [:: 1; 0]; [:: 0; 1]])]].
Proof.
split=> //; first exact: G3_inverse.
- by rewrite /det_ratio_down big_ord_recl big_ord0 /= /fdet det_mx11 mxE.
- split=> //; move=> [|[|?]] [|[|?]] // _ _; rewrite !big_ord_recl !big_ord0 /select /G3 /lit /=; ring.
Qed.

(* With lists that are not increasing the sign is wrong: rows 1,0 and columns 0,1
   of the 2x2 identity. *)
Theorem C09_unordered_lists_refuted :
  exists (n : nat) (rows cols : seq nat) (G invG : nat -> nat -> rat),
    [/\ uniq rows, uniq cols, all (fun p => p < n)%N rows, all (fun p => p < n)%N cols &
        inverse_of n G invG /\
        det_of (n - 2) (select G (others n rows) (others n cols))
          != det_ratio_down 2 rows cols invG * det_of n G].
Proof.
exists 2%N, [:: 1; 0]%N, [:: 0; 1]%N, (fun i j => (i == j)%:R), (fun i j => (i == j)%:R).
split=> //; split.
  by move=> [|[|?]] [|[|?]] // _ _; rewrite !big_ord_recl !big_ord0 /=; ring.
rewrite /det_ratio_down !big_ord_recl big_ord0 /=.
rewrite /det_of subnn det_mx00 /fdet.
rewrite (expand_det_row _ ord0) !big_ord_recl big_ord0 /cofactor !det_mx11 !mxE /=.
rewrite (expand_det_row _ ord0) !big_ord_recl big_ord0 /cofactor !det_mx11 !mxE /=.
by [].
Qed.
Print Assumptions C09_unordered_lists_refuted.

(* ------------------------------------------------------------------ C10 *)

(* rs and cs: the positions left at the front of 0..n-1 after the exchanges. *)
Theorem C10_removal_inverse :
  forall (F : fieldType) (n M : nat) (rows cols : seq nat) (G invG : nat -> nat -> F),
    (0 < M)%N ->
    sorted ltn rows -> all (fun p => p < n)%N rows -> size rows = M ->
    sorted ltn cols -> all (fun p => p < n)%N cols -> size cols = M ->
    inverse_of n G invG ->
    let rs := take (n - M) (exchange_all (iota 0 n) (exchanges_to_end n rows)) in
    let cs := take (n - M) (exchange_all (iota 0 n) (exchanges_to_end n cols)) in
    det_of (n - M) (select G rs cs) != 0 ->
    exists res, inverse_matrix_down n M rows cols invG = Ok ((n - M)%N, res) /\
      inverse_of (n - M) (select G rs cs) res.
Proof. by move=> F n M rows cols G invG; apply: inverse_down_ok. Qed.
Print Assumptions C10_removal_inverse.

(* The exchanges leave exactly the kept positions at the front and the removed
   ones, in order, at the end. *)
Theorem C10_exchanges_keep_the_others :
  forall (n : nat) (rows : seq nat),
    sorted ltn rows -> all (fun p => p < n)%N rows ->
    let l := exchange_all (iota 0 n) (exchanges_to_end n rows) in
    [/\ perm_eq l (iota 0 n), drop (n - size rows) l = rows &
        perm_eq (take (n - size rows) l) (others n rows)].
Proof. by move=> n rows; apply: exchanges_to_end_ok. Qed.
Print Assumptions C10_exchanges_keep_the_others.

Theorem C10_removal_last_inverse :
  forall (F : fieldType) (n M : nat) (G invG : nat -> nat -> F),
    (0 < M <= n)%N -> inverse_of n G invG -> det_of (n - M) G != 0 ->
    exists res, inverse_matrix_down_last n M invG = Ok ((n - M)%N, res) /\
      inverse_of (n - M) G res.
Proof.
move=> F n M G invG /andP [M0 Mn] h nz; rewrite /inverse_matrix_down_last ltnNge Mn.
rewrite (negbTE (lt0n_neq0 M0)) /=; eexists; split; first by reflexivity.
by apply: downdate_ok => //; rewrite subnK.
Qed.
Print Assumptions C10_removal_last_inverse.

Example C10_case :
  take 2 (exchange_all (iota 0 3) (exchanges_to_end 3 [:: 0%N])) = [:: 2; 1]%N /\
  inverse_of 3 G3 invG3 /\
  inverse_of 2 (select G3 [:: 2; 1]%N [:: 2; 1]%N) (lit [:: [:: 1; 0]; [:: -1; 1]]) /\
  det_of 2 (select G3 [:: 2; 1]%N [:: 2; 1]%N) != 0.
Proof.
have h : inverse_of 2 (select G3 [:: 2; 1]%N [:: 2; 1]%N) (lit [:: [:: 1; 0]; [:: -1; 1]]).
  move=> [|[|?]] [|[|?]] // _ _; rewrite !big_ord_recl !big_ord0 /select /G3 /lit /=; ring.
by split=> //; split; [exact: G3_inverse | split=> //; apply: (inverse_of_unit h)].
Qed.

(* ------------------------------------------------------------------ C51 *)

(* The header says the returned ratio is |G'|/|G| with the sign of the exchanges of
   compute_inverse_matrix_down, i.e. G' in the exchanged order.  It is not: removing
   row 0 and column 1. *)
Theorem C51_ratio_in_exchanged_order_refuted :
  exists (n : nat) (rows cols : seq nat) (G invG : nat -> nat -> rat),
    [/\ sorted ltn rows, sorted ltn cols, all (fun p => p < n)%N (rows ++ cols),
        size rows = 1%N /\ size cols = 1%N &
        inverse_of n G invG /\
        det_of (n - 1) (select G
           (take (n - 1) (exchange_all (iota 0 n) (exchanges_to_end n rows)))
           (take (n - 1) (exchange_all (iota 0 n) (exchanges_to_end n cols))))
          != det_ratio_down 1 rows cols invG * det_of n G].
Proof.
exists 3%N, [:: 0%N], [:: 1%N], (lit [:: [:: 0; 1; 0]; [:: 1; 0; 0]; [:: 0; 0; 1]]),
  (lit [:: [:: 0; 1; 0]; [:: 1; 0; 0]; [:: 0; 0; 1]]).
have h : inverse_of 3 (lit [:: [:: 0; 1; 0]; [:: 1; 0; 0]; [:: 0; 0; 1]])
  (lit [:: [:: 0; 1; 0]; [:: 1; 0; 0]; [:: 0; 0; 1]]) by each_entry.
split=> //; split=> //.
rewrite -(C09_removal_det_ratio (n := 3) (M := 1) (rows := [:: 0%N]) (cols := [:: 1%N]) _ _ _ _ _ _ h) //.
rewrite /det_of /= !(expand_det_row _ ord0) !big_ord_recl !big_ord0 /cofactor !det_mx11 !mxE /=.
by rewrite /select /lit.
Qed.
Print Assumptions C51_ratio_in_exchanged_order_refuted.

(* ------------------------------------------------------------------ C11 *)

Theorem C11_replace :
  forall (F : fieldType) (N M Mo : nat) (G invG Q R S : nat -> nat -> F),
    inverse_of (N + Mo) G invG -> det_of N G != 0 ->
    let G' := bordered N G Q R S in
    let rw := replace_det_ratio N M Mo Q R S invG in
    det_of (N + M) G' = rw.1 * det_of (N + Mo) G /\
    (rw.1 != 0 -> exists res, replace_inverse_matrix N M Q R S rw.2 = Ok ((N + M)%N, res) /\
       inverse_of (N + M) G' res).
Proof. by move=> F N M Mo G invG Q R S; apply: replace_ok. Qed.
Print Assumptions C11_replace.

Example C11_case :
  let G := lit [:: [:: 1; 2%:R]; [:: 0; 1]] in
  inverse_of (1 + 1) G (lit [:: [:: 1; -2%:R]; [:: 0; 1]]) /\ det_of 1 G != 0.
Proof.
move=> G; split; last by rewrite det1of.
move=> [|[|?]] [|[|?]] // _ _; rewrite !big_ord_recl !big_ord0 /G /lit /=; ring.
Qed.

(* Without the invertibility of the unchanged block the ratio is not reported:
   the code returns 0 although the true ratio is 1. *)
Theorem C11_singular_block_refuted :
  exists (N M Mo : nat) (G invG Q R S : nat -> nat -> rat),
    [/\ inverse_of (N + Mo) G invG,
        det_of (N + M) (bordered N G Q R S) = det_of (N + Mo) G,
        det_of (N + M) (bordered N G Q R S) != 0 &
        (replace_det_ratio N M Mo Q R S invG).1 = 0].
Proof.
pose G := lit [:: [:: 0; 1]; [:: 1; 0]]; pose c1 := lit [:: [:: 1]].
pose G' := bordered 1 G c1 c1 (lit [:: [:: 5%:R]]).
have h : inverse_of 2 G G by rewrite /G; each_entry.
have h' : inverse_of 2 G' (lit [:: [:: -5%:R; 1]; [:: 1; 0]]).
  move=> [|[|?]] [|[|?]] // _ _; rewrite !big_ord_recl !big_ord0 /G' /bordered /G /c1 /lit /=; ring.
exists 1%N, 1%N, 1%N, G, G, c1, c1, (lit [:: [:: 5%:R]]); split.
- exact: h.
- by rewrite /det_of !(expand_det_row _ ord0) !big_ord_recl !big_ord0 /cofactor !det_mx11 !mxE.
- exact: (inverse_of_unit h').
- by rewrite /replace_det_ratio /= /fdet det_mx11 !mxE.
Qed.
Print Assumptions C11_singular_block_refuted.

(* ------------------------------------------------------------------ C12 *)

Theorem C12_last_row :
  forall (F : fieldType) (N : nat) (G invG row : nat -> nat -> F),
    (0 < N)%N -> inverse_of N G invG ->
    let d := det_ratio_last_row N invG row in
    det_of N (with_last_row N G (row 0%N)) = d * det_of N G /\
    (d != 0 -> inverse_of N (with_last_row N G (row 0%N)) (inverse_last_row N invG row d)).
Proof.
by move=> F N G invG row N0 h; split; [apply: last_row_ratio_ok | apply: last_row_inverse_ok].
Qed.
Print Assumptions C12_last_row.

Theorem C12_last_col :
  forall (F : fieldType) (N : nat) (G invG col : nat -> nat -> F),
    (0 < N)%N -> inverse_of N G invG ->
    let d := det_ratio_last_col N invG col in
    det_of N (with_last_col N G (fun i => col i 0%N)) = d * det_of N G /\
    (d != 0 -> inverse_of N (with_last_col N G (fun i => col i 0%N)) (inverse_last_col N invG col d)).
Proof.
by move=> F N G invG col N0 h; split; [apply: last_col_ratio_ok | apply: last_col_inverse_ok].
Qed.
Print Assumptions C12_last_col.

Example C12_case :
  [/\ inverse_of 3 G3 invG3,
      det_ratio_last_row 3 invG3 (lit [:: [:: 1; 0; 2%:R]]) = 3%:R &
      det_ratio_last_col 3 invG3 (lit [:: [:: 1]; [:: 1]; [:: 2%:R]]) = 2%:R].
Proof.
split; first exact: G3_inverse.
- by rewrite /det_ratio_last_row /fmul !big_ord_recl big_ord0 /invG3 /lit /=; ring.
- by rewrite /det_ratio_last_col /fmul !big_ord_recl big_ord0 /invG3 /lit /=; ring.
Qed.
