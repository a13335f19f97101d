(* Property theorems: C44 (cubic spline), C45 (its derivatives), C61 (reuse of a spline object). *)
From mathcomp Require Import all_ssreflect ssralg ssrnum poly ssrint rat.
From mathcomp Require Import zify.
From mathcomp.algebra_tactics Require Import ring.
From Verif Require Import Outcome SplineModel SplineSpec SplineProofs.

Set Implicit Arguments.
Unset Strict Implicit.
Unset Printing Implicit Defensive.

Local Open Scope ring_scope.
Import Order.TTheory GRing.Theory Num.Theory.

(* ------------------------------------------------------------------ C44 *)

(* the derivative whose value a boundary condition prescribes *)
Definition prescribed (b : bd_type) : nat := match b with first_deriv => 1 | second_deriv => 2 end.

(* For every strictly increasing list of at least two abscissas set_points succeeds, and the
   curve that operator() evaluates consists of polynomials of degree at most three, passes
   through every point, has equal values and first and second derivatives on both sides of
   every point (at the two end points only values and first derivatives, if linear
   extrapolation is forced), and meets the boundary conditions. *)
Theorem C44_spline :
  forall (F : realFieldType) (s0 : spline F) (xs ys : seq F),
    (1 < size xs)%N -> size ys = size xs -> increasing xs ->
    exists (s : spline F) (Q : nat -> {poly F}),
      [/\ set_points s0 xs ys true = Ok s,
          (forall i, (i < size xs)%N -> spline_at s (nth 0 xs i) = nth 0 ys i),
          piecewise xs Q (spline_at s) /\ (forall i, (i <= size xs)%N -> (size (Q i) <= 4)%N),
          (forall i, (0 < i < (size xs).-1)%N -> smooth_at 2 xs Q i) /\
          (forall i, i = 0%N \/ i = (size xs).-1 -> smooth_at (if sp_lin s0 then 1 else 2)%N xs Q i) &
          (Q 1%N)^`(prescribed (sp_left s0)).[nth 0 xs 0] = sp_lv s0 /\
          (Q (size xs).-1)^`(prescribed (sp_right s0)).[nth 0 xs (size xs).-1] = sp_rv s0].
Proof.
move=> F s0 xs ys n2 sy incr.
have [s [e [ex ey] [ea hit] [sm _] bc]] := set_points_cubic s0 n2 sy incr.
exists s, (piece s).
have n2' : (1 < size (sp_x s))%N by rewrite ex.
have inc' : increasing (sp_x s) by rewrite ex.
have hit' i : (i.+1 < size (sp_x s))%N -> (piece s i.+1).[nth 0 (sp_x s) i.+1] = nth 0 (sp_y s) i.+1 by rewrite ex ey; exact: hit.
have ea' : sp_a s (size (sp_x s)).-1 = 0 by rewrite ex.
split=> //.
- by move=> i li; rewrite -{1}ex -ey at_point // ex.
- split; first by rewrite -{1}ex; exact: at_piecewise.
  by case=> [|i] _; exact: cub_size.
- split=> [i hi|i hi].
    have := sm i; have -> : (i == 0%N) || (i == (size xs).-1) = false by move: hi; clear; lia.
    by rewrite andbF; apply; move: hi; clear; lia.
  have := sm i; have -> : (i == 0%N) || (i == (size xs).-1) by case: hi => ->; rewrite eqxx ?orbT.
  by rewrite andbT; apply; case: hi n2 => ->; clear; lia.
Qed.
Print Assumptions C44_spline.

(* Linear interpolation: straight pieces through every point. *)
Theorem C44_linear :
  forall (F : realFieldType) (s0 : spline F) (xs ys : seq F),
    (1 < size xs)%N -> size ys = size xs -> increasing xs ->
    exists (s : spline F) (Q : nat -> {poly F}),
      [/\ set_points s0 xs ys false = Ok s,
          (forall i, (i < size xs)%N -> spline_at s (nth 0 xs i) = nth 0 ys i),
          piecewise xs Q (spline_at s) &
          (forall i, (0 < i < size xs)%N -> (size (Q i) <= 2)%N)].
Proof.
move=> F s0 xs ys n2 sy incr.
have [s [e [ex ey] ea hit sz]] := set_points_linear s0 n2 sy incr.
exists s, (piece s).
have n2' : (1 < size (sp_x s))%N by rewrite ex.
have inc' : increasing (sp_x s) by rewrite ex.
have hit' i : (i.+1 < size (sp_x s))%N -> (piece s i.+1).[nth 0 (sp_x s) i.+1] = nth 0 (sp_y s) i.+1 by rewrite ex ey; exact: hit.
have ea' : sp_a s (size (sp_x s)).-1 = 0 by rewrite ex.
split=> //.
- by move=> i li; rewrite -{1}ex -ey at_point // ex.
- by rewrite -{1}ex; exact: at_piecewise.
- by case=> [//|i] /andP[_ hi]; exact: sz.
Qed.
Print Assumptions C44_linear.

(* The band solver behind it solves every strictly diagonally dominant band system, for every
   number of upper and lower bands. *)
Theorem C44_band_solver :
  forall (F : realFieldType) (n nu nl : nat) (M : nat -> nat -> F) (A : band F) (rhs : nat -> F),
    bd_n A = n -> bd_nu A = nu -> bd_nl A = nl ->
    (forall i j, bget A i j = M i j) ->
    (forall i j, (i + nu < j)%N || (j + nl < i)%N -> M i j = 0) ->
    (forall i, (i < n)%N -> \sum_(0 <= j < n | j != i) `|M i j| < `|M i i|) ->
    forall i, (i < n)%N -> \sum_(0 <= j < n) M i j * lu_solve A rhs j = rhs i.
Proof.
move=> F n nu nl M A rhs en eu el eM bM dom i li.
have bA : banded A by move=> i' j'; rewrite eu el eM; exact: bM.
have := band_solve rhs bA; rewrite en => H.
rewrite -[RHS]H //; last by move=> i' li'; rewrite eM; under eq_bigr do rewrite eM; exact: dom.
by apply: eq_bigr => j _; rewrite eM.
Qed.
Print Assumptions C44_band_solver.

(* get_coeff returns the Taylor coefficients of the piece that starts at the point. *)
Theorem C44_coefficients :
  forall (F : realFieldType) (s0 s : spline F) (xs ys : seq F) (cubic : bool) (Q : nat -> {poly F}),
    (1 < size xs)%N -> size ys = size xs -> increasing xs -> set_points s0 xs ys cubic = Ok s ->
    piecewise xs Q (spline_at s) ->
    forall i p, (i < size xs)%N -> (p <= 3)%N ->
      exists v, get_coeff s i p = Ok v /\ v *+ p`! = (Q i.+1)^`(p).[nth 0 xs i].
Proof.
move=> F s0 s xs ys cubic Q n2 sy incr e pw i p li hp.
have [ex ey ea hit] := set_points_ok n2 sy incr e.
have -> : Q i.+1 = piece s i.+1 by apply: (ok_pieces n2 sy incr e pw).
rewrite /get_coeff ey sy leqNgt li /=.
case: p hp => [|[|[|[|p]]]] // _; eexists; split; try reflexivity.
- by rewrite derivn0 cub_at ex ey subrr !(mulr0, add0r).
- by rewrite cub_d1 ex subrr !(mulr0, add0r).
- by rewrite cub_d2 ex subrr !(mulr0, add0r) mulr_natl.
- by rewrite cub_d3 mulr_natl.
Qed.
Print Assumptions C44_coefficients.

(* ------------------------------------------------------------------ C45 *)

(* Whatever polynomials describe the curve, deriv(k, x) is the k-th derivative of the piece
   containing x, inside and right of the data for every k, and left of it for every k but 2. *)
Theorem C45_derivatives_partial :
  forall (F : realFieldType) (s0 s : spline F) (xs ys : seq F) (cubic : bool) (Q : nat -> {poly F}),
    (1 < size xs)%N -> size ys = size xs -> increasing xs -> set_points s0 xs ys cubic = Ok s ->
    piecewise xs Q (spline_at s) ->
    forall k, (0 < k)%N ->
    [/\ k <> 2%N -> forall x, x < nth 0 xs 0 -> spline_deriv s k x = (Q 0%N)^`(k).[x],
        forall i x, (i.+1 < size xs)%N -> nth 0 xs i < x <= nth 0 xs i.+1 -> spline_deriv s k x = (Q i.+1)^`(k).[x],
        spline_deriv s k (nth 0 xs 0) = (Q 1%N)^`(k).[nth 0 xs 0] &
        forall x, nth 0 xs (size xs).-1 < x -> spline_deriv s k x = (Q (size xs))^`(k).[x]].
Proof.
move=> F s0 s xs ys cubic Q n2 sy incr e pw k k0.
have [ex ey ea hit] := set_points_ok n2 sy incr e.
have E := ok_pieces n2 sy incr e pw.
have k0' : k != 0%N by rewrite -lt0n.
rewrite (E 0%N) // (E 1%N) ?(ltnW n2) // (E (size xs)) //; subst xs ys; split.
- by move=> /eqP k2 x hx; exact: deriv_left.
- by move=> i x li hx; rewrite (E i.+1) ?(ltnW li) //; exact: deriv_mid.
- exact: deriv_first.
- by move=> x hx; exact: deriv_right.
Qed.
Print Assumptions C45_derivatives_partial.

(* Left of the data the second derivative is multiplied by x - x_0 (spline.h:435). *)
Theorem C45_left_second :
  forall (F : realFieldType) (s0 s : spline F) (xs ys : seq F) (cubic : bool) (Q : nat -> {poly F}),
    (1 < size xs)%N -> size ys = size xs -> increasing xs -> set_points s0 xs ys cubic = Ok s ->
    piecewise xs Q (spline_at s) ->
    forall x, x < nth 0 xs 0 -> spline_deriv s 2 x = (Q 0%N)^`(2).[x] * (x - nth 0 xs 0).
Proof.
move=> F s0 s xs ys cubic Q n2 sy incr e pw x hx.
have [ex ey ea hit] := set_points_ok n2 sy incr e.
have -> : Q 0%N = piece s 0%N by apply: (ok_pieces n2 sy incr e pw).
by subst xs ys; exact: deriv_left2.
Qed.
Print Assumptions C45_left_second.

(* points (0,0), (1,0), curvature 2 at the left end *)
Definition curved : spline [realFieldType of rat] := set_boundary (spline_new _) second_deriv 2%:R second_deriv 0 false.

Lemma increasing01 : increasing (F := [realFieldType of rat]) [:: 0; 1].
Proof.
move=> i j h; have [-> ->] : i = 0%N /\ j = 1%N by move: h => /=; clear; lia.
by [].
Qed.

Theorem C45_left_second_refuted :
  exists (s : spline [realFieldType of rat]) (x : rat),
    [/\ increasing (F := [realFieldType of rat]) [:: 0; 1],
        set_points curved [:: 0; 1] [:: 0; 0] true = Ok s, x < 0 &
        forall Q, piecewise (F := [realFieldType of rat]) [:: 0; 1] Q (spline_at s) ->
                  spline_deriv s 2 x <> (Q 0%N)^`(2).[x]].
Proof.
have i01 := increasing01.
have [s [Q0 [e _ [pw _] [_ sm] [bc _]]]] := @C44_spline [realFieldType of rat] curved [:: 0; 1] [:: 0; 0] isT erefl i01.
exists s, (- (1 / 2%:R)); split=> // Q pwQ.
rewrite (@C45_left_second _ curved s [:: 0; 1] [:: 0; 0] true Q) //.
have E : Q 0%N = Q0 0%N.
  apply: (@poly_interval _ _ _ (-1) 0) => // t /andP[_ /ltW ht].
  by case: pwQ => q1 _ _; case: pw => p1 _ _; rewrite -q1 // -p1.
have d2 t : (Q 0%N)^`(2).[t] = 2%:R.
  have E0 : Q0 0%N = piece s 0%N by apply: (@ok_pieces _ curved s [:: 0; 1] [:: 0; 0] true Q0).
  have := sm 0%N (or_introl erefl) 2%N (leqnn _); rewrite [RHS]bc E E0 /= !cub_d2.
  by rewrite !(mulr0, mul0r, add0r).
by rewrite !d2 => /eqP.
Qed.
Print Assumptions C45_left_second_refuted.

(* ------------------------------------------------------------------ C61 *)

(* Cubic interpolation: what the object held before does not matter. *)
Theorem C61_reuse_partial :
  forall (F : realFieldType) (s0 s1 : spline F) (xs ys : seq F),
    sp_left s0 = sp_left s1 -> sp_right s0 = sp_right s1 -> sp_lv s0 = sp_lv s1 -> sp_rv s0 = sp_rv s1 ->
    sp_lin s0 = sp_lin s1 ->
    set_points s0 xs ys true = set_points s1 xs ys true.
Proof.
move=> F s0 s1 xs ys e1 e2 e3 e4 e5.
by rewrite /set_points /right_row /left_row e1 e2 e3 e4 e5.
Qed.
Print Assumptions C61_reuse_partial.

(* Linear interpolation on an object that held a cubic spline: the curvature left in the last
   entry of m_b bends the extrapolation on the right (m_b.resize does not clear it, and the
   loop writes only the first n-1 entries). *)
Theorem C61_linear_reuse_refuted :
  exists (s0 s1 s2 s3 : spline [realFieldType of rat]) (x : rat),
    [/\ s0 = set_boundary (spline_new _) second_deriv 0 second_deriv 2%:R false,
        set_points s0 [:: 0; 1] [:: 0; 0] true = Ok s1,
        set_points s1 [:: 0; 1] [:: 0; 0] false = Ok s2,
        set_points s0 [:: 0; 1] [:: 0; 0] false = Ok s3 &
        spline_at s2 x = 1 /\ spline_at s3 x = 0].
Proof.
pose s0 : spline [realFieldType of rat] := set_boundary (spline_new _) second_deriv 0 second_deriv 2%:R false.
have : (if set_points s0 [:: 0; 1] [:: 0; 0] true is Ok s1 then
        if set_points s1 [:: 0; 1] [:: 0; 0] false is Ok s2 then
        if set_points s0 [:: 0; 1] [:: 0; 0] false is Ok s3 then
        (spline_at s2 2%:R == 1) && (spline_at s3 2%:R == 0) else false else false else false) by vm_compute.
case e1 : (set_points s0 _ _ true) => [s1| | |] //.
case e2 : (set_points s1 _ _ false) => [s2| | |] //.
case e3 : (set_points s0 _ _ false) => [s3| | |] //.
case/andP=> /eqP h2 /eqP h3; exists s0, s1, s2, s3, 2%:R.
split; [reflexivity|exact: e1|exact: e2|exact: e3|split; [exact: h2|exact: h3]].
Qed.
Print Assumptions C61_linear_reuse_refuted.

(* ------------------------------------------------------------------ a concrete spline *)

(* natural spline through (0,0), (1,1), (2,0): -x^3/2 + 3x/2 on the first piece *)
Definition tent : outcome (spline [realFieldType of rat]) :=
  set_points (spline_new _) [:: 0; 1; 2%:R] [:: 0; 1; 0] true.
Lemma increasing012 : increasing (F := [realFieldType of rat]) [:: 0; 1; 2%:R].
Proof.
move=> i j h.
have [[-> ->]|[[-> ->]|[-> ->]]] : (i = 0%N /\ j = 1%N) \/ (i = 0%N /\ j = 2%N) \/ (i = 1%N /\ j = 2%N)
  by move: h => /=; clear; lia.
all: by [].
Qed.
Example C44_spline_tent : exists s, [/\ tent = Ok s,
  spline_at s (1 / 2%:R) = 11%:R / 16%:R, spline_at s 1 = 1, spline_at s (3%:R / 2%:R) = 11%:R / 16%:R &
  spline_at s 3%:R = - (3%:R / 2%:R)].
Proof.
have : (if tent is Ok s then [&& spline_at s (1 / 2%:R) == 11%:R / 16%:R, spline_at s 1 == 1,
  spline_at s (3%:R / 2%:R) == 11%:R / 16%:R & spline_at s 3%:R == - (3%:R / 2%:R)] else false) by vm_compute.
case e : tent => [s| | |] //.
case/and4P=> /eqP h1 /eqP h2 /eqP h3 /eqP h4; exists s.
split; [reflexivity|exact: h1|exact: h2|exact: h3|exact: h4].
Qed.
Example C44_spline_tent_applies :
  exists (s : spline [realFieldType of rat]) Q, [/\ tent = Ok s, piecewise (F := [realFieldType of rat]) [:: 0; 1; 2%:R] Q (spline_at s) &
    smooth_at (F := [realFieldType of rat]) 2 [:: 0; 1; 2%:R] Q 1].
Proof.
have [s [Q [e _ [pw _] [sm _] _]]] := @C44_spline [realFieldType of rat] (spline_new _) [:: 0; 1; 2%:R] [:: 0; 1; 0] isT erefl increasing012.
by exists s, Q; split=> //; apply: sm.
Qed.
Example C44_linear_tent : exists s, set_points (spline_new [realFieldType of rat]) [:: 0; 1; 2%:R] [:: 0; 1; 0] false = Ok s /\
  spline_at s (1 / 2%:R) = 1 / 2%:R.
Proof.
have : (if set_points (spline_new [realFieldType of rat]) [:: 0; 1; 2%:R] [:: 0; 1; 0] false is Ok s
        then spline_at s (1 / 2%:R) == 1 / 2%:R else false) by vm_compute.
case e : set_points => [s| | |] // /eqP h; exists s.
split; [reflexivity|exact: h].
Qed.
(* a matrix with two upper and one lower band *)
Definition wide : band [realFieldType of rat] :=
  bset (bset (bset (bset (bset (bset (band_new _ 3 2 1) 0 0 4%:R) 0 2 1) 1 0 1) 1 1 4%:R) 2 1 1) 2 2 4%:R.
Example C44_band_solver_wide : forall rhs i, (i < 3)%N ->
  \sum_(0 <= j < 3) bget wide i j * lu_solve wide rhs j = rhs i.
Proof.
move=> rhs; apply: (@C44_band_solver _ 3 2 1 (bget wide)) => //.
  move=> i j; rewrite /wide !bget_bset /bget /= if_same.
  by case: i => [|[|[|i]]]; case: j => [|[|[|j]]].
by case=> [|[|[|i]]] // _; rewrite /index_iota /= unlock.
Qed.
Example C45_tent : exists s, [/\ tent = Ok s, spline_deriv s 1 0 = 3%:R / 2%:R, spline_deriv s 2 1 = - 3%:R,
  spline_deriv s 3 (1 / 2%:R) = - 3%:R & spline_deriv s 1 3%:R = - (3%:R / 2%:R)].
Proof.
have : (if tent is Ok s then [&& spline_deriv s 1 0 == 3%:R / 2%:R, spline_deriv s 2 1 == - 3%:R,
  spline_deriv s 3 (1 / 2%:R) == - 3%:R & spline_deriv s 1 3%:R == - (3%:R / 2%:R)] else false) by vm_compute.
case e : tent => [s| | |] //.
case/and4P=> /eqP h1 /eqP h2 /eqP h3 /eqP h4; exists s.
split; [reflexivity|exact: h1|exact: h2|exact: h3|exact: h4].
Qed.
Example C44_coefficients_tent : exists s, [/\ tent = Ok s, get_coeff s 0 1 = Ok (3%:R / 2%:R) &
  get_coeff s 1 2 = Ok (- (3%:R / 2%:R))].
Proof.
have : (if tent is Ok s then
        if get_coeff s 0 1 is Ok u then if get_coeff s 1 2 is Ok v then (u == 3%:R / 2%:R) && (v == - (3%:R / 2%:R))
        else false else false else false) by vm_compute.
case e : tent => [s| | |] //; case e1 : (get_coeff s 0 1) => [u| | |] //; case e2 : (get_coeff s 1 2) => [v| | |] //.
case/andP=> /eqP hu /eqP hv; exists s.
split; [reflexivity|rewrite e1 hu; reflexivity|rewrite e2 hv; reflexivity].
Qed.
Example C61_reuse_tent : forall s, tent = Ok s -> set_points s [:: 0; 1] [:: 1; 0] true = set_points (spline_new _) [:: 0; 1] [:: 1; 0] true.
Proof.
move=> s; rewrite /tent => e.
have [ ] : [/\ sp_left s = second_deriv, sp_right s = second_deriv, sp_lv s = 0, sp_rv s = 0 & sp_lin s = false].
  have {e}e : (if set_points (spline_new [realFieldType of rat]) [:: 0; 1; 2%:R] [:: 0; 1; 0] true is Ok s' then Ok (sp_left s', sp_right s', sp_lv s', sp_rv s', sp_lin s') else UB) =
     Ok (sp_left s, sp_right s, sp_lv s, sp_rv s, sp_lin s) by rewrite e.
  by move: e; cbn; case=> <- <- <- <- <-.
by move=> *; apply: C61_reuse_partial.
Qed.
