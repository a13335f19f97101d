(* Property theorems: C42 (bare Green function), C43 (mymod). *)
From mathcomp Require Import all_ssreflect order ssralg ssrnum ssrint rat intdiv.
From Verif Require Import Outcome GreenModel GreenProofs.

Set Implicit Arguments.
Unset Strict Implicit.
Unset Printing Implicit Defensive.

Local Open Scope ring_scope.

(* ---- what the properties say ---- *)

(* y is the representative of x in [0, beta), k periods away *)
Definition representative (beta x y : rat) (k : int) : Prop :=
  x = y + k%:~R * beta /\ 0 <= y < beta.

(* value at tau of the piece of the curve starting at a grid point, given its four
   coefficients *)
Definition cubic (V : lmodType [ringType of rat]) (coeff : nat -> V) (h : rat) : V :=
  h ^+ 3 *: coeff 3%N + h ^+ 2 *: coeff 2%N + h *: coeff 1%N + coeff 0%N.

(* ------------------------------------------------------------------ C42 *)

(* Inside [0, beta] the table is read in range, in the segment that contains the time. *)
Theorem C42_segment :
  forall (V : lmodType [ringType of rat]) (beta : rat) (n nf ns : nat)
         (coeff : nat -> nat -> nat -> nat -> nat -> V) (f s s2 : nat) (tau : rat),
    0 < beta -> (1 < n)%N -> (f < nf)%N -> (s < ns)%N -> (s2 < ns)%N -> 0 <= tau <= beta ->
    exists k : nat, [/\ (k.+1 < n)%N, grid_point beta n k <= tau <= grid_point beta n k.+1 &
      interpolate (green_grid beta n nf ns coeff) f s s2 tau =
      Ok (cubic (coeff f s s2 k) (tau - grid_point beta n k))].
Proof.
move=> V beta n nf ns coeff f s s2 tau b0 n1 fl sl s2l tb.
have [k [kn gk e]] := interpolate_ok coeff b0 n1 fl sl s2l tb; exists k; split=> //; rewrite e /= /cubic.
by move: (tau - _) => h; rewrite !GRing.scalerDr !GRing.scalerA !GRing.exprS GRing.expr0 !GRing.mulr1 GRing.mulrA.
Qed.
Print Assumptions C42_segment.

(* Different times: the curve at the representative, with the parity of the periods. *)
Theorem C42_value :
  forall (V : lmodType [ringType of rat]) (beta : rat) (n nf ns : nat)
         (coeff : nat -> nat -> nat -> nat -> nat -> V) (c cd : gop),
    0 < beta -> (1 < n)%N -> (g_flavor c < nf)%N -> (g_site c < ns)%N -> (g_site cd < ns)%N ->
    g_time c != g_time cd ->
    exists n0 : nat, forall m, (n0 <= m)%N -> exists (k : int) (r : rat) (v : V),
      [/\ representative beta (g_time c - g_time cd) r k,
          interpolate (green_grid beta n nf ns coeff) (g_flavor c) (g_site c) (g_site cd) r = Ok v &
          green_ops m (green_grid beta n nf ns coeff) c cd = Ok ((-1) ^+ `|k|%N *: v)].
Proof.
move=> V beta n nf ns coeff c cd b0 n1 fl sl s2l ne.
have [n0 h] := green_ops_ok coeff b0 n1 fl sl s2l ne; exists n0 => m nm.
by have [k [r [v [e1 e2 e3 e4]]]] := h m nm; exists k, r, v.
Qed.
Print Assumptions C42_value.

(* Shifting a time by beta changes the sign. *)
Theorem C42_antiperiodic :
  forall (V : lmodType [ringType of rat]) (beta : rat) (n nf ns : nat)
         (coeff : nat -> nat -> nat -> nat -> nat -> V) (c cd : gop),
    0 < beta -> (1 < n)%N -> (g_flavor c < nf)%N -> (g_site c < ns)%N -> (g_site cd < ns)%N ->
    g_time c != g_time cd -> g_time c + beta != g_time cd ->
    let g := green_grid beta n nf ns coeff in
    let c' := Gop (g_flavor c) (g_site c) (g_time c + beta) (g_small c) in
    exists n0 : nat, forall m, (n0 <= m)%N -> exists v : V,
      green_ops m g c cd = Ok v /\ green_ops m g c' cd = Ok (- v).
Proof. by move=> V beta n nf ns coeff c cd b0 n1 fl sl s2l ne ne'; apply: green_ops_shift. Qed.
Print Assumptions C42_antiperiodic.

(* The other evaluation function, which takes equal times as just after. *)
Theorem C42_antiperiodic_dt :
  forall (V : lmodType [ringType of rat]) (beta : rat) (n nf ns : nat)
         (coeff : nat -> nat -> nat -> nat -> nat -> V) (dt : rat) (f s s2 : nat),
    1 / 10%:R ^+ 8 <= beta -> (1 < n)%N -> (f < nf)%N -> (s < ns)%N -> (s2 < ns)%N ->
    let g := green_grid beta n nf ns coeff in
    exists n0 : nat, forall m, (n0 <= m)%N -> exists v : V,
      green_dt m g dt f s s2 = Ok v /\ green_dt m g (dt + beta) f s s2 = Ok (- v).
Proof. by move=> V beta n nf ns coeff dt f s s2 be n1 fl sl s2l; apply: green_dt_shift. Qed.
Print Assumptions C42_antiperiodic_dt.

(* Equal times: the limit from above if the annihilation operator comes later, minus the
   curve at beta otherwise. *)
Theorem C42_equal_times :
  forall (V : lmodType [ringType of rat]) (beta : rat) (n nf ns : nat)
         (coeff : nat -> nat -> nat -> nat -> nat -> V) (c cd : gop) (m : nat),
    0 < beta -> (1 < n)%N -> (g_flavor c < nf)%N -> (g_site c < ns)%N -> (g_site cd < ns)%N ->
    g_time c = g_time cd ->
    let g := green_grid beta n nf ns coeff in
    exists v : V, interpolate g (g_flavor c) (g_site c) (g_site cd)
        (if g_small cd < g_small c then 0 else beta) = Ok v /\
      green_ops m g c cd = Ok (if g_small cd < g_small c then v else - v).
Proof. by move=> V beta n nf ns coeff c cd m b0 n1 fl sl s2l e; apply: green_ops_equal. Qed.
Print Assumptions C42_equal_times.

(* a table with three points and one flavor and site: the curve is 1 + h on the first and
   2 + h on the second segment *)
Definition V1 : lmodType [ringType of rat] := [lmodType rat of rat^o].
Definition co1 (f s s2 k p : nat) : V1 := if p == 0%N then k.+1%:R else (p == 1%N)%:R.
Example C42_case :
  green_ops 3 (green_grid (V := V1) 2 3 1 1 co1) (Gop 0 0 (1 / 2) 0) (Gop 0 0 0 1) = Ok (3 / 2) /\
  green_ops 3 (green_grid (V := V1) 2 3 1 1 co1) (Gop 0 0 0 0) (Gop 0 0 (1 / 2) 1) = Ok (- (5 / 2)) /\
  green_ops 3 (green_grid (V := V1) 2 3 1 1 co1) (Gop 0 0 0 1) (Gop 0 0 0 0) = Ok 1 /\
  green_ops 3 (green_grid (V := V1) 2 3 1 1 co1) (Gop 0 0 0 0) (Gop 0 0 0 0) = Ok (- 3).
Proof. by do !split; apply: f_equal; apply/eqP; vm_compute. Qed.

(* A table with a single time point is accepted, and every evaluation reads in front of
   the coefficients. *)
Theorem C42_one_point_refuted :
  exists (V : lmodType [ringType of rat]) (beta tau : rat) (n : nat)
         (coeff : nat -> nat -> nat -> nat -> nat -> V),
    [/\ 0 < beta, 0 <= tau <= beta &
        interpolate (green_grid beta n 1 1 coeff) 0 0 0 tau = UB].
Proof. by exists V1, 1, 0, 1%N, co1; split; vm_compute. Qed.
Print Assumptions C42_one_point_refuted.

(* ------------------------------------------------------------------ C43 *)

(* Every result differs from x by a multiple of beta, and lies in [0, beta) unless x is a
   negative multiple of beta. *)
Theorem C43_representative_partial :
  forall x beta y : rat, 0 < beta -> mymod x beta = Ok y ->
    0 <= x \/ (forall k : int, x != k%:~R * beta) ->
    exists k, representative beta x y k.
Proof.
move=> x beta y b0 e h; have [k ek] := mymod_ok b0 e; have [p n] := mymod_range b0 e.
exists k; split; first by rewrite ek GRing.subrK.
case: (Order.TotalTheory.leP 0 x) => x0; first exact: p.
have /andP [y0 yb] := n x0; rewrite (Order.POrderTheory.ltW y0) /= Order.POrderTheory.lt_neqAle yb andbT.
case: h => [h|h]; first by rewrite Order.TotalTheory.leNgt x0 in h.
apply: contraNneq (h (k + 1)) => eb; rewrite GRing.rmorphD /= GRing.mulrDl GRing.mul1r -{2}eb ek.
by rewrite GRing.addrC GRing.subrK.
Qed.
Print Assumptions C43_representative_partial.

(* It returns for every x within 2^31 - 1 periods. *)
Theorem C43_returns_partial :
  forall x beta : rat, 0 < beta -> `|x| / beta < (2%:Z ^+ 31 - 1)%:~R -> exists y, mymod x beta = Ok y.
Proof. by move=> x beta b0; apply: mymod_total. Qed.
Print Assumptions C43_returns_partial.

Example C43_case : mymod (- (7%:R / 2%:R)) 3%:R = Ok (5%:R / 2%:R) /\ mymod (7%:R / 2%:R) 3%:R = Ok (1 / 2%:R).
Proof.
have e1 : - (7%:R / 2%:R) + 3%:R * 2%:R = 5%:R / 2%:R :> rat by apply/eqP; vm_compute.
have e2 : 7%:R / 2%:R - 3%:R = 1 / 2%:R :> rat by apply/eqP; vm_compute.
have l1 : - (7%:R / 2%:R) < 0 :> rat by vm_compute.
have l2 : 0 <= 7%:R / 2%:R :> rat by vm_compute.
have t1 : truncq (- - (7%:R / 2%:R) / 3%:R) = 1 by apply/eqP; vm_compute.
have t2 : truncq (7%:R / 2%:R / 3%:R) = 1 by apply/eqP; vm_compute.
rewrite -e1 -e2; exact: conj (mymod_one_neg l1 t1) (mymod_one_pos l2 t2).
Qed.

(* A negative multiple of beta comes back as beta, outside [0, beta). *)
Theorem C43_negative_multiple_refuted :
  exists x beta y : rat, [/\ 0 < beta, mymod x beta = Ok y & ~~ (0 <= y < beta)].
Proof.
have l1 : - 1 < 0 :> rat by vm_compute.
have t1 : truncq (- - 1 / 1) = 1 by apply/eqP; vm_compute.
have l2 : (0 : rat) < 1 by [].
have e : - 1 + 1 * 2%:R = 1 :> rat by apply/eqP; vm_compute.
have l3 : ~~ ((0 : rat) <= (- 1 + 1 * 2%:R : rat) < 1) by rewrite e Order.POrderTheory.ltxx andbF.
exists (- 1), 1, (- 1 + 1 * 2%:R); exact: And3 l2 (mymod_one_neg l1 t1) l3.
Qed.
Print Assumptions C43_negative_multiple_refuted.

(* Beyond the range of int the conversion in it is undefined. *)
Theorem C43_large_refuted : exists x beta : rat, 0 < beta /\ mymod x beta = UB.
Proof. by exists (two31%:~R), 1; split; [|exact: mymod_huge]. Qed.
Print Assumptions C43_large_refuted.
