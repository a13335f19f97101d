(* Specification vocabulary for moves of two vertices: the distribution of their time
   difference, proposal and acceptance rates, and pairs of types whose quantum numbers
   cancel.  Only the data types of vertices are taken from the model. *)
From mathcomp Require Import all_ssreflect ssralg ssrnum ssrint matrix.
From Verif Require Import SubModel SubSpec ManSpec.

Set Implicit Arguments.
Unset Strict Implicit.
Unset Printing Implicit Defensive.

Import GRing.Theory Num.Theory.
Local Open Scope ring_scope.

Section PairSpec.
Variables (F : numFieldType) (Tm : eqType).
Variable G0 : sop Tm -> sop Tm -> F.
Variable U : seq (vdef F).
Variables (x0 : sop Tm) (nf : nat).
Variables (beta us : F) (exp : F -> F) (a b : F).
Variable tdiff : Tm -> Tm -> F.
Notation wt := (weight G0 U x0 nf).

(* unnormalised density of the time difference, and its integral over [0, beta) *)
Definition sp_density (d : F) : F := exp (- (a * d)) + exp (- (a * (beta - d))) + b.
Definition sp_integral : F := 2%:R / a * (1 - exp (- (a * beta))) + b * beta.

(* the positions of the interacting vertices of a type *)
Definition sp_of_type (d : vertex Tm) (vs : seq (vertex Tm)) (k : nat) : seq nat :=
  [seq i <- iota 0 (size vs) | ~~ v_non (nth d vs i) && (v_type (nth d vs i) == k)].
(* the positions of all pairs of a first and a second type *)
Definition sp_pairs (d : vertex Tm) (vs : seq (vertex Tm)) (k : nat * nat) : seq (nat * nat) :=
  [seq (i, j) | i <- sp_of_type d vs k.1, j <- sp_of_type d vs k.2].
(* density at the time difference of a pair, and the sum over all pairs *)
Definition sp_pair_density (d : vertex Tm) (vs : seq (vertex Tm)) (p : nat * nat) : F :=
  sp_density (tdiff (v_time (nth d vs p.2)) (v_time (nth d vs p.1))).
Definition sp_pair_sum (d : vertex Tm) (vs : seq (vertex Tm)) (k : nat * nat) : F :=
  \sum_(p <- sp_pairs d vs k) sp_pair_density d vs p.

(* the density with which two vertices are proposed: pair of types uniform among np, first
   time uniform, time difference by the density, states uniform *)
Definition sp_propose_pair (np : nat) (v0 v1 : vertex Tm) : F :=
  np%:R^-1 * beta^-1 * (sp_density (tdiff (v_time v1) (v_time v0)) / sp_integral) *
  ((vd_naf (sp_def U v0))%:R^-1 * (vd_naf (sp_def U v1))%:R^-1).
(* the probability with which a pair is proposed for removal: pair of types uniform, then
   proportional to the density of its time difference *)
Definition sp_propose_pair_rem (np : nat) (d : vertex Tm) (vs : seq (vertex Tm)) (p : nat * nat) : F :=
  np%:R^-1 * (sp_pair_density d vs p / sp_pair_sum d vs (v_type (nth d vs p.1), v_type (nth d vs p.2))).
(* acceptance thresholds of the moves vs -> vs' that insert or remove the pair p *)
Definition sp_pair_ins_rate (d : vertex Tm) (vs vs' : seq (vertex Tm)) (p : nat * nat) : F :=
  `|wt vs' / wt vs| *
  (beta * sp_integral / sp_pair_sum d vs' (v_type (nth d vs' p.1), v_type (nth d vs' p.2))) * us ^+ 2.
Definition sp_pair_rem_rate (d : vertex Tm) (vs vs' : seq (vertex Tm)) (p : nat * nat) : F :=
  `|wt vs' / wt vs| *
  (sp_pair_sum d vs (v_type (nth d vs p.1), v_type (nth d vs p.2)) / (beta * sp_integral)) / us ^+ 2.

(* the density is positive and its integral is too *)
Definition sp_dist_ok : Prop :=
  [/\ 0 < beta, 0 <= b, a != 0, 0 < sp_integral & forall x, 0 < exp x].

End PairSpec.

(* two types whose non-zero quantum numbers cancel *)
Definition sp_cancels (qns : seq (seq (seq int))) (v1 v2 : nat) : bool :=
  let q v := nth [::] (nth [::] qns v) 0 in
  [&& (v1 < size qns)%N, (v2 < size qns)%N, has (fun x => x != 0) (q v1) &
      all (fun k => nth 0 (q v1) k == - nth 0 (q v2) k) (iota 0 (size (q v1)))].
