(* Proofs about the run control (ProgModel.v). *)
From Coq Require Import ZArith.
From mathcomp Require Import all_ssreflect ssralg ssrnum ssrint rat zify.
From Verif Require Import Outcome ProgModel.

Set Implicit Arguments.
Unset Strict Implicit.
Unset Printing Implicit Defensive.

(* parts can be compared *)
Definition part_code (x : part) : nat :=
  match x with Sweep => 0 | Recompute => 1 | Global => 2 | Prepare => 3 | Measure => 4 end.
Definition part_decode (n : nat) : option part := nth None [:: Some Sweep; Some Recompute; Some Global; Some Prepare; Some Measure] n.
Lemma part_codeK : pcancel part_code part_decode. Proof. by case. Qed.
Definition part_eqMixin := PcanEqMixin part_codeK.
Canonical part_eqType := EqType part part_eqMixin.

Section Control.
Variables (mc t p : nat).
Hypotheses (p_gt0 : 0 < p) (p_small : 20 * p < 2 ^ 32).

(* the state after m turns *)
Definition at_turn (m : nat) : pstate := PState (m * p) (t < m * p).
(* the parts of turn i *)
Definition turn (i : nat) : seq part :=
  (nseq p Sweep ++ (if 20 %| i then [:: Recompute] else [::]) ++ [:: Global] ++
   (if (t < i * p) && ~~ (t < i.-1 * p) then [:: Prepare] else [::])) ++ (if t < i * p then [:: Measure] else [::]).
Definition trace (m k : nat) : seq part := flatten [seq turn i | i <- iota m.+1 k].

Lemma iter_step w s q : s + q < w -> iter q (fun k => k.+1 %% w) s = s + q.
Proof.
elim: q => [|q IH] h; first by rewrite addn0.
rewrite iterS IH; last by move: h; clear; lia.
by rewrite modn_small ?addnS //; move: h; rewrite addnS.
Qed.

Lemma update_at m : m.+1 * p < 2 ^ 64 ->
  update t p (at_turn m) = Ok (at_turn m.+1, nseq p Sweep ++ (if 20 %| m.+1 then [:: Recompute] else [::]) ++ [:: Global] ++
   (if (t < m.+1 * p) && ~~ (t < m * p) then [:: Prepare] else [::])).
Proof.
move=> h; rewrite /update /at_turn [ps_step _]/= [ps_prev _]/= iter_step; last by rewrite addnC -mulSn.
rewrite (modn_small p_small) addnC -mulSn muln_eq0 orFb (gtn_eqF p_gt0) /is_thermalized [ps_step _]/=.
by rewrite -/(dvdn _ _) dvdn_pmul2r.
Qed.

Lemma cycle_at m : m.+1 * p < 2 ^ 64 -> cycle t p (at_turn m) = Ok (at_turn m.+1, turn m.+1).
Proof.
move=> h; rewrite /cycle (update_at h) [obind _ _]/= /turn /measure /is_thermalized [ps_step _]/=.
by case: (t < m.+1 * p).
Qed.

Lemma cycles_at k m : (m + k) * p < 2 ^ 64 -> cycles t p k (at_turn m) = Ok (at_turn (m + k), trace m k).
Proof.
elim: k => [|k IH] h; first by rewrite addn0.
rewrite [cycles _ _ _ _]/= IH; last by apply: leq_ltn_trans h; rewrite leq_mul2r addnS leqnSn orbT.
rewrite [obind _ _]/= cycle_at -?addnS // [obind _ _]/=.
by rewrite /trace -[in RHS](addn1 k) iotaD map_cat flatten_cat /= cats0 addSn addn1 addnS.
Qed.

Lemma cyclesE n : n * p < 2 ^ 64 -> cycles t p n pinit = Ok (at_turn n, trace 0 n).
Proof. by move=> h; have := @cycles_at n 0 h. Qed.

(* counting parts *)
Lemma traceS n : trace 0 n.+1 = trace 0 n ++ turn n.+1.
Proof. by rewrite /trace -[X in iota 1 X]addn1 iotaD map_cat flatten_cat /= cats0. Qed.

Lemma turn_count i x : count_mem x (turn i) =
  match x with
  | Sweep => p | Recompute => 20 %| i | Global => 1
  | Prepare => (t < i * p) && ~~ (t < i.-1 * p) | Measure => t < i * p end.
Proof.
rewrite /turn !count_cat count_nseq.
by case: x; case: (20 %| i); case: (_ < i * p); case: (_ < i.-1 * p) => /=; rewrite ?mul1n ?mul0n ?addn0.
Qed.

Lemma trace_sweep n : count_mem Sweep (trace 0 n) = n * p.
Proof. by elim: n => [|n IH] //; rewrite traceS count_cat IH turn_count mulSn addnC. Qed.
Lemma trace_global n : count_mem Global (trace 0 n) = n.
Proof. by elim: n => [|n IH] //; rewrite traceS count_cat IH turn_count addn1. Qed.
Lemma trace_recompute n : count_mem Recompute (trace 0 n) = n %/ 20.
Proof. by elim: n => [|n IH] //; rewrite traceS count_cat IH turn_count divnS // addnC. Qed.
Lemma trace_prepare n : count_mem Prepare (trace 0 n) = (t < n * p).
Proof.
elim: n => [|n IH] //; rewrite traceS count_cat IH turn_count [_.-1]/=.
have h : (t < n * p) -> (t < n.+1 * p) by move=> h; apply: leq_trans h _; rewrite leq_mul2r leqnSn orbT.
by case: (t < n * p) h => [/(_ isT)|_]; case: (_ < _).
Qed.
Lemma trace_measure n : count_mem Measure (trace 0 n) = n - t %/ p.
Proof.
elim: n => [|n IH] //; rewrite traceS count_cat IH turn_count -ltn_divLR //.
by move: (t %/ p) => d; case: (ltnP d n.+1); lia.
Qed.

(* positions *)
Lemma trace_ind (P : seq part -> part -> Prop) n :
  (forall m i, m < n -> i < size (turn m.+1) -> P (trace 0 m ++ take i (turn m.+1)) (nth Sweep (turn m.+1) i)) ->
  forall i, i < size (trace 0 n) -> P (take i (trace 0 n)) (nth Sweep (trace 0 n) i).
Proof.
elim: n => [|n IH] h i //; rewrite traceS size_cat nth_cat => hi.
have [hs|hs] := ltnP i (size (trace 0 n)).
  by rewrite takel_cat 1?ltnW //; apply: IH => // m j hm; apply: h; apply: ltnW.
rewrite take_cat ltnNge hs /=; apply: h => //.
by move: hi hs; clear; lia.
Qed.

Lemma nth_pre (q : seq part) i x : x \notin q -> x != Sweep -> nth Sweep q i <> x.
Proof.
move=> hx hs e; have [hi|hi] := ltnP i (size q); first by move: hx; rewrite -e mem_nth.
by move: hs; rewrite -e nth_default ?eqxx.
Qed.

(* the last occurrence: a list q ++ r whose part q does not contain x *)
Lemma turn_measure i m : nth Sweep (turn m) i = Measure ->
  t < m * p /\ [/\ count_mem Sweep (take i (turn m)) = p &
  count_mem Prepare (take i (turn m)) = ((t < m * p) && ~~ (t < m.-1 * p))].
Proof.
rewrite /turn; set q := _ ++ (_ ++ _) => e.
have hq : Measure \notin q.
  by rewrite /q !mem_cat mem_nseq andbF /=; case: (20 %| m); case: (_ && _).
have [hi|hi] := ltnP i (size q).
  by move: e; rewrite nth_cat hi => e; move: (nth_pre (i := i) hq isT); rewrite e.
move: e; rewrite nth_cat (ltnNge i) hi /= take_cat (ltnNge i) hi /=.
case: ifP => ht; last by rewrite nth_nil.
case: (i - size q) => [|k]; last by rewrite /= nth_nil.
rewrite take0 cats0 => _; split=> //.
by rewrite /q !count_cat !count_nseq ht; case: (20 %| m); case: (_ < _) => /=; rewrite mul1n ?mul0n ?addn0.
Qed.

Lemma turn_prepare i m : nth Sweep (turn m) i = Prepare ->
  [/\ t < m * p, (m.-1 * p <= t), count_mem Sweep (take i (turn m)) = p &
  count_mem Measure (take i (turn m)) = 0].
Proof.
rewrite /turn -!catA; set a := nseq _ _ ; set b := if 20 %| m then _ else _.
rewrite [a ++ _]catA [_ ++ [:: Global] ++ _]catA; set q := (a ++ b) ++ _ => e.
have hq : Prepare \notin q.
  by rewrite /q !mem_cat mem_nseq andbF /b /=; case: (20 %| m).
have hqm : Measure \notin q.
  by rewrite /q !mem_cat mem_nseq andbF /b /=; case: (20 %| m).
have [hi|hi] := ltnP i (size q).
  by move: e; rewrite nth_cat hi => e; move: (nth_pre (i := i) hq isT); rewrite e.
move: e; rewrite nth_cat (ltnNge i) hi /= take_cat (ltnNge i) hi /=.
have hc : count_mem Sweep q = p.
  by rewrite /q !count_cat count_nseq /b; case: (20 %| m); rewrite /= mul1n !addn0.
case: ifP => [/andP[ht hm]|_]; case: (i - size q) => [|k] /=.
- rewrite cats0 => _; split=> //; first by rewrite leqNgt.
  by apply/count_memPn.
- by case: ifP => _; case: k => [|k] //=; rewrite nth_nil.
- by case: ifP.
- by case: ifP => _; case: k => [|k] /=; rewrite ?nth_nil.
Qed.

Lemma turn_recompute i m : nth Sweep (turn m) i = Recompute ->
  20 %| m /\ count_mem Sweep (take i (turn m)) = p.
Proof.
rewrite /turn -!catA; set a := nseq _ _ => e.
have ha : Recompute \notin a by rewrite mem_nseq andbF.
have [hi|hi] := ltnP i (size a).
  by move: e; rewrite nth_cat hi => e; move: (nth_pre (i := i) ha isT); rewrite e.
move: e; rewrite nth_cat (ltnNge i) hi /= take_cat (ltnNge i) hi /=.
case: ifP => h20; last first.
  case: (i - size a) => [|k] //=; case: (_ && _); case: ifP => _; move: k => [|[|k]] //=; rewrite ?nth_nil //.
case: (i - size a) => [|k] /=.
  by rewrite cats0 => _; rewrite /a count_nseq mul1n.
by case: (_ && _); case: ifP => _; move: k => [|[|[|k]]] //=; rewrite ?nth_nil.
Qed.

End Control.
