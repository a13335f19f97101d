(* C50, C64, C65: thermalization, the completed fraction, what each turn of the main loop
   executes, and when the ranks stop. *)
From Coq Require Import ZArith SpecFloat.
From mathcomp Require Import all_ssreflect ssralg ssrnum ssrint rat zify.
From Verif Require Import Outcome ProgModel ProgProofs.

Set Implicit Arguments.
Unset Strict Implicit.
Unset Printing Implicit Defensive.

Import Order.TTheory GRing.Theory Num.Theory.

(* the completed fraction by its meaning: measured steps over requested steps; infinite when
   nothing is requested and something was measured. *)
Definition progress_of (mc measured : nat) : xrat :=
  if measured == 0 then Fin 0%R else if mc == 0 then PInf else Fin (measured%:R / mc%:R)%R.

Lemma nat_N n : N.to_nat (N.of_nat n) = n. Proof. by rewrite Nnat.Nat2N.id. Qed.

Lemma fractionE mc t s : fraction_completed mc t px_exact s = progress_of mc (ps_step s - t).
Proof.
rewrite /fraction_completed /is_thermalized /progress_of subn_eq0 -leqNgt.
case: leqP => // h; rewrite /pa_div /pa_sub /pa_N /px_exact !nat_N /xsub /xdiv.
rewrite -natrB ?(ltnW h) // pnatr_eq0; case: (mc == 0) => //.
by rewrite ltr0n subn_gt0 h.
Qed.

Lemma progress_mono mc a b : a <= b -> xge (progress_of mc b) (progress_of mc a).
Proof.
move=> h; rewrite /progress_of; have [b0|b0] := eqVneq b 0.
  by move: h; rewrite b0 leqn0 => /eqP->; rewrite /= lexx.
have [a0|a0] := eqVneq a 0.
  by case: (mc == 0) => //=; rewrite divr_ge0 ?ler0n.
case: eqP => // hm; rewrite /xge ler_wpmul2r ?invr_ge0 ?ler0n //.
by rewrite ler_nat.
Qed.

Lemma progress_one mc a : xge (progress_of mc a) (Fin 1%R) = (0 < a) && (mc <= a).
Proof.
rewrite /progress_of; case: a => [|a] //=; case: mc => [|m] //=.
by rewrite ler_pdivl_mulr ?ltr0n // mul1r ler_nat.
Qed.

Lemma progress_zero mc a : (progress_of mc a = Fin 0%R) <-> a = 0.
Proof.
rewrite /progress_of; case: a => [|a] //=; case: mc => [|m] /=; split=> //.
by case=> /eqP; rewrite mulf_eq0 invr_eq0 !pnatr_eq0.
Qed.

(* C50.  After n turns of the main loop the completed fraction is the number of steps done
   after thermalization over the requested number; it never decreases, is zero exactly up to
   the end of thermalization, and has reached one exactly when the requested steps are done. *)
Theorem C50_fraction :
  forall (mc t p : nat), 0 < p -> 20 * p < 2 ^ 32 ->
  forall n m, n <= m -> m * p < 2 ^ 64 ->
  exists sn en sm em,
    [/\ cycles t p n pinit = Ok (sn, en), cycles t p m pinit = Ok (sm, em),
        xge (fraction_completed mc t px_exact sm) (fraction_completed mc t px_exact sn) &
        [/\ fraction_completed mc t px_exact sn = progress_of mc (n * p - t),
            fraction_completed mc t px_exact sn = Fin 0%R <-> n * p <= t &
            xge (fraction_completed mc t px_exact sn) (Fin 1%R) = (t < n * p) && (t + mc <= n * p)]].
Proof.
move=> mc t p hp hs n m hnm hm.
have hn : n * p < 2 ^ 64 by apply: leq_ltn_trans hm; rewrite leq_mul2r hnm orbT.
exists (at_turn t p n), (trace t p 0 n), (at_turn t p m), (trace t p 0 m).
rewrite !cyclesE // !fractionE [ps_step (at_turn _ _ n)]/= [ps_step (at_turn _ _ m)]/=.
split=> //; first by rewrite progress_mono // leq_sub2r // leq_mul2r hnm orbT.
split=> //; last by rewrite progress_one subn_gt0; case: ltnP => //= h; rewrite leq_subRL // ltnW.
by rewrite progress_zero; split=> [/eqP|h]; [rewrite subn_eq0 | apply/eqP; rewrite subn_eq0].
Qed.

(* C50.  What n turns execute: measurements start with the first turn that ends after
   thermalization and then take place once per turn; the preparation for measurements runs
   exactly once and before all of them. *)
Theorem C50_measurements :
  forall (t p : nat), 0 < p -> 20 * p < 2 ^ 32 ->
  forall n, n * p < 2 ^ 64 ->
  exists s tr, [/\ cycles t p n pinit = Ok (s, tr),
    count_mem Sweep tr = n * p,
    count_mem Measure tr = n - t %/ p,
    count_mem Prepare tr = (t < n * p) &
    forall i, i < size tr ->
      let before := take i tr in
      (nth Sweep tr i = Measure ->
         [/\ t < count_mem Sweep before, p %| count_mem Sweep before & count_mem Prepare before = 1]) /\
      (nth Sweep tr i = Prepare ->
         [/\ t < count_mem Sweep before <= t + p & count_mem Measure before = 0])].
Proof.
move=> t p hp hs n hn; exists (at_turn t p n), (trace t p 0 n).
rewrite cyclesE // trace_sweep trace_measure // trace_prepare; split=> //.
pose P (b : seq part) (x : part) := 
      (x = Measure ->
         [/\ t < count_mem Sweep b, p %| count_mem Sweep b & count_mem Prepare b = 1]) /\
      (x = Prepare ->
         [/\ t < count_mem Sweep b <= t + p & count_mem Measure b = 0]).
apply: (@trace_ind t p P) => m i hm hi; split.
  move=> /turn_measure [ht [hc hq]]; rewrite !count_cat hc hq trace_sweep trace_prepare.
  rewrite addnC -mulSn ht dvdn_mull //; split=> //=.
  by case: (t < m * p).
move=> /turn_prepare [ht hl hc hq]; rewrite !count_cat hc hq trace_sweep trace_measure //.
rewrite addnC -mulSn ht /= mulSn addnC leq_add2r hl addn0; split=> //.
by apply/eqP; rewrite subn_eq0 -ltnS -[_ < _.+1]/(_ <= _) ltnS leq_divRL.
Qed.

(* C65.  The inverse matrix is recomputed in every twentieth turn, and in no other. *)
Theorem C65_recompute_partial :
  forall (t p : nat), 0 < p -> 20 * p < 2 ^ 32 ->
  forall n, n * p < 2 ^ 64 ->
  exists s tr, [/\ cycles t p n pinit = Ok (s, tr),
    count_mem Recompute tr = n %/ 20, count_mem Global tr = n &
    forall i, i < size tr -> nth Sweep tr i = Recompute -> 20 * p %| count_mem Sweep (take i tr)].
Proof.
move=> t p hp hs n hn; exists (at_turn t p n), (trace t p 0 n).
rewrite cyclesE // trace_recompute trace_global; split=> //.
pose P (b : seq part) (x : part) := x = Recompute -> 20 * p %| count_mem Sweep b.
apply: (@trace_ind t p P) => m i hm hi.
move=> /turn_recompute [h20 hc]; rewrite count_cat hc trace_sweep addnC -mulSn.
by rewrite dvdn_pmul2r.
Qed.

Lemma first_turn_UB t p : (20 * p) %% 2 ^ 32 = 0 -> cycles t p 1 pinit = UB.
Proof. by move=> hp; rewrite /cycles [obind (Ok _) _]/= /cycle /update hp. Qed.

Lemma wraps : (20 * 2 ^ 30) %% 2 ^ 32 = 0.
Proof.
have e x : 20 * x = 5 * (2 ^ 2 * x) by rewrite mulnA.
by rewrite e -expnD modnMl.
Qed.

(* C65 is false for every period: 20 * measurement_period is computed modulo 2^32, and for the
   accepted period 2^30 the remainder by it is a division by zero. *)
Theorem C65_wraparound_refuted :
  exists p, [/\ period_accepted p & forall t, cycles t p 1 pinit = UB].
Proof.
exists (2 ^ 30); split; first by rewrite /period_accepted expn_gt0 ltn_exp2l.
by move=> t; apply: first_turn_UB; exact: wraps.
Qed.

(* The run of all ranks.  sched lists, per reduction and rank, how many further turns went by
   before it and whether the rank was told to stop. *)
Section Ranks.
Variables (mc t p : nat).

(* turns done by rank r up to the k-th reduction *)
Definition turns_done (sched : seq (seq (nat * bool))) (r k : nat) : nat :=
  \sum_(i < k) (nth (0, false) (nth [::] sched i) r).1.+1.
(* steps measured by all ranks together *)
Definition measured (sched : seq (seq (nat * bool))) (R k : nat) : nat :=
  \sum_(r < R) (turns_done sched r k * p - t).
(* the run is over with reduction number j (counted from zero): some rank was told to stop, or
   together they measured something, and at least what was requested *)
Definition over (sched : seq (seq (nat * bool))) (R j : nat) : bool :=
  has snd (nth [::] sched j) || (0 < measured sched R j.+1) && (mc <= measured sched R j.+1).

(* the accumulated fraction of b stopped ranks and a measured steps *)
Definition acc_val (b a : nat) : xrat := if (mc == 0) && (0 < a) then PInf else Fin (b%:R + a%:R / mc%:R)%R.

Lemma acc_add b a r : xadd (acc_val b a) (local_fraction mc t px_exact r) =
  acc_val (b + rk_stopped r) (a + (if rk_stopped r then 0 else ps_step (rk_state r) - t)).
Proof.
rewrite /local_fraction; case: (rk_stopped r).
  by rewrite addn0 addn1 /acc_val; case: ifP => //= _; rewrite addrAC -(natrD _ b 1) addn1.
rewrite fractionE addn0 /progress_of; move: (_ - t) => m; rewrite /acc_val.
case: m => [|m]; first by rewrite addn0 /=; case: ifP => //= _; rewrite addr0.
case: (mc == 0) => /=; first by rewrite addnS /=; case: ifP.
by rewrite natrD mulrDl addrA.
Qed.

Lemma fold_acc rs b a : foldl xadd (acc_val b a) [seq local_fraction mc t px_exact r | r <- rs] =
  acc_val (b + count rk_stopped rs) (a + \sum_(r <- rs) (if rk_stopped r then 0 else ps_step (rk_state r) - t)).
Proof.
elim: rs b a => [|r rs IH] b a /=; first by rewrite big_nil !addn0.
by rewrite acc_add IH big_cons !addnA.
Qed.

Lemma reduce_ge rs : pa_ge (all_reduce mc t px_exact rs) (Fin 1%R : pa_num px_exact) =
  has rk_stopped rs || (0 < \sum_(r <- rs) (ps_step (rk_state r) - t)) && (mc <= \sum_(r <- rs) (ps_step (rk_state r) - t)).
Proof.
have -> : all_reduce mc t px_exact rs =
    foldl xadd (acc_val 0 0) [seq local_fraction mc t px_exact r | r <- rs].
  rewrite /all_reduce; case: rs => [|r rs] /=; first by rewrite /acc_val andbF mul0r addr0.
  congr foldl; rewrite /acc_val andbF mul0r addr0.
  by case: (local_fraction _ _ _ _) => //= x; rewrite add0r.
rewrite fold_acc !add0n; have [h|h] := boolP (has rk_stopped rs).
  rewrite /= /acc_val; case: ifP => //= _; move: h; rewrite has_count.
  case: (count _ _) => // n _; rewrite -[n.+1]addn1 natrD -addrA addrCA -[X in (X <= _)%R]addr0 ler_add2l.
  by rewrite addr_ge0 ?divr_ge0 ?ler0n.
have -> : count rk_stopped rs = 0 by apply/eqP; rewrite -leqn0 leqNgt -has_count.
have -> : \sum_(r <- rs) (if rk_stopped r then 0 else ps_step (rk_state r) - t) = \sum_(r <- rs) (ps_step (rk_state r) - t).
  elim: rs h => [|r rs IH]; first by rewrite !big_nil.
  by rewrite [has _ _]/= negb_or !big_cons => /andP[/negbTE-> h]; rewrite IH.
move: (\sum_(r <- rs) _) => m; rewrite orFb /acc_val [pa_ge _ _]/= add0r.
case: m => [|m]; first by rewrite andbF /= mul0r ler10.
case: mc => [|k] //; rewrite /=.
by rewrite ler_pdivl_mulr ?ltr0n // mul1r ler_nat.
Qed.

Hypotheses (p_gt0 : 0 < p) (p_small : 20 * p < 2 ^ 32).

Definition mk (x : nat * seq part) : rank := Rank (at_turn t p x.1) false x.2.
Definition mk2 (y : (nat * seq part) * (nat * bool)) : rank :=
  Rank (at_turn t p (y.1.1 + y.2.1.+1)) y.2.2 (y.1.2 ++ trace t p y.1.1 y.2.1.+1).

Lemma all_turnsE xs cs : size xs = size cs -> all (fun y => (y.1.1 + y.2.1.+1) * p < 2 ^ 64) (zip xs cs) ->
  all_turns t p (map mk xs) cs = Ok (map mk2 (zip xs cs)).
Proof.
elim: xs cs => [|x xs IH] [|c cs] // [hsz]; rewrite [zip _ _]/= [all _ _]/= => /andP[h1 h2].
rewrite [all_turns _ _ _ _]/= /rank_turns [rk_stopped _]/= [rk_state _]/= cycles_at //.
by rewrite [obind (Ok _) _]/= IH.
Qed.

Lemma turns_doneS cs sched r k : turns_done (cs :: sched) r k.+1 = (nth (0, false) cs r).1.+1 + turns_done sched r k.
Proof. by rewrite /turns_done big_ord_recl. Qed.

Definition measured_from (b : nat -> nat) sched R k := \sum_(r < R) ((b r + turns_done sched r k) * p - t).
Definition over_from (b : nat -> nat) sched R j : bool :=
  has snd (nth [::] sched j) || (0 < measured_from b sched R j.+1) && (mc <= measured_from b sched R j.+1).
Definition steps_from (b : nat -> nat) sched R k := [seq (b r + turns_done sched r k) * p | r <- iota 0 R].
Definition base (xs : seq (nat * seq part)) (r : nat) : nat := (nth (0, [::]) xs r).1.

Definition next (y : (nat * seq part) * (nat * bool)) : nat * seq part :=
  (y.1.1 + y.2.1.+1, y.1.2 ++ trace t p y.1.1 y.2.1.+1).

Lemma base_next xs cs r : size xs = size cs -> r < size xs ->
  base (map next (zip xs cs)) r = base xs r + (nth (0, false) cs r).1.+1.
Proof.
move=> hs hr; rewrite /base (nth_map ((0, [::]), (0, false))) ?size_zip -?hs ?minnn //.
by rewrite nth_zip.
Qed.

Lemma steps_mk2 xs cs : size xs = size cs ->
  [seq ps_step (rk_state r) | r <- map mk2 (zip xs cs)] = [seq (base xs r + (nth (0, false) cs r).1.+1) * p | r <- iota 0 (size xs)].
Proof.
move=> hs; apply: (@eq_from_nth _ 0); rewrite !size_map size_zip -hs minnn ?size_iota // => i hi.
rewrite -map_comp (nth_map ((0, [::]), (0, false))) ?size_zip -?hs ?minnn //.
by rewrite (nth_map 0) ?size_iota // nth_iota // add0n nth_zip.
Qed.

Lemma run_fromS A j rs cs sched : run_from mc t p A j rs (cs :: sched) =
  obind (all_turns t p rs cs) (fun rs' =>
      if pa_ge (all_reduce mc t A rs') (pa_N A 1%num)
      then Ok (Returned j.+1 rs' [seq ~~ rk_stopped r | r <- rs'])
      else run_from mc t p A j.+1 rs' sched).
Proof. by []. Qed.

Lemma run_fromE sched j0 xs :
  all (fun cs => size cs == size xs) sched ->
  (forall r, r < size xs -> (base xs r + turns_done sched r (size sched)) * p < 2 ^ 64) ->
  (forall j, j < size sched -> over_from (base xs) sched (size xs) j -> (forall i, i < j -> ~~ over_from (base xs) sched (size xs) i) ->
     exists rs, run_from mc t p px_exact j0 (map mk xs) sched = Ok (Returned (j0 + j).+1 rs [seq ~~ c.2 | c <- nth [::] sched j]) /\
       [seq ps_step (rk_state r) | r <- rs] = steps_from (base xs) sched (size xs) j.+1) /\
  ((forall j, j < size sched -> ~~ over_from (base xs) sched (size xs) j) ->
     exists rs, run_from mc t p px_exact j0 (map mk xs) sched = Ok (Running rs) /\
       [seq ps_step (rk_state r) | r <- rs] = steps_from (base xs) sched (size xs) (size sched)).
Proof.
elim: sched j0 xs => [|cs sched IH] j0 xs.
  move=> _ _; split=> // _; exists (map mk xs); split=> //.
  apply: (@eq_from_nth _ 0); rewrite !size_map ?size_iota // => i hi.
  rewrite -map_comp (nth_map (0, [::])) // (nth_map 0) ?size_iota // nth_iota // add0n /=.
  by rewrite /turns_done big_ord0 addn0.
rewrite [all _ _]/= => /andP[/eqP hc hall] hb.
have hs : size xs = size cs by [].
have hsn : size (map next (zip xs cs)) = size xs by rewrite size_map size_zip -hs minnn.
have hz : all (fun y => (y.1.1 + y.2.1.+1) * p < 2 ^ 64) (zip xs cs).
  apply/(all_nthP ((0, [::]), (0, false))) => i; rewrite size_zip -hs minnn => hi.
  rewrite (nth_zip _ _ _ hs); apply: leq_ltn_trans (hb _ hi); rewrite [size (_ :: _)]/= turns_doneS leq_mul2r addnA leq_addr.
  by rewrite orbT.
have hsum : \sum_(r <- map mk2 (zip xs cs)) (ps_step (rk_state r) - t) = measured_from (base xs) (cs :: sched) (size xs) 1.
  transitivity (\sum_(m <- [seq ps_step (rk_state r) | r <- map mk2 (zip xs cs)]) (m - t)); first by rewrite [RHS]big_map.
  rewrite steps_mk2 // big_map (_ : iota 0 (size xs) = index_iota 0 (size xs)) ?big_mkord; last by rewrite /index_iota subn0.
  rewrite /measured_from.
  by apply: eq_bigr => r _; rewrite turns_doneS /turns_done big_ord0 addn0.
have hhas : has rk_stopped (map mk2 (zip xs cs)) = has snd cs.
  by rewrite has_map -[in RHS](@unzip2_zip _ _ xs cs) ?hs // has_map; apply: eq_has.
have hov : pa_ge (all_reduce mc t px_exact (map mk2 (zip xs cs))) (pa_N px_exact 1%num) = over_from (base xs) (cs :: sched) (size xs) 0.
  by transitivity (pa_ge (all_reduce mc t px_exact (map mk2 (zip xs cs))) (Fin 1%R : pa_num px_exact)); rewrite ?reduce_ge ?hsum ?hhas.
have hrun : run_from mc t p px_exact j0 (map mk xs) (cs :: sched) =
    if over_from (base xs) (cs :: sched) (size xs) 0 then Ok (Returned j0.+1 (map mk2 (zip xs cs)) [seq ~~ c.2 | c <- cs])
    else run_from mc t p px_exact j0.+1 (map mk2 (zip xs cs)) sched.
  rewrite run_fromS all_turnsE // /obind hov; case: ifP => // _; congr (Ok (Returned _ _ _)).
  by rewrite -map_comp -[in RHS](@unzip2_zip _ _ xs cs) ?hs // -map_comp.
have hsh j : over_from (base (map next (zip xs cs))) sched (size xs) j = over_from (base xs) (cs :: sched) (size xs) j.+1.
  rewrite /over_from /=; suff -> : measured_from (base (map next (zip xs cs))) sched (size xs) j.+1 =
    measured_from (base xs) (cs :: sched) (size xs) j.+2 by [].
  by apply: eq_bigr => r _; rewrite base_next // turns_doneS addnA.
have hst k : steps_from (base (map next (zip xs cs))) sched (size xs) k = steps_from (base xs) (cs :: sched) (size xs) k.+1.
  apply/eq_in_map => r; rewrite mem_iota /= => hr.
  by rewrite base_next // turns_doneS addnA.
have hmk : ~~ over_from (base xs) (cs :: sched) (size xs) 0 -> map mk2 (zip xs cs) = map mk (map next (zip xs cs)).
  rewrite /over_from negb_or -hhas => /andP[+ _]; rewrite -all_predC all_map => /allP h.
  rewrite -map_comp; apply/eq_in_map => y hy; move: (h y hy); rewrite /= /mk2 /mk /next /=.
  by case: (y.2.2).
have [||IHa IHb] := IH j0.+1 (map next (zip xs cs)).
- by rewrite hsn; exact: hall.
- move=> r; rewrite hsn => hr; rewrite (base_next hs hr) -addnA -turns_doneS; exact: hb.
split.
  case=> [|j] hj ho hbef.
    exists (map mk2 (zip xs cs)); rewrite hrun ho addn0; split=> //.
    rewrite steps_mk2 //; apply/eq_map => r.
    by rewrite turns_doneS /turns_done big_ord0 addn0.
  have h0 := hbef 0 isT; rewrite hrun (negbTE h0) hmk //.
  have [|||rs [h1 h2]] := IHa j; rewrite ?hsn ?hsh //.
    by move=> i hi; rewrite hsh; apply: hbef.
  by exists rs; rewrite h1 h2 hsn hst addSn addnS; split.
move=> hno; have h0 := hno 0 isT; rewrite hrun (negbTE h0) hmk //.
have [|rs [h1 h2]] := IHb; first by move=> j hj; rewrite hsn hsh; apply: hno.
by exists rs; rewrite h1 h2 hsn hst; split.
Qed.

End Ranks.

(* C64.  In exact arithmetic all ranks leave the loop with the first reduction at which some
   rank was told to stop or all ranks together have done the requested number of steps after
   thermalization; before that none of them does.  The returned flags say which ranks were told
   to stop. *)
Theorem C64_run_exact_partial :
  forall (mc t p R : nat) (sched : seq (seq (nat * bool))), 0 < p -> 20 * p < 2 ^ 32 ->
  all (fun cs => size cs == R) sched ->
  (forall r, r < R -> turns_done sched r (size sched) * p < 2 ^ 64) ->
  (forall j, j < size sched -> over mc t p sched R j -> (forall i, i < j -> ~~ over mc t p sched R i) ->
     exists rs, run mc t p px_exact R sched = Ok (Returned j.+1 rs [seq ~~ c.2 | c <- nth [::] sched j]) /\
       [seq ps_step (rk_state r) | r <- rs] = [seq turns_done sched r j.+1 * p | r <- iota 0 R]) /\
  ((forall j, j < size sched -> ~~ over mc t p sched R j) ->
     exists rs, run mc t p px_exact R sched = Ok (Running rs) /\
       [seq ps_step (rk_state r) | r <- rs] = [seq turns_done sched r (size sched) * p | r <- iota 0 R]).
Proof.
move=> mc t p R sched hp hs hall hb.
have hb0 r : base (nseq R (0, [::])) r = 0 by rewrite /base nth_nseq; case: ifP.
have := @run_fromE mc t p hp hs sched 0 (nseq R (0, [::])); rewrite !size_nseq.
have ho j : over_from mc t p (base (nseq R (0, [::]))) sched R j = over mc t p sched R j.
  rewrite /over_from /over; suff -> : measured_from t p (base (nseq R (0, [::]))) sched R j.+1 = measured t p sched R j.+1 by [].
  by apply: eq_bigr => r _; rewrite hb0.
have hst k : steps_from p (base (nseq R (0, [::]))) sched R k = [seq turns_done sched r k * p | r <- iota 0 R].
  by apply: eq_map => r; rewrite hb0.
have -> : map (mk t p) (nseq R (0, [::])) = nseq R rank_init by rewrite map_nseq.
move=> /(_ hall) h; have [|ha hn] := h; first by move=> r hr; rewrite hb0; exact: hb.
split.
  move=> j hj hoj hbef; have [||rs hrs] := ha j hj; rewrite ?ho //.
    by move=> i hi; rewrite ho; exact: hbef.
  by exists rs; rewrite -hst.
move=> hno; have [|rs hrs] := hn; first by move=> j hj; rewrite ho; exact: hno.
by exists rs; rewrite -hst.
Qed.

(* C64 is false in binary64: 35 steps are requested; three ranks do 8, 9 and 18 of them, the
   fractions sum up to less than one in every order of the additions, and the run goes on. *)
Theorem C64_rounding_refuted :
  exists (mc t p : nat) (turns : seq nat),
    [/\ measured t p [:: [seq (k.-1, false) | k <- turns]] (size turns) 1 = mc,
        over mc t p [:: [seq (k.-1, false) | k <- turns]] (size turns) 0 &
    forall turns', perm_eq turns' turns ->
      exists rs, run mc t p px_binary64 (size turns) [:: [seq (k.-1, false) | k <- turns']] = Ok (Running rs)].
Proof.
have hm : measured 0 1 [:: [seq (k.-1, false) | k <- [:: 8; 9; 18]]] 3 1 = 35.
  by rewrite /measured /turns_done !big_ord_recl !big_ord0.
exists 35, 0, 1, [:: 8; 9; 18]; split; [exact: hm | by rewrite /over hm | ].
have hred a b c : perm_eq [:: a; b; c] [:: 8; 9; 18] -> 
    pa_ge (all_reduce 35 0 px_binary64 [:: Rank (at_turn 0 1 a) false [::]; Rank (at_turn 0 1 b) false [::]; Rank (at_turn 0 1 c) false [::]]) (pa_N px_binary64 1%num) = false.
  rewrite -mem_permutations => h.
  have : [:: a; b; c] \in [:: [:: 8; 9; 18]; [:: 8; 18; 9]; [:: 9; 8; 18]; [:: 9; 18; 8]; [:: 18; 8; 9]; [:: 18; 9; 8]].
    by move: h; rewrite !inE; do !case: (_ == _).
  by rewrite !inE => /or4P[/eqP[-> -> ->]|/eqP[-> -> ->]|/eqP[-> -> ->]|/or3P[] /eqP[-> -> ->]]; vm_compute.
case=> [|a [|b [|c [|d l]]]] h; try by move: (perm_size h).
have hp : (0 < 1) by [].
have hs : 20 * 1 < 2 ^ 32 by rewrite muln1 (@leq_trans (2 ^ 5)) // leq_exp2l.
have hk x : x \in [:: a; b; c] -> (0 < x) && (x <= 2 ^ 5).
  by rewrite (perm_mem h) !inE => /or3P[] /eqP->.
have hb x : x \in [:: a; b; c] -> (0 + x.-1.+1) * 1 < 2 ^ 64.
  move=> /hk /andP[h0 h5]; rewrite muln1 add0n (prednK h0); apply: leq_ltn_trans h5 _.
  by rewrite ltn_exp2l.
have hall : all (fun y : (nat * seq part) * (nat * bool) => (y.1.1 + y.2.1.+1) * 1 < 2 ^ 64) (zip (nseq 3 (0, [::])) [:: (a.-1, false); (b.-1, false); (c.-1, false)]).
  by rewrite [zip _ _]/= [all _ _]/= !hb ?inE ?eqxx ?orbT.
set rs := map (mk2 0 1) (zip (nseq 3 (0, [::])) [:: (a.-1, false); (b.-1, false); (c.-1, false)]).
exists rs; rewrite /run run_fromS.
have -> : nseq (size [:: 8; 9; 18]) rank_init = map (mk 0 1) (nseq 3 (0, [::])) by [].
rewrite (@all_turnsE 0 1 hp hs (nseq 3 (0, [::])) [:: (a.-1, false); (b.-1, false); (c.-1, false)] erefl hall) /obind -/rs.
have -> : pa_ge (all_reduce 35 0 px_binary64 rs) (pa_N px_binary64 1%num) = false.
  rewrite -(hred a b c h) /rs [zip _ _]/= [map _ _]/= /mk2 [fst _]/= !add0n.
  have h0 x : x \in [:: a; b; c] -> x.-1.+1 = x by move=> /hk /andP[h0 _]; rewrite prednK.
  by rewrite !h0 ?inE ?eqxx ?orbT.
by [].
Qed.

(* Concrete cases: thermalization of 5 steps, 7 requested, period 2. *)
Lemma small_period : 20 * 2 < 2 ^ 32.
Proof. by rewrite (@leq_trans (2 ^ 6)) // leq_exp2l. Qed.
Lemma small_turns n : n * 2 < 2 ^ 6 -> n * 2 < 2 ^ 64.
Proof. by move=> h; apply: leq_trans h _; rewrite leq_exp2l. Qed.

Example C50_ex : exists s3 e3 s6 e6,
  [/\ cycles 5 2 3 pinit = Ok (s3, e3), cycles 5 2 6 pinit = Ok (s6, e6),
      fraction_completed 7 5 px_exact s3 = Fin (1%:R / 7%:R)%R, xge (fraction_completed 7 5 px_exact s3) (Fin 1%R) = false &
      xge (fraction_completed 7 5 px_exact s6) (Fin 1%R)].
Proof.
have [|s3 [e3 [s6 [e6 [h3 h6 _ [f3 _ g3]]]]]] := @C50_fraction 7 5 2 isT small_period 3 6 isT; first exact: small_turns.
have [|s6' [e6' [_ [_ [h6' _ _ [_ _ g6]]]]]] := @C50_fraction 7 5 2 isT small_period 6 6 isT; first exact: small_turns.
move: h6'; rewrite h6 => -[e _]; rewrite -e in g6.
by exists s3, e3, s6, e6; split; rewrite ?f3 ?g3 ?g6.
Qed.

Example C50_ex_trace : exists s tr, [/\ cycles 5 2 6 pinit = Ok (s, tr),
  count_mem Measure tr = 4, count_mem Prepare tr = 1 & count_mem Sweep tr = 12].
Proof.
have [|s [tr [h1 h2 h3 h4 _]]] := @C50_measurements 5 2 isT small_period 6; first exact: small_turns.
by exists s, tr; split.
Qed.

Example C65_ex : exists s tr, cycles 5 2 23 pinit = Ok (s, tr) /\ count_mem Recompute tr = 1.
Proof.
have [|s [tr [h1 h2 _ _]]] := @C65_recompute_partial 5 2 isT small_period 23; first exact: small_turns.
by exists s, tr; split; [exact: h1 | rewrite h2].
Qed.

(* two ranks; the third reduction is the first with 7 steps measured by both together *)
Example C64_ex : exists rs,
  run 7 5 2 px_exact 2 [:: [:: (1, false); (0, false)]; [:: (1, false); (1, false)]; [:: (1, false); (1, false)]; [:: (0, true); (0, false)]] =
    Ok (Returned 3 rs [:: true; true]) /\ [seq ps_step (rk_state r) | r <- rs] = [:: 12; 10].
Proof.
set sched := [:: _; _; _; _].
have [||ha _] := @C64_run_exact_partial 7 5 2 2 sched isT small_period; first by [].
  move=> r hr; apply: small_turns; move: hr; rewrite /turns_done /sched !big_ord_recl big_ord0.
  by case: r => [|[|r]].
have hm k : k < 4 -> measured 5 2 sched 2 k = nth 0 [:: 0; 0; 4; 12] k.
  by case: k => [|[|[|[|k]]]] //; rewrite /measured /turns_done !big_ord_recl !big_ord0.
have [|||rs [h1 h2]] := ha 2; [by [] | by rewrite /over hm | by case=> [|[|i]] // _; rewrite /over hm | ].
exists rs; split; first exact: h1.
by move: h2 => ->; rewrite /= /turns_done !big_ord_recl !big_ord0.
Qed.

Print Assumptions C50_fraction.
Print Assumptions C50_measurements.
Print Assumptions C65_recompute_partial.
Print Assumptions C65_wraparound_refuted.
Print Assumptions C64_run_exact_partial.
Print Assumptions C64_rounding_refuted.
